(** Vocabulary for C95. *)
From Coq Require Import Reals List Arith Bool.
From Verif Require Import Util StorageModel MsfemModel RSum LinModel LinSpec SolutionSpec.
Import ListNotations.
Open Scope R_scope.

(** Coefficients of the sum of the [n] functions [h m] with factors [u m]. *)
Definition combine_fn (n : nat) (u : nat -> R) (h : nat -> nat -> R) : nat -> R :=
  fun j => rsum n (fun m => u m * h m j).

(** The cell has the right hand side of the Dirichlet corrector for the
    extension [g] (nodal values on the local grid). *)
Definition dirichlet_rhs (c : cell RS) (d : nat) (rs : list qpoint) (g : nat -> R) : Prop :=
  forall i, (i < c_len RS c)%nat ->
    nth i (c_dir RS c) 0 = local_rhs d rs (field_of (c_len RS c) g) i.

(** The cell's Neumann right hand side applied to a local function. *)
Definition flux_on (c : cell RS) (w : nat -> R) : R :=
  rsum (c_len RS c) (fun i => w i * nth i (c_neu RS c) 0).

(** [v] balances the cell's prescribed flux against all local functions that
    vanish on the constrained unknowns. *)
Definition balanced (c : cell RS) (d : nat) (qs : list qpoint) (con : nat -> bool) (v : nat -> R) : Prop :=
  forall w, vanishes (c_len RS c) con w ->
    energy d qs (field_of (c_len RS c) v) (field_of (c_len RS c) w) = flux_on c w.
