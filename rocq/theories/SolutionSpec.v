(** Vocabulary for C79-C81. *)
From Coq Require Import Reals List Arith Bool.
From Verif Require Import Util StorageModel MsfemModel SpeModel BoundaryModel BoundarySpec RSum LinModel LinSpec.
Import ListNotations.

Section Spec.
Variable F : Scalar.

(** The local system of the cell has unit rows for the unknowns [con] ... *)
Definition unit_rows (c : cell F) (con : nat -> bool) : Prop :=
  forall s r x, c_solve F c s r = Some x -> forall j, con j = true -> nth j x (k0 F) = nth j r (k0 F).
(** ... and right hand sides without entries there. *)
Definition zero_entries (c : cell F) (con : nat -> bool) : Prop :=
  forall v j, con j = true -> nth j (c_constrain F c v) (k0 F) = k0 F.
End Spec.

Open Scope R_scope.

(** Real numbers as scalars. *)
Definition RS : Scalar :=
  {| K := R; k0 := 0; k1 := 1; kadd := Rplus; kmul := Rmult; ksub := Rminus; kopp := Ropp;
     k_ring := RTheory |}.

Definition entries (v : vec RS) : nat -> R := fun i => nth i v 0.

(** Value at grid node [js] of the multilinear function of a box with [ns]
    cells per axis that is one at corner [b] and zero at the other corners. *)
Fixpoint corner_function (b : list bool) (ns js : list nat) : R :=
  match b, ns, js with
  | u :: b', n :: ns', j :: js' =>
      (if u then INR j / INR n else 1 - INR j / INR n) * corner_function b' ns' js'
  | _, _, _ => 1
  end.

(** The cell's local systems: the stiffness matrix of [qs] with constraints
    [con], right hand sides minus the flux of the fields [field i] in the points
    [rs], solved exactly. *)
Definition exact_cell (c : cell RS) (d : nat) (qs rs : list qpoint) (con : nat -> bool)
    (field : nat -> qpoint -> nat -> R) : Prop :=
  (forall v i, (i < c_len RS c)%nat ->
     nth i (c_constrain RS c v) 0 = constrain_vector con (entries v) i) /\
  (forall k i, (k < c_n RS c)%nat -> (i < c_len RS c)%nat ->
     nth i (c_inner RS c k) 0 = local_rhs d rs (field k) i) /\
  (forall s r x, c_solve RS c s r = Some x ->
     solves (c_len RS c) (constrain_matrix con (stiffness d qs)) (entries r) (entries x)).
