(** Vocabulary for C119: means of the diffusion over a local grid. *)
From Coq Require Import Reals List Arith Bool.
From Verif Require Import Util RSum LinModel LinSpec QuadModel PatchSpec LayerSpec MaxSpec.
Import ListNotations.
Open Scope R_scope.

(** Mean over the local grid, by the rule of the order [o] in every fine cell, of
    a function of the position. *)
Definition average (d o : nat) (p : patch) (F : list R -> R) : R :=
  lsum (cells (pa_cells p)) (fun f => lsum (cube_rule d o) (fun q => snd q * F (pa_global p f (fst q)))) /
  INR (length (cells (pa_cells p))).

(** A local grid that is exactly the coarse cell, all outer nodes constrained. *)
Definition no_oversampling (hs : list R) (p : patch) : Prop :=
  sound (length hs) p /\ fills hs p /\ (forall f, pa_inside p f = true) /\
  outer_constrained (pa_cells p) (pa_num p) (pa_con p).

(** The rules of all these orders give the same energies on the local grid. *)
Definition same_energies (d : nat) (os : list nat) (diffusion : list R -> nat -> nat -> R) (p : patch) : Prop :=
  forall o o' y z, In o os -> In o' os ->
    energy d (patch_points d o diffusion p) (field_of (pa_n p) y) (field_of (pa_n p) z) =
    energy d (patch_points d o' diffusion p) (field_of (pa_n p) y) (field_of (pa_n p) z).

(** The diffusion is the matrix [A f] inside the fine cell [f]. *)
Definition cell_tensor (p : patch) (diffusion : list R -> nat -> nat -> R) (A : list nat -> nat -> nat -> R) : Prop :=
  forall f xs i j, In f (cells (pa_cells p)) -> length xs = length (pa_cells p) -> Forall (fun x => 0 < x < 1) xs ->
    (i < length (pa_cells p))%nat -> (j < length (pa_cells p))%nat -> diffusion (pa_global p f xs) i j = A f i j.

(** Symmetric without negative energy. *)
Definition symmetric_nonnegative (d : nat) (A : nat -> nat -> R) : Prop :=
  (forall i j, (i < d)%nat -> (j < d)%nat -> A i j = A j i) /\ forall z, 0 <= dot d (mv d A z) z.
