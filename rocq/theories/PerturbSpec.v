(** Vocabulary for C121: two diffusions that differ little. *)
From Coq Require Import Reals List Arith Bool.
From Verif Require Import RSum LinModel.
Import ListNotations.
Open Scope R_scope.

(** Two symmetric matrices whose energies differ by at most the fraction
    [delta]. *)
Definition near (d : nat) (delta : R) (A A' : nat -> nat -> R) : Prop :=
  (forall i j, (i < d)%nat -> (j < d)%nat -> A i j = A j i) /\
  (forall i j, (i < d)%nat -> (j < d)%nat -> A' i j = A' j i) /\
  forall z : nat -> R, Rabs (dot d (mv d A' z) z - dot d (mv d A z) z) <= delta * dot d (mv d A z) z.
