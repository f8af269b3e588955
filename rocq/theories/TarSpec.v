(** Vocabulary for C53. *)
From Coq Require Import ZArith List Arith Bool.
From Verif Require Import Util TarModel.
Import ListNotations.
Open Scope nat_scope.

Section Spec.
Variable point val : Type.
Variable dim : nat.
Variable interval : point -> nat -> Z.
Variable stride : nat -> Z.
Variable entry : nat -> Z -> val.

(** Offset of the cell with interval numbers [w]. *)
Fixpoint offset (n : nat) (w : nat -> Z) : Z :=
  match n with O => 0%Z | S m => (offset m w + w m * stride m)%Z end.

(** Diagonal of the permeability at point [x]. *)
Definition permeability (x : point) : list val :=
  map (fun k => entry k (offset dim (interval x))) (seq 0 dim).

(** Every result is the permeability of its own point. *)
Definition all_correct (ts : list (thread point val)) : Prop :=
  forall t x y, In t ts -> In (x, y) (done _ _ t) -> y = permeability x.

(** A schedule whose evaluations do not overlap: thread [i] runs for a whole
    evaluation, then the next block follows. *)
Definition one_evaluation : nat := 1 + 4 * dim.
Definition blocks (is : list nat) : list nat := flat_map (fun i => repeat i one_evaluation) is.

(** [y] has one entry per dimension, each from a cell whose interval numbers
    belong to evaluated points, possibly a different one per dimension. *)
Definition mixed (pts : list point) (y : list val) : Prop :=
  length y = dim /\
  forall k v, nth_error y k = Some v ->
    exists p : nat -> point, (forall d, d < dim -> In (p d) pts) /\
      v = entry k (offset dim (fun d => interval (p d) d)).
End Spec.
