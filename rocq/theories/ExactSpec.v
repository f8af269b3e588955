(** Vocabulary for C46-C49 and C69, C70: partial derivatives. *)
From Coq Require Import Reals Arith.
Open Scope R_scope.

(** The point [x] with coordinate [k] replaced by [t]. *)
Definition moved (x : nat -> R) (k : nat) (t : R) : nat -> R :=
  fun j => if Nat.eqb j k then t else x j.

(** [l] is the partial derivative of [f] in direction [k] at [x]. *)
Definition partial (k : nat) (f : (nat -> R) -> R) (x : nat -> R) (l : R) : Prop :=
  derivable_pt_lim (fun t => f (moved x k t)) (x k) l.

(** [g] is the gradient of [f] in the first [dim] directions, everywhere. *)
Definition gradient (dim : nat) (f : (nat -> R) -> R) (g : (nat -> R) -> nat -> R) : Prop :=
  forall x k, (k < dim)%nat -> partial k f x (g x k).

(** [s] is the divergence of the vector field [F] at [x]. *)
Fixpoint divergence (dim : nat) (F : (nat -> R) -> nat -> R) (x : nat -> R) (s : R) : Prop :=
  match dim with
  | O => s = 0
  | S m => exists s' l, divergence m F x s' /\ partial m (fun y => F y m) x l /\ s = s' + l
  end.
