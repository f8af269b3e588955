(** Vocabulary for C82-C84: the variational problem behind the two global
    solvers, combinations of data, functions with nothing to correct. *)
From Coq Require Import Reals List Arith Bool.
From Verif Require Import RSum LinModel LinSpec.
Import ListNotations.
Open Scope R_scope.

(** Half the quadratic form minus the load. *)
Definition potential (n : nat) (A : nat -> nat -> R) (b v : nat -> R) : R :=
  / 2 * rsum n (fun i => rsum n (fun j => A i j * v j * v i)) - rsum n (fun i => b i * v i).

(** [v] has the prescribed boundary values. *)
Definition admissible (n : nat) (constrained : nat -> bool) (g v : nat -> R) : Prop :=
  forall i, (i < n)%nat -> constrained i = true -> v i = g i.

(** [u] has the smallest potential among all admissible vectors. *)
Definition minimises (n : nat) (constrained : nat -> bool) (A : nat -> nat -> R) (b g u : nat -> R) : Prop :=
  admissible n constrained g u /\
  forall v, admissible n constrained g v -> potential n A b u <= potential n A b v.

(** Symmetric, and not negative on vectors vanishing on the constrained unknowns. *)
Definition symmetric (n : nat) (A : nat -> nat -> R) : Prop :=
  forall i j, (i < n)%nat -> (j < n)%nat -> A i j = A j i.
Definition semidefinite (n : nat) (constrained : nat -> bool) (A : nat -> nat -> R) : Prop :=
  forall v, vanishes n constrained v ->
    0 <= rsum n (fun i => rsum n (fun j => A i j * v j * v i)).

(** a u + b v *)
Definition combine2 (a b : R) (u v : nat -> R) : nat -> R := fun i => a * u i + b * v i.
Definition combine_fields (a b : R) (u v : qpoint -> nat -> R) : qpoint -> nat -> R :=
  fun q k => a * u q k + b * v q k.

(** The field is orthogonal to every local function vanishing on the
    constrained unknowns: the flux is already in balance. *)
Definition balanced (d : nat) (qs : list qpoint) (n : nat) (constrained : nat -> bool)
  (field : qpoint -> nat -> R) : Prop :=
  forall y, vanishes n constrained y -> energy d qs field (field_of n y) = 0.

(** Only the zero function vanishes on the constrained unknowns and has no energy. *)
Definition coercive (d : nat) (qs : list qpoint) (n : nat) (constrained : nat -> bool) : Prop :=
  forall y, vanishes n constrained y -> energy d qs (field_of n y) (field_of n y) <= 0 ->
    forall i, (i < n)%nat -> y i = 0.
