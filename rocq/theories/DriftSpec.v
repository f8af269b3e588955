(** Vocabulary for C137: the coarse system with rounded additions. *)
From Coq Require Import ZArith QArith Qreals Reals List Arith Bool.
From Verif Require Import Util RSum SmpModel RoundSpec FlSmpModel FlSmpSpec LinSpec InexactSpec.
Import ListNotations.
Open Scope R_scope.

(** Exact sum of all numbers that the cells add to an entry. *)
Definition exact_entry (cells : list (list cell)) (e : entry) : R := Q2R (total (map total (parts e (concat cells)))).

(** What rounding the additions can change in an entry, if an element adds the
    numbers of at most [q] quadrature points (C134). *)
Definition rounding_part (q : nat) (cells : list (list cell)) (e : entry) : R :=
  Q2R ((grown (length (parts e (concat cells)) + q) - 1) * total (map size_of (parts e (concat cells)))).

(** The numbers to be added are those of the system [M], [V] up to small errors;
    with rounded additions, every entry is right up to [de] in the matrix and
    [df] in the right hand side. *)
Definition nearly_given (n q : nat) (cells : list (list cell)) (M : nat -> nat -> R) (V : nat -> R) (de df : R) : Prop :=
  (forall e p, In p (parts e (concat cells)) -> (length p <= q)%nat) /\
  (forall i j, (i < n)%nat -> (j < n)%nat -> Rabs (exact_entry cells (Mat i j) - M i j) + rounding_part q cells (Mat i j) <= de) /\
  (forall i, (i < n)%nat -> Rabs (exact_entry cells (Vec i) - V i) + rounding_part q cells (Vec i) <= df).

(** The system a run leaves behind. *)
Definition left_matrix (s : machine) : nat -> nat -> R := fun i j => Q2R (m_mem s (Mat i j)).
Definition left_rhs (s : machine) : nat -> R := fun i => Q2R (m_mem s (Vec i)).

(** The energy of vectors without constrained entries is at least [c] times
    their sum of squares. *)
Definition stiff (n : nat) (con : nat -> bool) (M : nat -> nat -> R) (c : R) : Prop :=
  forall v, vanishes n con v -> c * squares n v <= rsum n (fun i => rsum n (fun j => M i j * v j * v i)).
