(** Vocabulary for C88 and C89. *)
From Coq Require Import Reals List String.
Import ListNotations.
Open Scope R_scope.

(** Three lengths that can be the sides of a triangle. *)
Definition sides (a b c : R) : Prop := a <= b + c /\ b <= a + c /\ c <= a + b.

(** A table has value [v] at [k], where missing means zero. *)
Definition value_or_zero (t : list (string * R)) (k : string) (v : R) : Prop :=
  In (k, v) t \/ (~ In k (map fst t) /\ v = 0).
