(** Regions of the problem Thirteen (C118). *)
From Coq Require Import Reals.
Open Scope R_scope.

(** Two horizontal strips that end before the right side of the unit square. *)
Definition strip_height (y : R) : Prop := 1/5 <= y <= 1/4 \/ 3/4 <= y <= 4/5.
Definition conductor (x y : R) : Prop := 0 <= x <= 4/5 /\ strip_height y.
(** A vertical bar between them. *)
Definition isolator (x y : R) : Prop := 19/40 <= x <= 21/40 /\ 7/20 <= y <= 13/20.
(** [n] is the largest integer not above [a]. *)
Definition is_floor (n : Z) (a : R) : Prop := IZR n <= a < IZR n + 1.
