(** Vocabulary for C19-C23. *)
From Coq Require Import List Arith ZArith QArith Lia Bool.
From Verif Require Import Util LocalGridModel.
Import ListNotations.

(** Coarse cell inside the domain, positive refinement factor, non-negative
    number of layers. *)
Definition axis_ok (a : axis) : Prop :=
  (a_gll a <= a_min a)%Q /\ (a_min a < a_max a)%Q /\ (a_max a <= a_gur a)%Q /\
  (0 < a_micro a)%Q /\ (0 <= a_layers a)%Z.

(** Cell number [c] of a coarse grid with [n] cells of size [h] in this
    direction, each refined into [m] fine cells. *)
Definition structured (a : axis) (h : Q) (n c m : Z) : Prop :=
  (0 < h)%Q /\ (0 <= c < n)%Z /\ (1 <= m)%Z /\ (0 <= a_layers a)%Z /\
  (a_min a == a_gll a + inject_Z c * h)%Q /\
  (a_max a == a_gll a + (inject_Z c + 1) * h)%Q /\
  (a_gur a == a_gll a + inject_Z n * h)%Q /\
  (a_micro a == inject_Z m)%Q.

(** [k] coarse cells between the cell and the domain boundary: either none or
    at least as many fine cells as layers. *)
Definition side_fits (a : axis) (m k : Z) : Prop := (k = 0 \/ a_layers a <= k * m)%Z.

Definition fits (a : axis) (n c m : Z) : Prop :=
  side_fits a m c /\ side_fits a m (n - 1 - c).

(** Local cell [j] is the [i]-th of the [m] equal parts of the coarse cell. *)
Definition is_part (a : axis) (m j i : Z) : Prop :=
  (inject_Z m * (node (local_axis a) j - a_min a) == inject_Z i * (a_max a - a_min a))%Q /\
  (inject_Z m * (node (local_axis a) (j + 1) - a_min a) ==
   (inject_Z i + 1) * (a_max a - a_min a))%Q.
