(** Vocabulary for C55-C61, C72, C73. *)
From Coq Require Import ZArith QArith Qminmax List Arith.
From Verif Require Import Util RandModel.
Import ListNotations.
Open Scope nat_scope.

Definition power_of_two (n : nat) : Prop := exists k, n = 2 ^ k.
Definition product (l : list nat) : nat := fold_right Nat.mul 1 l.

(** Valid positions of a process grid. *)
Definition in_grid (pp pos : list nat) : Prop := Forall2 (fun p q => q < p) pp pos.

(** Points of the index range of a process in one direction: grid indices with
    distance at most [overlap] from the block of the process. *)
Definition in_range (r : range) (i : nat) : Prop := fst r <= i <= snd r.
Definition near_block (N len pos overlap i : nat) : Prop :=
  i <= N /\ exists b, len * pos <= b <= len * (pos + 1) /\ i <= b + overlap /\ b <= i + overlap.

Definition q (n : nat) : Q := inject_Z (Z.of_nat n).

(** Linear, bilinear and trilinear interpolation of a grid function in the cell
    with lower corner [i], [j], [k], at local coordinates in [0,1]. *)
Definition lin (a b t : Q) : Q := (a + t * (b - a))%Q.
Definition bilinear (g : nat -> nat -> Q) (i j : nat) (s t : Q) : Q :=
  lin (lin (g i j) (g i (S j)) t) (lin (g (S i) j) (g (S i) (S j)) t) s.
Definition trilinear (g : nat -> nat -> nat -> Q) (i j k : nat) (r s t : Q) : Q :=
  lin (bilinear (g i) j k s t) (bilinear (g (S i)) j k s t) r.

(** Cell number and local coordinate of a scaled coordinate. *)
Definition cell_of (p : Q) (i : nat) (t : Q) : Prop := (p == q i + t /\ 0 <= t /\ t < 1)%Q.

(** The local array holds the values of a global grid function on its ranges. *)
Definition holds2 (perm : list complex) (r0 r1 : range) (g : nat -> nat -> complex) : Prop :=
  length perm = size r0 * size r1 /\
  forall j0 j1, j0 < size r0 -> j1 < size r1 ->
    nth_error perm (j0 * size r1 + j1) = Some (g (fst r0 + j0) (fst r1 + j1)).
Definition holds3 (perm : list complex) (r0 r1 r2 : range) (g : nat -> nat -> nat -> complex) : Prop :=
  length perm = size r0 * (size r1 * size r2) /\
  forall j0 j1 j2, j0 < size r0 -> j1 < size r1 -> j2 < size r2 ->
    nth_error perm ((j0 * size r1 + j1) * size r2 + j2) = Some (g (fst r0 + j0) (fst r1 + j1) (fst r2 + j2)).

(** The windows hold the layers of a generated field with [2N] nodes per
    direction: rank [r] has the rows [r * n0, (r+1) * n0). *)
Definition layers2 (N n0 nProc : nat) (windows : list (list complex)) (g : nat -> nat -> complex) : Prop :=
  length windows = nProc /\ 0 < n0 /\ n0 * nProc = 2 * N /\
  forall r w, nth_error windows r = Some w ->
    n0 * (2 * N) <= length w /\
    forall i j, i < n0 -> j < 2 * N -> nth_error w (i * (2 * N) + j) = Some (g (r * n0 + i) j).
Definition layers3 (N n0 nProc : nat) (windows : list (list complex)) (g : nat -> nat -> nat -> complex) : Prop :=
  length windows = nProc /\ 0 < n0 /\ n0 * nProc = 2 * N /\
  forall r w, nth_error windows r = Some w ->
    n0 * (2 * N) * (2 * N) <= length w /\
    forall i j k, i < n0 -> j < 2 * N -> k < 2 * N ->
      nth_error w ((i * (2 * N) + j) * (2 * N) + k) = Some (g (r * n0 + i) j k).

(** Real or imaginary part. *)
Definition part_of (p : nat) (z : complex) : Q := match p with O => fst z | _ => snd z end.

(** A non-empty range inside the unit interval's grid. *)
Definition proper (N : nat) (r : range) : Prop := fst r < snd r /\ snd r <= N.
(** A point of the closed range. *)
Definition point_in (N : nat) (r : range) (x : Q) : Prop := (q (fst r) <= x * q N /\ x * q N <= q (snd r))%Q.

(** Points whose evaluation reads past the end of the local array: upper end of
    the first range, or its last cell together with the upper end of the second
    range (and so on). *)
Definition leaves2 (N : nat) (r0 r1 : range) (x0 x1 : Q) : Prop :=
  ((x0 * q N == q (snd r0)) \/ (q (snd r0 - 1) <= x0 * q N /\ x1 * q N == q (snd r1)))%Q.
Definition leaves3 (N : nat) (r0 r1 r2 : range) (x0 x1 x2 : Q) : Prop :=
  ((x0 * q N == q (snd r0)) \/ (q (snd r0 - 1) <= x0 * q N /\ leaves2 N r1 r2 x1 x2))%Q.

(** [k] calls of create. *)
Fixpoint calls (n : nat) (base normal : nat -> Q) (transform distribute : list complex -> list complex)
    (k : nat) (f : field) : field :=
  match k with
  | O => f
  | S m => create n base normal transform distribute (calls n base normal transform distribute m f)
  end.
