(** Vocabulary for C125 and C126. *)
From Coq Require Import ZArith QArith Qround Qabs List Arith Bool.
From Verif Require Import Util LocalGridModel LocalGridSpec.
Import ListNotations.
Open Scope Q_scope.

(** 2^e, for negative e too. *)
Definition two (e : Z) : Q := Qpower (2 # 1) e.

(** Floating point numbers with 53 bits (double; exponents unbounded). *)
Definition representable (x : Q) : Prop :=
  exists m e : Z, (Z.abs m <= 2 ^ 53)%Z /\ x == inject_Z m * two e.

(** Any way of rounding to such numbers: results are such numbers, such numbers
    stay, the order is kept.  All IEEE rounding modes do. *)
Record rounding (rnd : Q -> Q) : Prop := {
  r_rep : forall x, representable (rnd x);
  r_keep : forall x, representable x -> rnd x == x;
  r_mono : forall x y, x <= y -> rnd x <= rnd y }.

(** ** Rounding to nearest, ties to even: the default of IEEE arithmetic. *)
Definition half_even (x : Q) : Z :=
  let m := Qfloor x in
  match Qcompare (x - inject_Z m) (1 # 2) with
  | Lt => m | Gt => (m + 1)%Z | Eq => if Z.even m then m else (m + 1)%Z
  end.
(** 2^(exponent x) <= x < 2^(exponent x + 1) for positive x. *)
Definition exponent (x : Q) : Z :=
  let k := (Z.log2 (Qnum x) - Z.log2 (Zpos (Qden x)))%Z in
  if Qle_bool (two k) x then k else (k - 1)%Z.
Definition magnitude (x : Q) : Q :=
  let e := (exponent x - 52)%Z in Qred (inject_Z (half_even (x * two (- e))) * two e).
Definition binary64 (x : Q) : Q :=
  match Qcompare x 0 with Eq => 0 | Gt => magnitude x | Lt => - magnitude (- x) end.

(** Base two logarithm, rounded in any of these ways: compared with numbers
    [a / 2^j] that are representable it is on the right side. *)
Definition rounded_log2 (lg : nat -> Q) : Prop :=
  forall (n : nat) a j, (0 < n)%nat -> (0 <= j)%Z -> (0 <= a <= 2 ^ 53)%Z ->
    ((2 ^ a <= Z.of_nat n ^ 2 ^ j)%Z -> inject_Z a * two (- j) <= lg n) /\
    ((Z.of_nat n ^ 2 ^ j <= 2 ^ a)%Z -> lg n <= inject_Z a * two (- j)).

(** Outcomes of the location of a point in the random field: same cell, same local coordinates. *)
Definition same_place (a b : option (nat * list Q)) : Prop :=
  match a, b with
  | Some (c, ts), Some (c', ts') => c = c' /\ Forall2 Qeq ts ts'
  | None, None => True
  | _, _ => False
  end.

(** ** C126: the directions of a coarse cell as the code sees it. *)
(** [a] is the computed version of the exact data [b] of coarse cell [c] of [n]
    cells of size [h], [m] fine cells in each: corners of the domain are
    floating point numbers, coordinates of the coarse cell have an error of at
    most [w] coarse cells, the domain is not too far from the origin. *)
Record computed (a b : axis) (h : Q) (n c m : Z) (w : Q) : Prop := {
  co_exact : structured b h n c m;
  co_gll : a_gll a = a_gll b; co_gur : a_gur a = a_gur b;
  co_micro : a_micro a = a_micro b; co_layers : a_layers a = a_layers b;
  co_rep : representable (a_gll a) /\ representable (a_gur a);
  co_min : Qabs (a_min a - a_min b) <= w * h;
  co_max : Qabs (a_max a - a_max b) <= w * h;
  co_far : two (-52) * (Qabs (a_gll a) + Qabs (a_gur a)) <= w * h;
  co_unit : two (-52) <= w;
  co_fine : 16 * inject_Z (n * m) * w <= 1 }.

(** The layers end exactly on the boundary of the domain, on one of the sides. *)
Definition touches (L n c m : Z) : Prop := (0 < L /\ (L = c * m \/ L = (n - 1 - c) * m))%Z.

(** Corners and number of cells of one direction of a local grid agree. *)
Definition same_grid (g k : gaxis) : Prop := g_lo g == g_lo k /\ g_hi g == g_hi k /\ g_n g = g_n k.
