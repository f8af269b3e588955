(** Lemmas for C125 and C126: rounding to floating point numbers. *)
From Coq Require Import ZArith QArith Qround Qabs Qfield Qpower List Arith Bool Lia Lqa.
From Verif Require Import Util GridModel SpeModel SpeSpec RandModel LocalGridModel LocalGridSpec RoundModel RoundSpec.
Import ListNotations.
Open Scope Q_scope.

(** ** Powers of two *)
Lemma two_pos e : 0 < two e.
Proof. apply Qpower_0_lt; reflexivity. Qed.
Lemma two_add a b : two (a + b) == two a * two b.
Proof. apply Qpower_plus. intro H; discriminate H. Qed.
Lemma two_le a b : (a <= b)%Z -> two a <= two b.
Proof. intro H; apply Qpower_le_compat_l; [exact H|]. intro E; discriminate E. Qed.
Lemma two_lt a b : (a < b)%Z -> two a < two b.
Proof. intro H; apply Qpower_lt_compat_l; [exact H|reflexivity]. Qed.
Lemma two_lt_inv a b : two a < two b -> (a < b)%Z.
Proof. intro H. apply (Qpower_lt_compat_l_inv (2 # 1)); [exact H|reflexivity]. Qed.
Lemma two_Z a : (0 <= a)%Z -> two a == inject_Z (2 ^ a).
Proof. intro H. rewrite Zpower_Qpower by exact H. reflexivity. Qed.
Lemma two_0 : two 0 == 1. Proof. reflexivity. Qed.
Lemma two_opp a : two (- a) * two a == 1.
Proof. rewrite <- two_add. replace (- a + a)%Z with 0%Z by lia. reflexivity. Qed.
Lemma two_S a : two (a + 1) == two a * 2.
Proof. rewrite two_add. reflexivity. Qed.

Lemma inj_le a b : (a <= b)%Z -> inject_Z a <= inject_Z b.
Proof. intro H. rewrite <- Zle_Qle. exact H. Qed.
Lemma inj_lt a b : (a < b)%Z -> inject_Z a < inject_Z b.
Proof. intro H. rewrite <- Zlt_Qlt. exact H. Qed.
Lemma inj_le_inv a b : inject_Z a <= inject_Z b -> (a <= b)%Z.
Proof. intro H. rewrite Zle_Qle. exact H. Qed.
Lemma inj_lt_inv a b : inject_Z a < inject_Z b -> (a < b)%Z.
Proof. intro H. rewrite Zlt_Qlt. exact H. Qed.
Lemma inj_add a b : inject_Z (a + b) == inject_Z a + inject_Z b.
Proof. rewrite inject_Z_plus. reflexivity. Qed.
Lemma inj_sub a b : inject_Z (a - b) == inject_Z a - inject_Z b.
Proof. unfold Z.sub. rewrite inject_Z_plus, inject_Z_opp. reflexivity. Qed.
Lemma inj_mul a b : inject_Z (a * b) == inject_Z a * inject_Z b.
Proof. rewrite inject_Z_mult. reflexivity. Qed.

Lemma le_cancel a b c : 0 < c -> a * c <= b * c -> a <= b.
Proof. intros H. apply Qmult_le_r; exact H. Qed.
Lemma lt_cancel a b c : 0 < c -> a * c < b * c -> a < b.
Proof. intros H. apply Qmult_lt_r; exact H. Qed.

Lemma floor_is x z : inject_Z z <= x -> x < inject_Z z + 1 -> Qfloor x = z.
Proof.
  intros A B. pose proof (Qfloor_le x). pose proof (Qlt_floor x) as C.
  rewrite inj_add in C. change (inject_Z 1) with 1 in C.
  assert (Qfloor x < z + 1)%Z by (apply inj_lt_inv; rewrite inj_add; change (inject_Z 1) with 1; lra).
  assert (z < Qfloor x + 1)%Z by (apply inj_lt_inv; rewrite inj_add; change (inject_Z 1) with 1; lra).
  lia.
Qed.
Lemma floor_bounds x : inject_Z (Qfloor x) <= x /\ x < inject_Z (Qfloor x) + 1.
Proof.
  split; [apply Qfloor_le|]. pose proof (Qlt_floor x) as C. rewrite inj_add in C. exact C.
Qed.

(** ** The binary exponent *)
Lemma exponent_spec x : 0 < x -> two (exponent x) <= x /\ x < two (exponent x + 1).
Proof.
  intro P. unfold exponent. set (k := (Z.log2 (Qnum x) - Z.log2 (Zpos (Qden x)))%Z).
  assert (N : (0 < Qnum x)%Z) by (destruct x as [n d]; unfold Qlt in P; cbn in P |- *; lia).
  destruct (Z.log2_spec (Qnum x) N) as [A1 A2].
  destruct (Z.log2_spec (Zpos (Qden x)) eq_refl) as [B1 B2].
  pose proof (Z.log2_nonneg (Qnum x)) as LA. pose proof (Z.log2_nonneg (Zpos (Qden x))) as LB.
  unfold Z.succ in A2, B2.
  apply inj_le in A1, B1. apply inj_lt in A2, B2.
  rewrite <- two_Z in A1, B1, A2, B2 by lia.
  assert (E : x * inject_Z (Zpos (Qden x)) == inject_Z (Qnum x)).
  { destruct x as [n d]. unfold Qeq. cbn. ring_simplify. lia. }
  set (a := Z.log2 (Qnum x)) in *. set (b := Z.log2 (Zpos (Qden x))) in *.
  assert (U : x < two (k + 1)).
  { apply (lt_cancel _ _ (two b) (two_pos b)). rewrite <- two_add.
    replace (k + 1 + b)%Z with (a + 1)%Z by (unfold k; lia).
    assert (x * two b <= x * inject_Z (Zpos (Qden x))) by (apply Qmult_le_l; [exact P|exact B1]). lra. }
  assert (L : two (k - 1) < x).
  { apply (lt_cancel _ _ (two (b + 1)) (two_pos _)). rewrite <- two_add.
    replace (k - 1 + (b + 1))%Z with a by (unfold k; lia).
    assert (x * inject_Z (Zpos (Qden x)) < x * two (b + 1)) by (apply Qmult_lt_l; [exact P|exact B2]). lra. }
  destruct (Qle_bool (two k) x) eqn:D.
  - apply Qle_bool_iff in D. split; assumption.
  - assert (x < two k) by (apply Qnot_le_lt; intro Z; apply Qle_bool_iff in Z; congruence).
    replace (k - 1 + 1)%Z with k by lia. split; [lra|assumption].
Qed.

Lemma representable_intro m e x : (Z.abs m <= 2 ^ 53)%Z -> x == inject_Z m * two e -> representable x.
Proof. intros A B. exists m, e. split; assumption. Qed.
Lemma representable_comp x y : x == y -> representable x -> representable y.
Proof. intros E (m & e & A & B). exists m, e. split; [exact A|]. rewrite <- E; exact B. Qed.
Lemma representable_Z z : (Z.abs z <= 2 ^ 53)%Z -> representable (inject_Z z).
Proof. intro H. apply (representable_intro z 0); [exact H|]. rewrite two_0. ring. Qed.
Lemma representable_0 : representable 0.
Proof. apply (representable_Z 0). discriminate. Qed.
Lemma representable_opp x : representable x -> representable (- x).
Proof.
  intros (m & e & A & B). exists (- m)%Z, e. split; [rewrite Z.abs_opp; exact A|].
  rewrite B, inject_Z_opp. ring.
Qed.
Lemma representable_scale x e : representable x -> representable (x * two e).
Proof.
  intros (m & f & A & B). exists m, (f + e)%Z. split; [exact A|]. rewrite B, two_add. ring.
Qed.

(** ** How far rounding moves a number *)
Definition ulp : Q := two (-52).

Section Rounding.
Variable rnd : Q -> Q.
Hypothesis Hr : rounding rnd.

Lemma rnd_comp x y : x == y -> rnd x == rnd y.
Proof. intro E. apply Qle_antisym; apply (r_mono rnd Hr); lra. Qed.
Lemma rnd_0 : rnd 0 == 0.
Proof. apply (r_keep rnd Hr), representable_0. Qed.
Lemma rnd_Z z : (Z.abs z <= 2 ^ 53)%Z -> rnd (inject_Z z) == inject_Z z.
Proof. intro H. apply (r_keep rnd Hr), representable_Z, H. Qed.
Lemma rnd_nonneg x : 0 <= x -> 0 <= rnd x.
Proof. intro H. pose proof (r_mono rnd Hr 0 x H). pose proof rnd_0. lra. Qed.
Lemma rnd_nonpos x : x <= 0 -> rnd x <= 0.
Proof. intro H. pose proof (r_mono rnd Hr x 0 H). pose proof rnd_0. lra. Qed.
Lemma rnd_ge x y : representable y -> y <= x -> y <= rnd x.
Proof. intros R H. pose proof (r_mono rnd Hr y x H). pose proof (r_keep rnd Hr y R). lra. Qed.
Lemma rnd_le x y : representable y -> x <= y -> rnd x <= y.
Proof. intros R H. pose proof (r_mono rnd Hr x y H). pose proof (r_keep rnd Hr y R). lra. Qed.

Lemma rnd_near_pos x : 0 < x -> (1 - ulp) * x <= rnd x /\ rnd x <= (1 + ulp) * x.
Proof.
  intro P. destruct (exponent_spec x P) as [A B]. set (k := exponent x) in *.
  set (s := two (k - 52)). pose proof (two_pos (k - 52)) as SP. fold s in SP.
  destruct (floor_bounds (x * two (52 - k))) as [F1 F2]. set (m := Qfloor (x * two (52 - k))) in *.
  assert (I : two (52 - k) * s == 1).
  { unfold s. rewrite <- two_add. replace (52 - k + (k - 52))%Z with 0%Z by lia. reflexivity. }
  assert (M0 : (2 ^ 52 <= m)%Z).
  { assert (inject_Z (2 ^ 52) < inject_Z (m + 1)); [|apply inj_lt_inv in H; lia].
    rewrite <- two_Z, inj_add by lia. change (inject_Z 1) with 1.
    assert (two 52 <= x * two (52 - k)); [|lra].
    replace 52%Z with (k + (52 - k))%Z at 1 by lia. rewrite two_add.
    apply Qmult_le_r; [apply two_pos|exact A]. }
  assert (M1 : (m < 2 ^ 53)%Z).
  { apply inj_lt_inv. rewrite <- two_Z by lia.
    assert (x * two (52 - k) < two 53); [|lra].
    replace 53%Z with (k + 1 + (52 - k))%Z by lia. rewrite two_add.
    apply Qmult_lt_r; [apply two_pos|exact B]. }
  assert (L : inject_Z m * s <= x).
  { assert (inject_Z m * s <= x * two (52 - k) * s) by (apply Qmult_le_r; [exact SP|exact F1]).
    rewrite <- Qmult_assoc, I in H. lra. }
  assert (U : x < inject_Z (m + 1) * s).
  { assert (x * two (52 - k) * s < (inject_Z m + 1) * s) by (apply Qmult_lt_r; [exact SP|exact F2]).
    rewrite <- Qmult_assoc, I in H. rewrite inj_add. change (inject_Z 1) with 1. lra. }
  assert (RL : inject_Z m * s <= rnd x).
  { apply rnd_ge; [|exact L]. apply (representable_intro m (k - 52)); [lia|reflexivity]. }
  assert (RU : rnd x <= inject_Z (m + 1) * s).
  { apply rnd_le; [|lra]. apply (representable_intro (m + 1) (k - 52)); [lia|reflexivity]. }
  rewrite inj_add in U, RU. change (inject_Z 1) with 1 in U, RU.
  assert (S1 : s <= ulp * x).
  { unfold s, ulp. replace (k - 52)%Z with (-52 + k)%Z by lia. rewrite two_add.
    apply Qmult_le_l; [apply two_pos|exact A]. }
  split; lra.
Qed.

End Rounding.

Lemma rounding_opp rnd : rounding rnd -> rounding (fun x => - rnd (- x)).
Proof.
  intro H. split.
  - intro x. apply representable_opp, (r_rep rnd H).
  - intros x R. cbv beta. rewrite (r_keep rnd H (- x)) by (apply representable_opp, R). ring.
  - intros x y L. cbv beta. assert (rnd (- y) <= rnd (- x)) by (apply (r_mono rnd H); lra). lra.
Qed.

Lemma rnd_near rnd : rounding rnd -> forall x, Qabs (rnd x - x) <= ulp * Qabs x.
Proof.
  intros Hr x. destruct (Qlt_le_dec 0 x) as [P|N].
  - destruct (rnd_near_pos rnd Hr x P). rewrite (Qabs_pos x) by lra. apply Qabs_Qle_condition. split; lra.
  - destruct (Qlt_le_dec x 0) as [P|Z].
    + assert (P' : 0 < - x) by lra.
      destruct (rnd_near_pos _ (rounding_opp rnd Hr) (- x) P') as [A B].
      assert (E : rnd (- - x) == rnd x) by (apply rnd_comp; [exact Hr|ring]).
      rewrite E in A, B. rewrite (Qabs_neg x) by exact N. apply Qabs_Qle_condition. split; lra.
    + assert (E : x == 0) by lra. rewrite (rnd_comp rnd Hr x 0 E), (rnd_0 rnd Hr), E. discriminate.
Qed.

(** ** Rounding to nearest is one of the roundings *)
Lemma half_even_mono x y : x <= y -> (half_even x <= half_even y)%Z.
Proof.
  intro L. unfold half_even.
  pose proof (Qfloor_resp_le x y L) as F.
  destruct (floor_bounds x) as [X1 X2], (floor_bounds y) as [Y1 Y2].
  set (m := Qfloor x) in *. set (n := Qfloor y) in *.
  destruct (Z.eq_dec m n) as [E|E].
  - rewrite <- E in *.
    destruct (Qcompare_spec (x - inject_Z m) (1 # 2)), (Qcompare_spec (y - inject_Z m) (1 # 2));
      try destruct (Z.even m); try lia; exfalso; lra.
  - destruct (Qcompare_spec (x - inject_Z m) (1 # 2)), (Qcompare_spec (y - inject_Z n) (1 # 2));
      destruct (Z.even m), (Z.even n); lia.
Qed.
Lemma half_even_Z x z : x == inject_Z z -> half_even x = z.
Proof.
  intro E. unfold half_even. rewrite (floor_is x z) by lra.
  destruct (Qcompare_spec (x - inject_Z z) (1 # 2)); [exfalso; lra|reflexivity|exfalso; lra].
Qed.

Lemma exponent_unique x k : two k <= x -> x < two (k + 1) -> exponent x = k.
Proof.
  intros A B. assert (P : 0 < x) by (pose proof (two_pos k); lra).
  destruct (exponent_spec x P) as [C D].
  assert (exponent x < k + 1)%Z by (apply two_lt_inv; lra).
  assert (k < exponent x + 1)%Z by (apply two_lt_inv; lra). lia.
Qed.

Lemma magnitude_bounds x : 0 < x -> let e := (exponent x - 52)%Z in
  let m := half_even (x * two (- e)) in
  (2 ^ 52 <= m <= 2 ^ 53)%Z /\ magnitude x == inject_Z m * two e.
Proof.
  intros P e m. destruct (exponent_spec x P) as [A B].
  split; [|unfold magnitude; apply Qred_correct].
  assert (L : two 52 <= x * two (- e)).
  { replace 52%Z with (exponent x + - e)%Z by (unfold e; lia). rewrite two_add.
    apply Qmult_le_r; [apply two_pos|exact A]. }
  assert (U : x * two (- e) <= two 53).
  { replace 53%Z with (exponent x + 1 + - e)%Z by (unfold e; lia). rewrite two_add.
    apply Qmult_le_r; [apply two_pos|]. lra. }
  split.
  - rewrite <- (half_even_Z (two 52) (2 ^ 52)) by (apply two_Z; lia). apply half_even_mono, L.
  - rewrite <- (half_even_Z (two 53) (2 ^ 53)) by (apply two_Z; lia). apply half_even_mono, U.
Qed.

Lemma magnitude_pos x : 0 < x -> 0 < magnitude x.
Proof.
  intro P. destruct (magnitude_bounds x P) as [M E]. rewrite E.
  apply Qmult_lt_0_compat; [|apply two_pos]. apply (inj_lt 0). lia.
Qed.
Lemma magnitude_rep x : 0 < x -> representable (magnitude x).
Proof.
  intro P. destruct (magnitude_bounds x P) as [M E].
  refine (representable_intro _ _ _ _ E). lia.
Qed.
Lemma magnitude_mono x y : 0 < x -> x <= y -> magnitude x <= magnitude y.
Proof.
  intros P L. assert (P' : 0 < y) by lra.
  destruct (magnitude_bounds x P) as [M E], (magnitude_bounds y P') as [M' E'].
  destruct (exponent_spec x P) as [A B], (exponent_spec y P') as [A' B'].
  assert (K : (exponent x <= exponent y)%Z).
  { assert (exponent x < exponent y + 1)%Z by (apply two_lt_inv; lra). lia. }
  destruct (Z.eq_dec (exponent x) (exponent y)) as [K'|K'].
  - rewrite E, E', K'. rewrite <- K'. apply Qmult_le_r; [apply two_pos|].
    apply inj_le, half_even_mono. apply Qmult_le_r; [apply two_pos|exact L].
  - assert (U : magnitude x <= two (exponent x + 1)).
    { rewrite E. replace (exponent x + 1)%Z with (53 + (exponent x - 52))%Z by lia. rewrite two_add.
      apply Qmult_le_r; [apply two_pos|]. rewrite (two_Z 53) by lia. apply inj_le. lia. }
    assert (V : two (exponent y) <= magnitude y).
    { rewrite E'. replace (exponent y) with (52 + (exponent y - 52))%Z at 1 by lia. rewrite two_add.
      apply Qmult_le_r; [apply two_pos|]. rewrite (two_Z 52) by lia. apply inj_le. lia. }
    assert (two (exponent x + 1) <= two (exponent y)) by (apply two_le; lia). lra.
Qed.
Lemma magnitude_keep x : 0 < x -> representable x -> magnitude x == x.
Proof.
  intros P (m & e & M & E). unfold magnitude. rewrite Qred_correct.
  destruct (exponent_spec x P) as [A B].
  assert (Mp : (0 < m)%Z).
  { apply inj_lt_inv. apply (lt_cancel _ _ (two e) (two_pos e)). rewrite <- E. change (inject_Z 0) with 0. lra. }
  assert (I : exists z, x * two (- (exponent x - 52)) == inject_Z z).
  { destruct (Z.eq_dec m (2 ^ 53)) as [F|F].
    - exists (2 ^ 52)%Z. rewrite <- (two_Z 52) by lia.
      assert (X : x == two (53 + e)) by (rewrite E, F, two_add, (two_Z 53) by lia; reflexivity).
      assert (exponent x = 53 + e)%Z.
      { apply exponent_unique; [lra|]. rewrite X. apply two_lt. lia. }
      rewrite H, X, <- two_add. replace (53 + e + - (53 + e - 52))%Z with 52%Z by lia. reflexivity.
    - assert (x < two (53 + e)).
      { rewrite E, two_add. apply Qmult_lt_r; [apply two_pos|]. rewrite (two_Z 53) by lia. apply inj_lt. lia. }
      assert (exponent x < 53 + e)%Z by (apply two_lt_inv; lra).
      exists (m * 2 ^ (e - (exponent x - 52)))%Z. rewrite inj_mul, <- two_Z by lia.
      set (d := exponent x) in *. rewrite E, <- Qmult_assoc, <- two_add.
      replace (e + - (d - 52))%Z with (e - (d - 52))%Z by lia. reflexivity. }
  destruct I as [z I]. rewrite (half_even_Z _ z I), <- I, <- Qmult_assoc, two_opp. ring.
Qed.

Lemma binary64_rounding : rounding binary64.
Proof.
  split.
  - intro x. unfold binary64. destruct (Qcompare_spec x 0).
    + apply representable_0.
    + apply representable_opp, magnitude_rep. lra.
    + apply magnitude_rep. lra.
  - intros x R. unfold binary64. destruct (Qcompare_spec x 0).
    + lra.
    + rewrite magnitude_keep; [ring|lra|apply representable_opp, R].
    + apply magnitude_keep; [lra|exact R].
  - intros x y L. unfold binary64.
    destruct (Qcompare_spec x 0) as [X|X|X], (Qcompare_spec y 0) as [Y|Y|Y]; try (exfalso; lra).
    + lra.
    + pose proof (magnitude_pos y Y). lra.
    + assert (0 < - x) by lra. pose proof (magnitude_pos (- x) H). lra.
    + assert (magnitude (- y) <= magnitude (- x)) by (apply magnitude_mono; lra). lra.
    + assert (0 < - x) by lra. pose proof (magnitude_pos (- x) H). pose proof (magnitude_pos y Y). lra.
    + apply magnitude_mono; assumption.
Qed.

(** ** Overlap of the coarse grid *)
Lemma ceil_is x z : inject_Z z - 1 < x -> x <= inject_Z z -> Qceiling x = z.
Proof.
  intros A B. unfold Qceiling. rewrite (floor_is (- x) (- z)); [lia| |]; rewrite inject_Z_opp; lra.
Qed.
Lemma ceil_bounds x : inject_Z (Qceiling x) - 1 < x /\ x <= inject_Z (Qceiling x).
Proof.
  unfold Qceiling. destruct (floor_bounds (- x)). rewrite inject_Z_opp. split; lra.
Qed.

Lemma ceil_quotient rnd L m : rounding rnd -> (0 <= L < 2 ^ 52)%Z -> (1 <= m)%Z ->
  Qceiling (rnd (inject_Z L / inject_Z m)) = Qceiling (inject_Z L / inject_Z m).
Proof.
  intros Hr HL Hm. set (A := inject_Z L / inject_Z m).
  assert (Mp : 0 < inject_Z m) by (apply (inj_lt 0); lia).
  assert (AE : A * inject_Z m == inject_Z L) by (unfold A; field; lra).
  destruct (ceil_bounds A) as [B1 B2]. set (q := Qceiling A) in *.
  destruct (Z.eq_dec L 0) as [L0|L0].
  { assert (A0 : A == 0) by (unfold A; rewrite L0; unfold Qdiv; change (inject_Z 0) with 0; ring).
    apply ceil_is; rewrite (rnd_comp rnd Hr A 0 A0), (rnd_0 rnd Hr), <- A0; assumption. }
  assert (Q1 : (1 <= q)%Z).
  { assert (0 < q)%Z; [|lia]. apply inj_lt_inv. change (inject_Z 0) with 0.
    assert (0 < A); [|lra]. apply (lt_cancel _ _ (inject_Z m) Mp). rewrite AE.
    assert (0 < inject_Z L) by (apply (inj_lt 0); lia). lra. }
  assert (QL : ((q - 1) * m < L)%Z).
  { apply inj_lt_inv. rewrite inj_mul, inj_sub, <- AE. change (inject_Z 1) with 1.
    apply Qmult_lt_r; [exact Mp|exact B1]. }
  assert (QU : (q <= L)%Z) by nia.
  apply ceil_is.
  - set (j := (Z.log2 m + 1)%Z).
    destruct (Z.log2_spec m ltac:(lia)) as [J1 J2]. pose proof (Z.log2_nonneg m) as J0.
    assert (JJ : (2 ^ j = 2 * 2 ^ Z.log2 m)%Z) by (unfold j; rewrite Z.pow_add_r by lia; lia).
    assert (J3 : (m < 2 ^ j)%Z) by (unfold Z.succ in J2; exact J2).
    set (z := inject_Z ((q - 1) * 2 ^ j + 1) * two (- j)).
    assert (ZE : z == inject_Z q - 1 + two (- j)).
    { unfold z. rewrite inj_add, inj_mul, inj_sub, <- two_Z by (unfold j; lia). change (inject_Z 1) with 1.
      pose proof (two_opp j) as O.
      transitivity ((inject_Z q - 1) * (two (- j) * two j) + two (- j)); [ring|]. rewrite O. ring. }
    assert (ZR : representable z).
    { apply (representable_intro ((q - 1) * 2 ^ j + 1) (- j)); [|reflexivity]. nia. }
    assert (ZA : z <= A).
    { apply (le_cancel _ _ (inject_Z m) Mp). rewrite AE, ZE.
      assert (inject_Z ((q - 1) * m + 1) <= inject_Z L) by (apply inj_le; lia).
      rewrite inj_add, inj_mul, inj_sub in H. change (inject_Z 1) with 1 in H.
      assert (two (- j) * inject_Z m <= 1).
      { rewrite <- (two_opp j). apply Qmult_le_l; [apply two_pos|]. rewrite two_Z by (unfold j; lia).
        apply inj_le. lia. }
      lra. }
    pose proof (rnd_ge rnd Hr A z ZR ZA). pose proof (two_pos (- j)). lra.
  - apply rnd_le; [exact Hr| |exact B2]. apply representable_Z. lia.
Qed.

Lemma all_some_ext {A} (f g : Q -> option A) l : (forall x, In x l -> f x = g x) ->
  all_some (map f l) = all_some (map g l).
Proof. intro H. f_equal. apply map_ext_in. exact H. Qed.

Lemma overlap_same rnd c : rounding rnd -> (0 <= c_layers c < 2 ^ 52)%Z ->
  (forall m, In m (c_micro c) -> exists z, (1 <= z)%Z /\ m == inject_Z z) ->
  overlap_fl rnd c = setup_overlap c.
Proof.
  intros Hr HL HM. unfold overlap_fl, setup_overlap. apply all_some_ext. intros m I.
  destruct (HM m I) as (z & Hz & E). destruct (Qeq_bool m 0); [reflexivity|]. do 2 f_equal.
  assert (EQ : inject_Z (c_layers c) / m == inject_Z (c_layers c) / inject_Z z) by (rewrite E; reflexivity).
  rewrite (Qceiling_comp _ _ EQ), (Qceiling_comp _ _ (rnd_comp rnd Hr _ _ EQ)).
  apply ceil_quotient; assumption.
Qed.

(** ** Partition of the processes *)
Lemma bernoulli b n : (0 <= b)%Z -> (b ^ Z.of_nat n * (b + Z.of_nat n) <= (b + 1) ^ Z.of_nat n * b)%Z.
Proof.
  intro B. induction n as [|n IH].
  - change (Z.of_nat 0) with 0%Z. rewrite !Z.pow_0_r. lia.
  - rewrite Nat2Z.inj_succ, !Z.pow_succ_r by lia.
    assert (0 <= b ^ Z.of_nat n)%Z by (apply Z.pow_nonneg; exact B).
    assert (b ^ Z.of_nat n * (b * (b + Z.succ (Z.of_nat n))) <=
            b ^ Z.of_nat n * ((b + Z.of_nat n) * (b + 1)))%Z by (apply Z.mul_le_mono_nonneg_l; nia).
    nia.
Qed.
Lemma doubles b n : (0 < b)%Z -> (b <= n)%Z -> (2 * b ^ n <= (b + 1) ^ n)%Z.
Proof.
  intros B N. pose proof (bernoulli b (Z.to_nat n) ltac:(lia)) as H. rewrite Z2Nat.id in H by lia.
  assert (0 < b ^ n)%Z by (apply Z.pow_pos_nonneg; lia).
  assert (b ^ n * (b + b) <= b ^ n * (b + n))%Z by (apply Z.mul_le_mono_nonneg_l; lia).
  apply (Z.mul_le_mono_pos_r _ _ b B). lia.
Qed.

Lemma log2_between lg n : rounded_log2 lg -> (0 < n)%nat -> (Z.of_nat n < 2 ^ 46)%Z ->
  let k := Z.of_nat (Nat.log2 n) in
  if Nat.eqb (2 ^ Nat.log2 n) n then lg n == inject_Z k
  else inject_Z k < lg n /\ lg n < inject_Z k + 1.
Proof.
  intros HL Hn Hb k. destruct (Nat.log2_spec n Hn) as [A B].
  apply Nat2Z.inj_le in A. apply Nat2Z.inj_lt in B. rewrite Nat2Z.inj_pow in A, B.
  change (Z.of_nat 2) with 2%Z in A, B. fold k in A.
  replace (Z.of_nat (S (Nat.log2 n))) with (k + 1)%Z in B by (unfold k; lia).
  assert (K0 : (0 <= k)%Z) by (unfold k; lia).
  assert (K1 : (k < 46)%Z) by (apply (Z.pow_lt_mono_r_iff 2); lia).
  destruct (Nat.eqb_spec (2 ^ Nat.log2 n) n) as [E|E].
  - assert (EN : (2 ^ k = Z.of_nat n)%Z).
    { apply (f_equal Z.of_nat) in E. rewrite Nat2Z.inj_pow in E. exact E. }
    destruct (HL n k 0%Z Hn ltac:(lia) ltac:(lia)) as [C D].
    rewrite Z.pow_0_r, Z.pow_1_r in C, D. specialize (C ltac:(lia)). specialize (D ltac:(lia)).
    change (two (- 0)) with 1 in C, D. lra.
  - assert (EN : (2 ^ k < Z.of_nat n)%Z).
    { assert (2 ^ k <> Z.of_nat n)%Z; [|lia]. intro F. apply E. apply Nat2Z.inj.
      rewrite Nat2Z.inj_pow. exact F. }
    set (b := (2 ^ k)%Z) in *. assert (Bp : (0 < b)%Z) by (apply Z.pow_pos_nonneg; lia).
    assert (B46 : (b < 2 ^ 46)%Z) by lia.
    split.
    + destruct (HL n (k * b + 1)%Z k Hn K0) as [C _]; [nia|]. fold b in C.
      assert (P : (2 ^ (k * b + 1) <= Z.of_nat n ^ b)%Z).
      { rewrite Z.pow_add_r, Z.pow_mul_r by nia. fold b. rewrite Z.pow_1_r.
        pose proof (doubles b b Bp ltac:(lia)).
        assert ((b + 1) ^ b <= Z.of_nat n ^ b)%Z by (apply Z.pow_le_mono_l; lia). lia. }
      specialize (C P). rewrite inj_add, inj_mul in C. change (inject_Z 1) with 1 in C.
      assert (O : two (- k) * inject_Z b == 1) by (unfold b; rewrite <- two_Z by lia; apply two_opp).
      assert (T : (inject_Z k * inject_Z b + 1) * two (- k) == inject_Z k + two (- k)).
      { transitivity (inject_Z k * (two (- k) * inject_Z b) + two (- k)); [ring|]. rewrite O. ring. }
      pose proof (two_pos (- k)). lra.
    + set (N := (2 ^ (k + 1))%Z) in *.
      assert (NB : N = (2 * b)%Z) by (unfold N, b; rewrite Z.pow_add_r by lia; lia).
      destruct (HL n ((k + 1) * N - 1)%Z (k + 1)%Z Hn ltac:(lia)) as [_ D]; [nia|]. fold N in D.
      assert (P : (Z.of_nat n ^ N <= 2 ^ ((k + 1) * N - 1))%Z).
      { assert (2 * Z.of_nat n ^ N <= 2 * 2 ^ ((k + 1) * N - 1))%Z; [|lia].
        replace (2 * 2 ^ ((k + 1) * N - 1))%Z with (N ^ N)%Z.
        - assert (Z.of_nat n ^ N <= (N - 1) ^ N)%Z by (apply Z.pow_le_mono_l; lia).
          pose proof (doubles (N - 1) N ltac:(lia) ltac:(lia)) as F.
          replace (N - 1 + 1)%Z with N in F by lia. lia.
        - unfold N at 1. rewrite <- Z.pow_mul_r by lia.
          rewrite <- Z.pow_succ_r by nia. f_equal. lia. }
      specialize (D P). rewrite inj_sub, inj_mul, inj_add in D. change (inject_Z 1) with 1 in D.
      assert (O : two (- (k + 1)) * inject_Z N == 1) by (unfold N; rewrite <- two_Z by lia; apply two_opp).
      assert (T : ((inject_Z k + 1) * inject_Z N - 1) * two (- (k + 1)) ==
                  inject_Z k + 1 - two (- (k + 1))).
      { transitivity ((inject_Z k + 1) * (two (- (k + 1)) * inject_Z N) - two (- (k + 1))); [ring|].
        rewrite O. ring. }
      pose proof (two_pos (- (k + 1))). lra.
Qed.

Lemma partition_same lg dim n : rounded_log2 lg -> (0 < n)%nat -> (Z.of_nat n < 2 ^ 46)%Z ->
  partition_fl lg dim n = RandModel.partition dim n.
Proof.
  intros HL Hn Hb. pose proof (log2_between lg n HL Hn Hb) as H. cbv zeta in H.
  unfold partition_fl, RandModel.partition.
  destruct (Nat.eqb (2 ^ Nat.log2 n) n).
  - rewrite (Qfloor_comp _ _ H), Qfloor_Z, Nat2Z.id.
    replace (Qeq_bool (inject_Z (Z.of_nat (Nat.log2 n))) (lg n)) with true; [reflexivity|].
    symmetry. apply Qeq_bool_iff. symmetry. exact H.
  - destruct H as [A B]. rewrite (floor_is (lg n) (Z.of_nat (Nat.log2 n))) by lra. rewrite Nat2Z.id.
    replace (Qeq_bool (inject_Z (Z.of_nat (Nat.log2 n))) (lg n)) with false; [reflexivity|].
    symmetry. apply not_true_iff_false. intro E. apply Qeq_bool_iff in E. lra.
Qed.

(** A rounded logarithm (not one to be computed). *)
Definition some_log2 (n : nat) : Q := inject_Z (Z.log2 (Z.of_nat n ^ 2 ^ 52)) * two (-52).
Lemma some_log2_rounded : rounded_log2 some_log2.
Proof.
  intros n a j Hn Hj Ha. unfold some_log2.
  remember (2 ^ 52)%Z as W eqn:EW. assert (Wp : (0 < W)%Z) by lia.
  set (x := Z.of_nat n) in *. assert (X : (1 <= x)%Z) by (unfold x; lia).
  assert (XP : forall p, (0 <= p)%Z -> (0 < x ^ p)%Z) by (intros p Pp; apply Z.pow_pos_nonneg; lia).
  destruct (Z_le_gt_dec j 52) as [J|J].
  - set (d := (2 ^ (52 - j))%Z). assert (D : (W = 2 ^ j * d)%Z).
    { rewrite EW. unfold d. rewrite <- Z.pow_add_r by lia. f_equal. lia. }
    assert (Dp : (0 < d)%Z) by (apply Z.pow_pos_nonneg; lia).
    assert (Jp : (0 < 2 ^ j)%Z) by (apply Z.pow_pos_nonneg; lia).
    assert (T : inject_Z a * two (- j) == inject_Z (a * d) * two (-52)).
    { unfold d. rewrite inj_mul, <- (two_Z (52 - j)) by lia. rewrite <- Qmult_assoc, <- two_add.
      replace (52 - j + -52)%Z with (- j)%Z by lia. reflexivity. }
    rewrite T. split; intro H; (apply Qmult_le_r; [apply two_pos|]); apply inj_le.
    + apply Z.log2_le_pow2; [apply XP; lia|]. rewrite D, !Z.pow_mul_r by lia.
      apply Z.pow_le_mono_l. split; [apply Z.pow_nonneg; lia|exact H].
    + rewrite <- (Z.log2_pow2 (a * d)) by nia. apply Z.log2_le_mono. rewrite D, !Z.pow_mul_r by lia.
      apply Z.pow_le_mono_l. split; [apply Z.lt_le_incl, XP; lia|exact H].
  - assert (J53 : (2 ^ 53 <= 2 ^ j)%Z) by (apply Z.pow_le_mono_r; lia).
    destruct (Z.eq_dec x 1) as [X1|X1].
    { rewrite X1, !Z.pow_1_l by lia. change (Z.log2 1) with 0%Z. change (inject_Z 0) with 0. rewrite Qmult_0_l.
      pose proof (two_pos (- j)) as TP. split; intro H.
      - assert (a = 0)%Z.
        { destruct (Z_lt_le_dec 0 a) as [G|G]; [|lia].
          assert (2 ^ 1 <= 2 ^ a)%Z by (apply Z.pow_le_mono_r; lia). lia. }
        subst a. change (inject_Z 0) with 0. lra.
      - apply Qmult_le_0_compat; [apply (inj_le 0); lia|lra]. }
    assert (LW : (W <= Z.log2 (x ^ W))%Z).
    { rewrite <- (Z.log2_pow2 W) at 1 by lia. apply Z.log2_le_mono, Z.pow_le_mono_l. lia. }
    assert (ONE : inject_Z W * two (-52) == 1) by (rewrite EW; reflexivity).
    assert (LG : 1 <= inject_Z (Z.log2 (x ^ W)) * two (-52)).
    { rewrite <- ONE. apply Qmult_le_r; [apply two_pos|]. apply inj_le, LW. }
    split; intro H.
    + assert (inject_Z a * two (- j) <= 1); [|lra]. rewrite <- (two_opp j), (Qmult_comm (two (- j))).
      apply Qmult_le_r; [apply two_pos|]. rewrite two_Z by lia. apply inj_le. lia.
    + assert (P : (2 ^ 2 ^ j <= 2 ^ a)%Z).
      { apply Z.le_trans with (x ^ 2 ^ j)%Z; [|exact H]. apply Z.pow_le_mono_l. lia. }
      apply Z.pow_le_mono_r_iff in P; [|lia|lia].
      assert (AJ : a = (2 ^ j)%Z) by lia.
      assert (x = 2)%Z.
      { rewrite AJ in H. apply Z.pow_le_mono_l_iff in H; lia. }
      rewrite H0, Z.log2_pow2 by lia. rewrite ONE, AJ, <- two_Z by lia.
      rewrite Qmult_comm, two_opp. discriminate.
Qed.

(** ** Cell numbers by division *)
Lemma rel rnd x : rounding rnd -> exists t, - ulp <= t /\ t <= ulp /\ rnd x == x * (1 + t).
Proof.
  intro Hr. destruct (Qeq_dec x 0) as [Z|Z].
  - exists 0. split; [discriminate|]. split; [discriminate|].
    rewrite (rnd_comp rnd Hr x 0 Z), (rnd_0 rnd Hr), Z. ring.
  - pose proof (rnd_near rnd Hr x) as H.
    exists ((rnd x - x) / x).
    assert (A : Qabs ((rnd x - x) / x) <= ulp).
    { unfold Qdiv. rewrite Qabs_Qmult, Qabs_Qinv.
      assert (0 < Qabs x).
      { destruct (Qlt_le_dec 0 (Qabs x)) as [P|P]; [exact P|]. exfalso. apply Z.
        pose proof (Qabs_nonneg x). pose proof (Qle_Qabs x). pose proof (Qle_Qabs (- x)) as M.
        rewrite Qabs_opp in M. lra. }
      apply (le_cancel _ _ (Qabs x) H0).
      rewrite <- Qmult_assoc, (Qmult_comm (/ Qabs x)), Qmult_inv_r by lra. lra. }
    apply Qabs_Qle_condition in A. destruct A as [A B]. split; [exact A|]. split; [exact B|]. field. exact Z.
Qed.
Lemma ulp_small : 0 < ulp /\ ulp <= 1 # 100.
Proof. split; [reflexivity|discriminate]. Qed.

Lemma two_49 : two (-49) == 8 * ulp.
Proof. reflexivity. Qed.

(** Three roundings in the numerator, one in the denominator. *)
Lemma factor u t1 t2 t3 t4 : 0 < u -> u <= 1 # 100 -> - u <= t1 -> t1 <= u -> - u <= t2 -> t2 <= u ->
  - u <= t3 -> t3 <= u -> - u <= t4 -> t4 <= u ->
  1 - 8 * u <= (1 + t1) * (1 + t3) * (1 + t4) / (1 + t2) /\
  (1 + t1) * (1 + t3) * (1 + t4) / (1 + t2) <= 1 + 8 * u.
Proof.
  intros. assert (D : 0 < 1 + t2) by lra.
  assert (A1 : (1 - u) * (1 - u) <= (1 + t1) * (1 + t3) /\ (1 + t1) * (1 + t3) <= (1 + u) * (1 + u)).
  { split; apply Qmult_le_compat_nonneg; lra. }
  assert (A2 : (1 - u) * (1 - u) * (1 - u) <= (1 + t1) * (1 + t3) * (1 + t4) /\
               (1 + t1) * (1 + t3) * (1 + t4) <= (1 + u) * (1 + u) * (1 + u)).
  { assert (0 <= (1 - u) * (1 - u)) by (apply Qmult_le_0_compat; lra).
    split; apply Qmult_le_compat_nonneg; lra. }
  assert (UU : u * u <= u * (1 # 100)) by (apply Qmult_le_l; lra).
  assert (U0 : 0 <= u * u) by (apply Qmult_le_0_compat; lra).
  assert (U3 : u * u * u <= u * u * (1 # 100)) by (rewrite !(Qmult_comm (u * u)); apply Qmult_le_compat_r; lra).
  set (P := (1 + t1) * (1 + t3) * (1 + t4)) in *.
  assert (E : P / (1 + t2) * (1 + t2) == P) by (field; lra).
  split; apply (le_cancel _ _ (1 + t2) D); rewrite E.
  - assert ((1 - 8 * u) * (1 + t2) <= (1 - 8 * u) * (1 + u)) by (apply Qmult_le_l; lra). lra.
  - assert ((1 + 8 * u) * (1 - u) <= (1 + 8 * u) * (1 + t2)) by (apply Qmult_le_l; lra). lra.
Qed.

(** The quotient of the look-up, as a factor times the exact quotient. *)
Lemma quotient_near rnd N x y : rounding rnd -> 0 < y ->
  exists F, 1 - 8 * ulp <= F /\ F <= 1 + 8 * ulp /\
    rnd (N * rnd (rnd x / rnd y)) == N * (x * F / y).
Proof.
  intros Hr Y. destruct ulp_small as [U0 U1].
  destruct (rel rnd x Hr) as (t1 & A1 & B1 & E1). destruct (rel rnd y Hr) as (t2 & A2 & B2 & E2).
  destruct (rel rnd (rnd x / rnd y) Hr) as (t3 & A3 & B3 & E3).
  destruct (rel rnd (N * rnd (rnd x / rnd y)) Hr) as (t4 & A4 & B4 & E4).
  destruct (factor ulp t1 t2 t3 t4) as [FA FB]; try assumption.
  exists ((1 + t1) * (1 + t3) * (1 + t4) / (1 + t2)). split; [exact FA|]. split; [exact FB|].
  rewrite E4, E3, E1, E2. field. split; lra.
Qed.
Lemma quotient_near1 rnd x y : rounding rnd -> 0 < y ->
  exists F, 1 - 8 * ulp <= F /\ F <= 1 + 8 * ulp /\ rnd (x / rnd y) == x * F / y.
Proof.
  intros Hr Y. destruct ulp_small as [U0 U1].
  destruct (rel rnd y Hr) as (t2 & A2 & B2 & E2).
  destruct (rel rnd (x / rnd y) Hr) as (t3 & A3 & B3 & E3).
  destruct (factor ulp 0 t2 t3 0) as [FA FB]; try assumption; try (unfold ulp; discriminate).
  exists ((1 + 0) * (1 + t3) * (1 + 0) / (1 + t2)). split; [exact FA|]. split; [exact FB|].
  rewrite E3, E2. field. split; lra.
Qed.

Lemma which_near rnd ne ll ur c : rounding rnd -> (0 < ne < 2 ^ 63)%Z -> ll < ur -> ll <= c -> c <= ur ->
  exists i c', which_partition_fl rnd ne ll ur c = Some i /\
    SpeSpec.in_cell ne ll ur c' i /\ Qabs (c' - c) <= two (-49) * (c - ll).
Proof.
  intros Hr Hn W C1 C2. assert (Wp : 0 < ur - ll) by lra.
  destruct (quotient_near rnd (inject_Z ne) (c - ll) (ur - ll) Hr Wp) as (F & FA & FB & E).
  destruct ulp_small as [U0 U1].
  set (x := rnd (inject_Z ne * rnd (rnd (c - ll) / rnd (ur - ll)))) in *.
  assert (Np : 0 < inject_Z ne) by (apply (inj_lt 0); lia).
  set (y := (c - ll) * F) in *.
  assert (Y : Qabs (y - (c - ll)) <= two (-49) * (c - ll)).
  { rewrite two_49. apply Qabs_Qle_condition. unfold y.
    assert ((c - ll) * (1 - 8 * ulp) <= (c - ll) * F).
    { rewrite !(Qmult_comm (c - ll)). apply Qmult_le_compat_r; lra. }
    assert ((c - ll) * F <= (c - ll) * (1 + 8 * ulp)).
    { rewrite !(Qmult_comm (c - ll)). apply Qmult_le_compat_r; lra. }
    split; lra. }
  assert (X : x * (ur - ll) == inject_Z ne * y) by (rewrite E; field; lra).
  assert (Y0 : 0 <= y) by (unfold y; apply Qmult_le_0_compat; lra).
  assert (X0 : 0 <= x).
  { apply (le_cancel _ _ _ Wp). rewrite X, Qmult_0_l. apply Qmult_le_0_compat; lra. }
  destruct (floor_bounds x) as [F1 F2]. set (f := Qfloor x) in *.
  assert (f0 : (0 <= f)%Z) by (assert (0 < f + 1)%Z by (apply inj_lt_inv; rewrite inj_add; change (inject_Z 0) with 0; change (inject_Z 1) with 1; lra); lia).
  assert (YU : y <= 2 * (ur - ll)).
  { unfold y. assert ((c - ll) * F <= (ur - ll) * 2); [|lra]. apply Qmult_le_compat_nonneg; lra. }
  assert (f1 : (f < 2 ^ 64)%Z).
  { assert (f <= 2 * ne)%Z; [|lia]. apply inj_le_inv. rewrite inj_mul. change (inject_Z 2) with 2.
    assert (x <= 2 * inject_Z ne); [|lra]. apply (le_cancel _ _ _ Wp). rewrite X.
    assert (inject_Z ne * y <= inject_Z ne * (2 * (ur - ll))) by (apply Qmult_le_l; assumption). lra. }
  unfold which_partition_fl. fold x. fold f. unfold to_size_t.
  replace ((0 <=? f) && (f <? 2 ^ 64))%Z with true
    by (symmetry; apply andb_true_iff; split; [apply Z.leb_le|apply Z.ltb_lt]; assumption).
  apply Qabs_Qle_condition in Y. destruct Y as [Y1 Y2].
  assert (T : 0 <= two (-49) * (c - ll)) by (apply Qmult_le_0_compat; [discriminate|lra]).
  destruct (Z_lt_le_dec f ne) as [L|G].
  - exists (Z.min f (ne - 1)), (ll + y). split; [reflexivity|].
    rewrite Z.min_l by lia. split; [|apply Qabs_Qle_condition; split; lra].
    split; [lia|]. assert (YE : ll + y - ll == y) by ring. split.
    + rewrite YE, <- X. apply Qmult_le_r; assumption.
    + left. rewrite YE, <- X, inj_add. apply Qmult_lt_r; assumption.
  - exists (Z.min f (ne - 1)), ur. split; [reflexivity|].
    rewrite Z.min_r by lia.
    assert (UY : ur - ll <= y).
    { apply (le_cancel _ _ (inject_Z ne) Np). rewrite (Qmult_comm y), <- X, (Qmult_comm x).
      apply Qmult_le_l; [exact Wp|]. assert (inject_Z ne <= inject_Z f) by (apply inj_le, G). lra. }
    split; [|apply Qabs_Qle_condition; split; lra].
    split; [lia|]. split.
    + apply Qmult_le_r; [exact Wp|]. apply inj_le. lia.
    + right. split; [reflexivity|reflexivity].
Qed.

Lemma which_inside rnd ne ll ur c i : rounding rnd -> (0 < ne < 2 ^ 63)%Z -> ll < ur ->
  (0 <= i < ne)%Z ->
  ll + inject_Z i * ((ur - ll) / inject_Z ne) + two (-49) * (ur - ll) <= c ->
  c < ll + inject_Z (i + 1) * ((ur - ll) / inject_Z ne) - two (-49) * (ur - ll) ->
  which_partition_fl rnd ne ll ur c = Some i.
Proof.
  intros Hr Hn W Hi C1 C2. assert (Wp : 0 < ur - ll) by lra.
  assert (Np : 0 < inject_Z ne) by (apply (inj_lt 0); lia).
  set (s := (ur - ll) / inject_Z ne) in *.
  assert (S : s * inject_Z ne == ur - ll) by (unfold s; field; lra).
  assert (Sp : 0 < s) by (apply (lt_cancel _ _ _ Np); rewrite S, Qmult_0_l; exact Wp).
  assert (I0 : 0 <= inject_Z i * s) by (apply Qmult_le_0_compat; [apply (inj_le 0); lia|lra]).
  assert (I1 : inject_Z (i + 1) * s <= ur - ll).
  { rewrite <- S, (Qmult_comm s). apply Qmult_le_r; [exact Sp|]. apply inj_le. lia. }
  assert (TP : 0 < two (-49) * (ur - ll)) by (apply Qmult_lt_0_compat; [reflexivity|exact Wp]).
  destruct (which_near rnd ne ll ur c Hr Hn W) as (j & c' & E & (J & L & U) & D); [lra|lra|].
  rewrite E. f_equal.
  assert (TD : two (-49) * (c - ll) <= two (-49) * (ur - ll)) by (apply Qmult_le_l; [reflexivity|lra]).
  apply Qabs_Qle_condition in D. destruct D as [D1 D2].
  assert (LO : inject_Z i * s <= c' - ll) by lra.
  assert (HI : c' - ll < inject_Z (i + 1) * s) by lra.
  rewrite <- S in L, U.
  assert (A : (j < i + 1)%Z).
  { apply inj_lt_inv. apply (lt_cancel _ _ s Sp).
    assert (inject_Z j * s <= c' - ll); [|lra].
    apply (le_cancel _ _ _ Np). lra. }
  assert (B : (i < j + 1)%Z).
  { destruct U as [U|[U1 U2]]; [|lia].
    apply inj_lt_inv. apply (lt_cancel _ _ s Sp).
    assert (c' - ll < inject_Z (j + 1) * s); [|lra].
    apply (lt_cancel _ _ _ Np). lra. }
  lia.
Qed.

Lemma delta_pos dd : 0 < SpeModel.delta dd.
Proof. destruct dd as [|[|[|[|dd]]]]; reflexivity. Qed.

Lemma interval_near rnd x dd : rounding rnd -> 0 <= x dd ->
  exists x', interval_fl rnd x dd = interval x' dd /\ Qabs (x' dd - x dd) <= two (-49) * x dd.
Proof.
  intros Hr X. pose proof (delta_pos dd) as D.
  destruct (quotient_near1 rnd (x dd) (SpeModel.delta dd) Hr D) as (F & FA & FB & E).
  exists (fun _ => x dd * F). split.
  - unfold interval_fl, interval. apply Qfloor_comp. exact E.
  - rewrite two_49. apply Qabs_Qle_condition.
    assert (x dd * (1 - 8 * ulp) <= x dd * F).
    { rewrite !(Qmult_comm (x dd)). apply Qmult_le_compat_r; lra. }
    assert (x dd * F <= x dd * (1 + 8 * ulp)).
    { rewrite !(Qmult_comm (x dd)). apply Qmult_le_compat_r; lra. }
    split; lra.
Qed.

Lemma interval_range rnd x dd : rounding rnd -> (dd < 3)%nat -> 0 <= x dd ->
  x dd <= SpeSpec.tar_box dd * (1 + two (-49)) ->
  (0 <= interval_fl rnd x dd <= SpeSpec.tar_cells dd)%Z.
Proof.
  intros Hr Hd X0 X1. destruct (interval_near rnd x dd Hr X0) as (x' & E & D). rewrite E.
  apply Qabs_Qle_condition in D. destruct D as [D1 D2]. unfold interval.
  pose proof (delta_pos dd) as P. set (d := SpeModel.delta dd) in *.
  destruct (floor_bounds (x' dd / d)) as [F1 F2]. set (f := Qfloor (x' dd / d)) in *.
  assert (Q1 : x' dd / d * d == x' dd) by (field; lra).
  assert (B0 : 0 <= x' dd).
  { assert (two (-49) * x dd <= 1 * x dd) by (apply Qmult_le_compat_r; [discriminate|exact X0]). lra. }
  assert (B1 : x' dd < inject_Z (SpeSpec.tar_cells dd + 1) * d).
  { assert (x' dd <= SpeSpec.tar_box dd * ((1 + two (-49)) * (1 + two (-49)))).
    { assert (x dd * (1 + two (-49)) <= SpeSpec.tar_box dd * (1 + two (-49)) * (1 + two (-49))); [|lra].
      apply Qmult_le_compat_r; [exact X1|discriminate]. }
    eapply Qle_lt_trans; [exact H|].
    destruct dd as [|[|[|dd]]]; [reflexivity|reflexivity|reflexivity|lia]. }
  split.
  - assert (0 < f + 1)%Z; [|lia]. apply inj_lt_inv. rewrite inj_add. change (inject_Z 0) with 0. change (inject_Z 1) with 1.
    assert (0 <= x' dd / d); [|lra]. apply (le_cancel _ _ d P). rewrite Q1. lra.
  - assert (f < SpeSpec.tar_cells dd + 1)%Z; [|lia]. apply inj_lt_inv.
    eapply Qle_lt_trans; [exact F1|]. apply (lt_cancel _ _ d P). rewrite Q1. exact B1.
Qed.

(** ** Location in the random field *)
Lemma exact_sub rnd x z : rounding rnd -> representable x -> (0 <= z)%Z -> inject_Z z <= x ->
  x <= inject_Z (2 ^ 53) -> representable (x - inject_Z z) /\ rnd (x - inject_Z z) == x - inject_Z z.
Proof.
  intros Hr (m & e & M & E) Z L U.
  assert (R : representable (x - inject_Z z)); [|split; [exact R|apply (r_keep rnd Hr), R]].
  destruct (Z_le_gt_dec 0 e) as [P|P].
  - assert (X : x == inject_Z (m * 2 ^ e)) by (rewrite E, inj_mul, <- two_Z by exact P; reflexivity).
    apply (representable_comp (inject_Z (m * 2 ^ e - z))); [rewrite inj_sub, X; reflexivity|].
    rewrite X in L, U. apply inj_le_inv in L. apply inj_le_inv in U. apply representable_Z. lia.
  - pose proof (two_opp e) as O. pose proof (two_pos e) as TP.
    assert (O' : inject_Z (2 ^ (- e)) * two e == 1) by (rewrite <- (two_Z (- e)) by lia; exact O).
    assert (X : x - inject_Z z == inject_Z (m - z * 2 ^ (- e)) * two e).
    { rewrite inj_sub, inj_mul, E.
      transitivity (inject_Z m * two e - inject_Z z * (inject_Z (2 ^ (- e)) * two e)); [rewrite O'; ring|ring]. }
    apply (representable_intro (m - z * 2 ^ (- e)) e); [|exact X].
    assert (0 <= m - z * 2 ^ (- e))%Z.
    { apply inj_le_inv. change (inject_Z 0) with 0. apply (le_cancel _ _ _ TP). rewrite <- X. lra. }
    assert (0 <= z * 2 ^ (- e))%Z by (apply Z.mul_nonneg_nonneg; [exact Z|apply Z.pow_nonneg; lia]). lia.
Qed.

Lemma locate_same rnd k N : rounding rnd -> Z.of_nat N = (2 ^ k)%Z -> (0 <= k)%Z ->
  forall ranges x cell, Forall (fun r => (Z.of_nat (snd r) <= 2 ^ 53)%Z) ranges -> Forall representable x ->
  same_place (locate_fl rnd N ranges x cell) (locate N ranges x cell).
Proof.
  intros Hr HN Hk ranges. induction ranges as [|r rs IH]; intros x cell HR HX.
  - destruct x; cbn; split; constructor || reflexivity.
  - destruct x as [|x0 xs]; [cbn; split; constructor || reflexivity|].
    inversion HR as [|? ? R0 RS]; subst. inversion HX as [|? ? X0 XS]; subst.
    cbn [locate_fl locate].
    set (p := x0 * inject_Z (Z.of_nat N)). set (q := rnd p).
    assert (RP : representable p).
    { apply (representable_comp (x0 * two k)); [|apply representable_scale, X0].
      unfold p. rewrite HN, <- two_Z by exact Hk. reflexivity. }
    assert (E : q == p) by (apply (r_keep rnd Hr), RP).
    assert (B1 : Qle_bool (inject_Z (Z.of_nat (fst r))) q = Qle_bool (inject_Z (Z.of_nat (fst r))) p)
      by (rewrite E; reflexivity).
    assert (B2 : Qle_bool q (inject_Z (Z.of_nat (snd r))) = Qle_bool p (inject_Z (Z.of_nat (snd r))))
      by (rewrite E; reflexivity).
    rewrite B1, B2.
    destruct (Qle_bool (inject_Z (Z.of_nat (fst r))) p) eqn:C1; [|exact I].
    destruct (Qle_bool p (inject_Z (Z.of_nat (snd r)))) eqn:C2; [|exact I]. cbn [andb].
    apply Qle_bool_iff in C1, C2.
    assert (PU : p <= inject_Z (2 ^ 53)) by (apply inj_le in R0; lra).
    destruct (exact_sub rnd p (Z.of_nat (fst r)) Hr RP ltac:(lia) C1 PU) as [R1 E1].
    set (d := p - inject_Z (Z.of_nat (fst r))) in *.
    assert (E2 : rnd (q - inject_Z (Z.of_nat (fst r))) == d).
    { rewrite <- E1. apply (rnd_comp rnd Hr). unfold d. rewrite E. reflexivity. }
    set (d' := rnd (q - inject_Z (Z.of_nat (fst r)))) in *.
    rewrite (Qfloor_comp _ _ E2). set (j := Qfloor d).
    assert (D0 : 0 <= d) by (unfold d; lra).
    destruct (floor_bounds d) as [F1 F2]. fold j in F1, F2.
    assert (J0 : (0 <= j)%Z).
    { assert (0 < j + 1)%Z; [|lia]. apply inj_lt_inv. rewrite inj_add. change (inject_Z 0) with 0. change (inject_Z 1) with 1. lra. }
    assert (DU : d <= inject_Z (2 ^ 53)).
    { assert (0 <= inject_Z (Z.of_nat (fst r))) by (apply (inj_le 0); lia). unfold d. lra. }
    destruct (exact_sub rnd d j Hr R1 J0 F1 DU) as [R2 E3].
    specialize (IH xs (RandModel.size r * cell + Z.to_nat j)%nat RS XS).
    unfold same_place in IH |- *.
    destruct (locate_fl rnd N rs xs _) as [[c ts]|], (locate N rs xs _) as [[c' ts']|]; try exact IH.
    destruct IH as [IA IB]. split; [exact IA|]. constructor; [|exact IB].
    rewrite <- E3. apply (rnd_comp rnd Hr). rewrite E2. reflexivity.
Qed.

(** ** Local grids *)
Lemma Qlt_bool_iff x y : Qlt_bool x y = true <-> x < y.
Proof.
  unfold Qlt_bool. rewrite negb_true_iff. split.
  - intro H. apply Qnot_le_lt. intro L. apply Qle_bool_iff in L. congruence.
  - intro H. apply not_true_iff_false. intro L. apply Qle_bool_iff in L. lra.
Qed.
Lemma Qlt_bool_false x y : Qlt_bool x y = false <-> y <= x.
Proof. unfold Qlt_bool. rewrite negb_false_iff. apply Qle_bool_iff. Qed.

Lemma factor3 u w t1 t2 t3 : 0 < u -> u <= w -> w <= 1 # 16 -> - u <= t1 -> t1 <= u -> - u <= t2 -> t2 <= u ->
  - u <= t3 -> t3 <= u ->
  1 - 3 * w <= (1 + t1) * (1 + t2) * (1 + t3) /\ (1 + t1) * (1 + t2) * (1 + t3) <= 1 + (7 # 2) * w.
Proof.
  intros.
  assert (A1 : (1 - w) * (1 - w) <= (1 + t1) * (1 + t2) /\ (1 + t1) * (1 + t2) <= (1 + w) * (1 + w)).
  { split; apply Qmult_le_compat_nonneg; lra. }
  assert (A2 : (1 - w) * (1 - w) * (1 - w) <= (1 + t1) * (1 + t2) * (1 + t3) /\
               (1 + t1) * (1 + t2) * (1 + t3) <= (1 + w) * (1 + w) * (1 + w)).
  { assert (0 <= (1 - w) * (1 - w)) by (apply Qmult_le_0_compat; lra).
    split; apply Qmult_le_compat_nonneg; lra. }
  assert (WW : w * w <= w * (1 # 16)) by (apply Qmult_le_l; lra).
  assert (W0 : 0 <= w * w) by (apply Qmult_le_0_compat; lra).
  assert (W3 : w * w * w <= w * w * (1 # 16)) by (rewrite !(Qmult_comm (w * w)); apply Qmult_le_compat_r; lra).
  split; lra.
Qed.

Lemma layers_scaled w L M : 0 <= w -> (L <= M)%Z -> 16 * inject_Z M * w <= 1 -> 16 * (w * inject_Z L) <= 1.
Proof.
  intros W H F. assert (inject_Z L * w <= inject_Z M * w) by (apply Qmult_le_compat_r; [apply inj_le, H|exact W]). lra.
Qed.

(** [p] is [k] coarse cells above [q], up to g/16; [s] is about [L] layers. *)
Lemma below k m n L p q s g w : 0 < g -> 0 <= w -> 16 * inject_Z (n * m) * w <= 1 ->
  (0 <= L < k * m)%Z -> (k * m <= n * m)%Z ->
  s <= inject_Z L * g * (1 + 7 * w) -> q + inject_Z (k * m) * g - g * (1 # 16) <= p -> q <= p - s.
Proof.
  intros G W F HL HK S P.
  pose proof (layers_scaled w L (n * m) W ltac:(lia) F) as B.
  assert (A : inject_Z (L + 1) * g <= inject_Z (k * m) * g)
    by (apply Qmult_le_r; [exact G|apply inj_le; lia]).
  rewrite inj_add in A. change (inject_Z 1) with 1 in A.
  assert (D : 16 * (w * inject_Z L) * g <= 1 * g) by (apply Qmult_le_r; assumption). lra.
Qed.
Lemma above k m n L p q s g w : 0 < g -> 0 <= w -> 16 * inject_Z (n * m) * w <= 1 -> (1 <= m)%Z ->
  (k * m < L)%Z -> (0 <= k < n)%Z ->
  inject_Z L * g * (1 - 7 * w) <= s -> p <= q + inject_Z (k * m) * g + g * (1 # 16) -> p - s <= q - g * (1 # 2).
Proof.
  intros G W F Hm HL HK S P. set (K := (k * m + 1)%Z).
  pose proof (layers_scaled w K (n * m) W ltac:(unfold K; nia) F) as B.
  pose proof (layers_scaled w 1 (n * m) W ltac:(nia) F) as B1. change (inject_Z 1) with 1 in B1.
  assert (A : inject_Z K * g * (1 - 7 * w) <= inject_Z L * g * (1 - 7 * w)).
  { apply Qmult_le_compat_r; [|lra]. apply Qmult_le_compat_r; [apply inj_le; unfold K; lia|lra]. }
  assert (D : 16 * (w * inject_Z K) * g <= 1 * g) by (apply Qmult_le_r; assumption).
  unfold K in *. rewrite inj_add in A, D. change (inject_Z 1) with 1 in A, D. lra.
Qed.

Section LocalGrid.
Variables (rnd : Q -> Q) (a b : axis) (h : Q) (n c m : Z) (w : Q).
Hypothesis Hr : rounding rnd.
Hypothesis Hc : computed a b h n c m w.

Let g : Q := h / inject_Z m.
Let L : Z := a_layers a.
Let s : Q := rnd (inject_Z L * delta_fl rnd a).

Lemma units : 0 < h /\ 0 < g /\ inject_Z m * g == h /\ 0 < w /\ ulp <= w /\ w <= 1 # 16 /\
  (1 <= m)%Z /\ (0 <= c < n)%Z /\ (0 <= L)%Z /\ w * h <= g * (1 # 16).
Proof.
  destruct Hc as [E _ _ _ El _ _ _ _ U F]. destruct E as (Hh & Hcn & Hm & HL & _).
  assert (Mp : 0 < inject_Z m) by (apply (inj_lt 0); lia).
  assert (GE : inject_Z m * g == h) by (unfold g; field; lra).
  assert (Gp : 0 < g) by (apply (lt_cancel _ _ (inject_Z m) Mp); rewrite (Qmult_comm g), GE, Qmult_0_l; exact Hh).
  change (two (-52)) with ulp in U. destruct ulp_small as [U0 _].
  pose proof (layers_scaled w 1 (n * m) ltac:(lra) ltac:(nia) F) as B1. change (inject_Z 1) with 1 in B1.
  pose proof (layers_scaled w m (n * m) ltac:(lra) ltac:(nia) F) as Bm.
  assert (16 * (w * inject_Z m) * g <= 1 * g) by (apply Qmult_le_r; assumption).
  assert (LL : (0 <= L)%Z) by (unfold L; rewrite El; exact HL).
  repeat split; try assumption; try lra; try lia.
  assert (w * h == w * inject_Z m * g) by (rewrite <- GE; ring). lra.
Qed.

Lemma shift_bounds : inject_Z L * g * (1 - 7 * w) <= s /\ s <= inject_Z L * g * (1 + 7 * w).
Proof.
  destruct units as (Hh & Gp & GE & W0 & UW & W1 & Hm & Hcn & HL & WH).
  destruct ulp_small as [U0 U1].
  assert (Mp : 0 < inject_Z m) by (apply (inj_lt 0); lia).
  destruct (rel rnd (a_max a - a_min a) Hr) as (t1 & A1 & B1 & E1).
  destruct (rel rnd (rnd (a_max a - a_min a) / a_micro a) Hr) as (t2 & A2 & B2 & E2).
  destruct (rel rnd (inject_Z L * delta_fl rnd a) Hr) as (t3 & A3 & B3 & E3).
  destruct (factor3 ulp w t1 t2 t3) as [FA FB]; try assumption.
  destruct Hc as [E _ _ Em _ _ Cmin Cmax _ _ _].
  destruct E as (_ & _ & _ & _ & Emin & Emax & _ & Emi).
  assert (MI : a_micro a == inject_Z m) by (rewrite Em; exact Emi).
  set (H := a_max a - a_min a) in *.
  set (F := (1 + t1) * (1 + t2) * (1 + t3)) in *.
  assert (SE : s == inject_Z L * g * (H / h * F)).
  { unfold s. rewrite E3. unfold delta_fl. fold H. rewrite E2, E1, MI. unfold F, g. field. split; lra. }
  apply Qabs_Qle_condition in Cmin, Cmax. destruct Cmin as [C1 C2], Cmax as [C3 C4].
  assert (HH : H / h * h == H) by (field; lra).
  assert (H1 : 1 - 2 * w <= H / h) by (apply (le_cancel _ _ h Hh); rewrite HH; unfold H; lra).
  assert (H2 : H / h <= 1 + 2 * w) by (apply (le_cancel _ _ h Hh); rewrite HH; unfold H; lra).
  assert (P1 : 1 - 7 * w <= H / h * F).
  { assert ((1 - 2 * w) * (1 - 3 * w) <= H / h * F) by (apply Qmult_le_compat_nonneg; lra).
    assert (0 <= w * w) by (apply Qmult_le_0_compat; lra). lra. }
  assert (P2 : H / h * F <= 1 + 7 * w).
  { assert (H / h * F <= (1 + 2 * w) * (1 + (7 # 2) * w)) by (apply Qmult_le_compat_nonneg; lra).
    assert (w * w <= w * (1 # 16)) by (apply Qmult_le_l; lra). lra. }
  assert (LG : 0 <= inject_Z L * g) by (apply Qmult_le_0_compat; [apply (inj_le 0); exact HL|lra]).
  rewrite SE. rewrite !(Qmult_comm (inject_Z L * g)). split; apply Qmult_le_compat_r; assumption.
Qed.

Lemma min_near : Qabs (a_min a - (a_gll a + inject_Z (c * m) * g)) <= g * (1 # 16).
Proof.
  destruct units as (Hh & Gp & GE & W0 & UW & W1 & Hm & Hcn & HL & WH).
  destruct Hc as [E E1 _ _ _ _ Cmin _ _ _ _]. destruct E as (_ & _ & _ & _ & Emin & _).
  assert (X : a_gll a + inject_Z (c * m) * g == a_min b).
  { rewrite Emin, E1, inj_mul, <- Qmult_assoc, GE. reflexivity. }
  rewrite X. lra.
Qed.
Lemma max_near : Qabs (a_max a - (a_gur a - inject_Z ((n - 1 - c) * m) * g)) <= g * (1 # 16).
Proof.
  destruct units as (Hh & Gp & GE & W0 & UW & W1 & Hm & Hcn & HL & WH).
  destruct Hc as [E _ E1 _ _ _ _ Cmax _ _ _]. destruct E as (_ & _ & _ & _ & _ & Emax & Egur & _).
  assert (X : a_gur a - inject_Z ((n - 1 - c) * m) * g == a_max b).
  { rewrite Emax, E1, Egur, inj_mul, <- Qmult_assoc, GE, !inj_sub. change (inject_Z 1) with 1. ring. }
  rewrite X. lra.
Qed.

(** A number at most half a fine cell below a corner is rounded to one below it. *)
Lemma stays_below f q y : rounding f -> ulp * Qabs q <= g * (1 # 16) -> y <= q - g * (1 # 2) -> f y < q.
Proof.
  intros Hf Fq Y. destruct units as (Hh & Gp & GE & W0 & UW & W1 & _). destruct ulp_small as [U0 U1].
  pose proof (r_mono f Hf _ _ Y) as M. pose proof (rnd_near f Hf (q - g * (1 # 2))) as N.
  apply Qabs_Qle_condition in N. destruct N as [_ N].
  assert (T : Qabs (q - g * (1 # 2)) <= Qabs q + g * (1 # 2)).
  { unfold Qminus. eapply Qle_trans; [apply Qabs_triangle|]. rewrite Qabs_opp, (Qabs_pos (g * (1 # 2))) by lra. lra. }
  assert (ulp * Qabs (q - g * (1 # 2)) <= ulp * (Qabs q + g * (1 # 2))) by (apply Qmult_le_l; assumption).
  assert (ulp * g <= (1 # 100) * g) by (apply Qmult_le_r; assumption). lra.
Qed.

Lemma corner_small : ulp * Qabs (a_gll a) <= g * (1 # 16) /\ ulp * Qabs (a_gur a) <= g * (1 # 16).
Proof.
  destruct units as (Hh & Gp & GE & W0 & UW & W1 & Hm & Hcn & HL & WH). destruct ulp_small as [U0 U1].
  pose proof (co_far _ _ _ _ _ _ _ Hc) as F. change (two (-52)) with ulp in F.
  pose proof (Qabs_nonneg (a_gll a)) as P1. pose proof (Qabs_nonneg (a_gur a)) as P2.
  assert (0 <= ulp * Qabs (a_gll a)) by (apply Qmult_le_0_compat; lra).
  assert (0 <= ulp * Qabs (a_gur a)) by (apply Qmult_le_0_compat; lra). split; lra.
Qed.

Lemma left_inside : (L < c * m)%Z -> a_gll a <= left_fl rnd a.
Proof.
  intro HL'. destruct units as (Hh & Gp & GE & W0 & UW & W1 & Hm & Hcn & HL & WH).
  destruct shift_bounds as [S1 S2]. pose proof min_near as N. apply Qabs_Qle_condition in N. destruct N as [N1 N2].
  apply rnd_ge; [exact Hr|apply (co_rep _ _ _ _ _ _ _ Hc)|].
  apply (below c m n L (a_min a) (a_gll a) s g w); try assumption; try lra; try nia.
  apply (co_fine _ _ _ _ _ _ _ Hc).
Qed.
Lemma left_outside : (c * m < L)%Z -> left_fl rnd a < a_gll a.
Proof.
  intro HL'. destruct units as (Hh & Gp & GE & W0 & UW & W1 & Hm & Hcn & HL & WH).
  destruct shift_bounds as [S1 S2]. pose proof min_near as N. apply Qabs_Qle_condition in N. destruct N as [N1 N2].
  apply stays_below; [exact Hr|apply corner_small|].
  apply (above c m n L (a_min a) (a_gll a) s g w); try assumption; try lra; try nia.
  apply (co_fine _ _ _ _ _ _ _ Hc).
Qed.
Lemma right_inside : (L < (n - 1 - c) * m)%Z -> right_fl rnd a <= a_gur a.
Proof.
  intro HL'. destruct units as (Hh & Gp & GE & W0 & UW & W1 & Hm & Hcn & HL & WH).
  destruct shift_bounds as [S1 S2]. pose proof max_near as N. apply Qabs_Qle_condition in N. destruct N as [N1 N2].
  apply rnd_le; [exact Hr|apply (co_rep _ _ _ _ _ _ _ Hc)|].
  assert (- a_gur a <= - a_max a - s); [|fold L s; lra].
  apply (below (n - 1 - c) m n L (- a_max a) (- a_gur a) s g w); try assumption; try lra; try nia.
  apply (co_fine _ _ _ _ _ _ _ Hc).
Qed.
Lemma right_outside : ((n - 1 - c) * m < L)%Z -> a_gur a < right_fl rnd a.
Proof.
  intro HL'. destruct units as (Hh & Gp & GE & W0 & UW & W1 & Hm & Hcn & HL & WH).
  destruct shift_bounds as [S1 S2]. pose proof max_near as N. apply Qabs_Qle_condition in N. destruct N as [N1 N2].
  assert (A : - a_max a - s <= - a_gur a - g * (1 # 2)).
  { apply (above (n - 1 - c) m n L (- a_max a) (- a_gur a) s g w); try assumption; try lra; try nia.
    apply (co_fine _ _ _ _ _ _ _ Hc). }
  assert (B : - rnd (- (- a_max a - s)) < - a_gur a).
  { apply (stays_below (fun x => - rnd (- x))); [apply rounding_opp, Hr|rewrite Qabs_opp; apply corner_small|exact A]. }
  assert (E : rnd (- (- a_max a - s)) == right_fl rnd a) by (apply (rnd_comp rnd Hr); fold L s; ring).
  rewrite E in B. lra.
Qed.

(** The same decisions for the exact data. *)
Lemma exact_delta : inject_Z L * delta b == inject_Z L * g.
Proof.
  destruct units as (Hh & Gp & GE & W0 & UW & W1 & Hm & _).
  destruct Hc as [E _ _ _ _ _ _ _ _ _ _]. destruct E as (_ & _ & _ & _ & Emin & Emax & _ & Emi).
  assert (Mp : 0 < inject_Z m) by (apply (inj_lt 0); lia).
  unfold delta, g. rewrite Emin, Emax, Emi. field. lra.
Qed.
Lemma exact_left : a_min b - inject_Z (a_layers b) * delta b == a_gll a + inject_Z (c * m - L) * g.
Proof.
  destruct units as (Hh & Gp & GE & _). pose proof exact_delta as D. unfold L in *.
  destruct Hc as [E E1 _ _ El _ _ _ _ _ _]. destruct E as (_ & _ & _ & _ & Emin & _).
  rewrite <- El, D, E1, Emin, inj_sub, inj_mul.
  transitivity (a_gll b + inject_Z c * (inject_Z m * g) - inject_Z (a_layers a) * g); [rewrite GE; ring|ring].
Qed.
Lemma exact_right : a_max b + inject_Z (a_layers b) * delta b == a_gur a - inject_Z ((n - 1 - c) * m - L) * g.
Proof.
  destruct units as (Hh & Gp & GE & _). pose proof exact_delta as D. unfold L in *.
  destruct Hc as [E _ E1 _ El _ _ _ _ _ _]. destruct E as (_ & _ & _ & _ & _ & Emax & Egur & _).
  rewrite <- El, D, E1, Emax, Egur, inj_sub, inj_mul, !inj_sub. change (inject_Z 1) with 1.
  transitivity (a_gll b + inject_Z n * h - (inject_Z n - 1 - inject_Z c) * (inject_Z m * g) +
                inject_Z (a_layers a) * g); [rewrite GE; ring|ring].
Qed.

Lemma sign_of z : (0 <= z)%Z -> 0 <= inject_Z z * g.
Proof. destruct units as (Hh & Gp & _). intro H. apply Qmult_le_0_compat; [apply (inj_le 0), H|lra]. Qed.
Lemma sign_neg z : (z < 0)%Z -> inject_Z z * g < 0.
Proof.
  destruct units as (Hh & Gp & _). intro H. rewrite <- (Qmult_0_l g). apply Qmult_lt_r; [exact Gp|].
  apply (inj_lt _ 0), H.
Qed.

Lemma exceeds_left_exact : exceeds_left b = (c * m <? L)%Z.
Proof.
  unfold exceeds_left. pose proof (co_gll _ _ _ _ _ _ _ Hc) as E1. rewrite <- E1.
  destruct (Z.ltb_spec (c * m) L) as [H|H].
  - apply Qlt_bool_iff. rewrite exact_left. pose proof (sign_neg (c * m - L) ltac:(lia)). lra.
  - apply Qlt_bool_false. rewrite exact_left. pose proof (sign_of (c * m - L) ltac:(lia)). lra.
Qed.
Lemma exceeds_right_exact : exceeds_right b = ((n - 1 - c) * m <? L)%Z.
Proof.
  unfold exceeds_right. pose proof (co_gur _ _ _ _ _ _ _ Hc) as E1. rewrite <- E1.
  destruct (Z.ltb_spec ((n - 1 - c) * m) L) as [H|H].
  - apply Qlt_bool_iff. rewrite exact_right. pose proof (sign_neg ((n - 1 - c) * m - L) ltac:(lia)). lra.
  - apply Qlt_bool_false. rewrite exact_right. pose proof (sign_of ((n - 1 - c) * m - L) ltac:(lia)). lra.
Qed.

Lemma number_same : ~ touches L n c m -> g_n (local_axis_fl rnd a) = g_n (local_axis b).
Proof.
  intro T. destruct units as (Hh & Gp & GE & W0 & UW & W1 & Hm & Hcn & HL & WH).
  cbn [g_n local_axis_fl local_axis]. unfold elements_per_dim.
  rewrite exceeds_left_exact, exceeds_right_exact.
  rewrite <- (co_micro _ _ _ _ _ _ _ Hc), <- (co_layers _ _ _ _ _ _ _ Hc). fold L.
  destruct (Z.eq_dec L 0) as [Z|Z]; [rewrite Z, !Z.mul_0_r; reflexivity|].
  assert (T1 : L <> (c * m)%Z) by (intro X; apply T; split; [lia|left; exact X]).
  assert (T2 : L <> ((n - 1 - c) * m)%Z) by (intro X; apply T; split; [lia|right; exact X]).
  replace (Qlt_bool (left_fl rnd a) (a_gll a)) with (c * m <? L)%Z.
  - replace (Qlt_bool (a_gur a) (right_fl rnd a)) with ((n - 1 - c) * m <? L)%Z; [reflexivity|].
    symmetry. destruct (Z.ltb_spec ((n - 1 - c) * m) L).
    + apply Qlt_bool_iff, right_outside. assumption.
    + apply Qlt_bool_false, right_inside. lia.
  - symmetry. destruct (Z.ltb_spec (c * m) L).
    + apply Qlt_bool_iff, left_outside. assumption.
    + apply Qlt_bool_false, left_inside. lia.
Qed.

(** Where the layers end on the boundary the number is right or short of one
    or two times the layers. *)
Lemma number_range : exists k, (0 <= k <= 2)%Z /\
  g_n (local_axis_fl rnd a) = (g_n (local_axis b) - k * L)%Z.
Proof.
  destruct units as (Hh & Gp & GE & W0 & UW & W1 & Hm & Hcn & HL & WH).
  cbn [g_n local_axis_fl local_axis]. unfold elements_per_dim.
  rewrite exceeds_left_exact, exceeds_right_exact.
  pose proof (co_micro _ _ _ _ _ _ _ Hc) as EM. pose proof (co_layers _ _ _ _ _ _ _ Hc) as EL.
  rewrite <- EL. fold L.
  assert (MI : a_micro b == inject_Z m) by apply (co_exact _ _ _ _ _ _ _ Hc).
  assert (FL : forall z, Qfloor (a_micro b + inject_Z z) = (m + z)%Z).
  { intro z. rewrite <- (Qfloor_Z (m + z)). apply Qfloor_comp. rewrite MI, inj_add. reflexivity. }
  rewrite EM, !FL.
  assert (A : exists i, (0 <= i <= 1)%Z /\ int_not (Qlt_bool (left_fl rnd a) (a_gll a)) = (int_not (c * m <? L)%Z - i)%Z).
  { destruct (Z.ltb_spec (c * m) L) as [H|H].
    - exists 0%Z. split; [lia|]. replace (Qlt_bool (left_fl rnd a) (a_gll a)) with true; [reflexivity|].
      symmetry. apply Qlt_bool_iff, left_outside, H.
    - destruct (Qlt_bool (left_fl rnd a) (a_gll a)); [exists 1%Z|exists 0%Z]; cbn [int_not]; lia. }
  assert (B : exists i, (0 <= i <= 1)%Z /\ int_not (Qlt_bool (a_gur a) (right_fl rnd a)) = (int_not ((n - 1 - c) * m <? L)%Z - i)%Z).
  { destruct (Z.ltb_spec ((n - 1 - c) * m) L) as [H|H].
    - exists 0%Z. split; [lia|]. replace (Qlt_bool (a_gur a) (right_fl rnd a)) with true; [reflexivity|].
      symmetry. apply Qlt_bool_iff, right_outside, H.
    - destruct (Qlt_bool (a_gur a) (right_fl rnd a)); [exists 1%Z|exists 0%Z]; cbn [int_not]; lia. }
  destruct A as (i & Hi & ->), B as (j & Hj & ->). exists (i + j)%Z. split; [lia|]. ring.
Qed.

Lemma round_near y y0 e B : Qabs (y - y0) <= e -> Qabs y <= B -> Qabs (rnd y - y0) <= e + ulp * B.
Proof.
  intros A HB. pose proof (rnd_near rnd Hr y) as N.
  assert (ulp * Qabs y <= ulp * B) by (apply Qmult_le_l; [apply ulp_small|exact HB]).
  apply Qabs_Qle_condition in A, N. destruct A, N. apply Qabs_Qle_condition. split; lra.
Qed.

(** Bound for the shifted ends when the layers are no more than the fine cells. *)
Lemma shift_near : (L <= n * m)%Z -> Qabs (s - inject_Z L * g) <= 7 * w * (inject_Z n * h) /\
  0 <= s /\ s <= 2 * (inject_Z n * h).
Proof.
  intro LM. destruct units as (Hh & Gp & GE & W0 & UW & W1 & Hm & Hcn & HL & WH).
  destruct shift_bounds as [S1 S2].
  assert (A : inject_Z L * g <= inject_Z n * h).
  { rewrite <- GE, Qmult_assoc, <- inj_mul. apply Qmult_le_r; [exact Gp|]. apply inj_le, LM. }
  pose proof (sign_of L HL) as P.
  assert (B : w * (inject_Z L * g) <= w * (inject_Z n * h)) by (apply Qmult_le_l; assumption).
  assert (B0 : 0 <= w * (inject_Z L * g)) by (apply Qmult_le_0_compat; lra).
  assert (B1 : w * (inject_Z L * g) <= (1 # 16) * (inject_Z L * g)) by (apply Qmult_le_compat_r; assumption).
  split; [apply Qabs_Qle_condition; split; lra|]. split; lra.
Qed.

Lemma corners_near :
  Qabs (g_lo (local_axis_fl rnd a) - g_lo (local_axis b)) <= 12 * w * (a_gur a - a_gll a) /\
  Qabs (g_hi (local_axis_fl rnd a) - g_hi (local_axis b)) <= 12 * w * (a_gur a - a_gll a).
Proof.
  destruct units as (Hh & Gp & GE & W0 & UW & W1 & Hm & Hcn & HL & WH). destruct ulp_small as [U0 U1].
  pose proof Hc as [E E1 E2 _ El _ Cmin Cmax F _ _]. change (two (-52)) with ulp in F.
  destruct E as (_ & _ & _ & _ & Emin & Emax & Egur & _).
  assert (NH : h <= inject_Z n * h).
  { assert (1 * h <= inject_Z n * h); [|lra]. apply Qmult_le_r; [exact Hh|]. apply (inj_le 1). lia. }
  assert (D : a_gur a - a_gll a == inject_Z n * h) by (rewrite E1, E2, Egur; ring).
  rewrite D. set (N := inject_Z n * h) in *.
  assert (WN : 0 <= w * N) by (apply Qmult_le_0_compat; lra).
  assert (WN' : w * h <= w * N) by (apply Qmult_le_l; assumption).
  cbn [g_lo g_hi local_axis_fl local_axis].
  assert (C0 : 0 <= inject_Z c * h) by (apply Qmult_le_0_compat; [apply (inj_le 0); lia|lra]).
  assert (CN : (inject_Z c + 1) * h <= N).
  { unfold N. apply Qmult_le_r; [exact Hh|]. change 1 with (inject_Z 1). rewrite <- inj_add. apply inj_le. lia. }
  unfold lower_left, upper_right. rewrite <- El. fold L.
  pose proof exact_left as XL. pose proof exact_right as XR. rewrite <- El in XL, XR. fold L in XL, XR.
  rewrite <- E1, <- E2.
  set (y := a_min b - inject_Z L * delta b) in *. set (z := a_max b + inject_Z L * delta b) in *.
  pose proof (Qabs_nonneg (a_gll a)) as G1. pose proof (Qabs_nonneg (a_gur a)) as G2.
  assert (A1 : - Qabs (a_gll a) <= a_gll a /\ a_gll a <= Qabs (a_gll a)) by (apply Qabs_Qle_condition; lra).
  assert (A2 : - Qabs (a_gur a) <= a_gur a /\ a_gur a <= Qabs (a_gur a)) by (apply Qabs_Qle_condition; lra).
  destruct A1 as [A1 A1'], A2 as [A2 A2'].
  assert (BIG : (L <= n * m)%Z \/ (c * m < L)%Z /\ ((n - 1 - c) * m < L)%Z) by nia.
  destruct BIG as [LM|[B1 B2]].
  - destruct (shift_near LM) as (SN & S0 & S2). fold N in SN, S2.
    apply Qabs_Qle_condition in SN. destruct SN as [SN1 SN2].
    assert (Cmin' := Cmin). assert (Cmax' := Cmax). apply Qabs_Qle_condition in Cmin', Cmax'.
    destruct Cmin' as [M1 M2], Cmax' as [M3 M4].
    pose proof exact_delta as ED.
    assert (UN : ulp * N <= w * N) by (apply Qmult_le_compat_r; lra).
    assert (UH : ulp * (w * h) <= (1 # 16) * (w * h)).
    { apply Qmult_le_compat_r; [lra|]. apply Qmult_le_0_compat; lra. }
    assert (WHp : 0 <= w * h) by (apply Qmult_le_0_compat; lra).
    set (BB := Qabs (a_gll a) + Qabs (a_gur a) + w * h + 2 * N).
    assert (BBE : ulp * BB == ulp * (Qabs (a_gll a) + Qabs (a_gur a)) + ulp * (w * h) + 2 * (ulp * N)) by (unfold BB; ring).
    assert (NL : Qabs (left_fl rnd a - y) <= 12 * w * N).
    { assert (Qabs (left_fl rnd a - y) <= (w * h + 7 * w * N) + ulp * BB); [|lra].
      apply round_near; fold L s; apply Qabs_Qle_condition; unfold y, BB.
      - split; lra.
      - rewrite Emin in M1, M2. rewrite <- E1 in M1, M2. split; lra. }
    assert (NR : Qabs (right_fl rnd a - z) <= 12 * w * N).
    { assert (Qabs (right_fl rnd a - z) <= (w * h + 7 * w * N) + ulp * BB); [|lra].
      apply round_near; fold L s; apply Qabs_Qle_condition; unfold z, BB.
      - split; lra.
      - rewrite Emax in M3, M4. rewrite <- E1 in M3, M4. split; lra. }
    apply Qabs_Qle_condition in NL, NR. destruct NL as [NL1 NL2], NR as [NR1 NR2].
    split; apply Qabs_Qle_condition.
    + unfold qmax. destruct (Qlt_bool (left_fl rnd a) (a_gll a)) eqn:Q1, (Qlt_bool y (a_gll a)) eqn:Q2;
        try (apply Qlt_bool_iff in Q1); try (apply Qlt_bool_false in Q1);
        try (apply Qlt_bool_iff in Q2); try (apply Qlt_bool_false in Q2); split; lra.
    + unfold qmin. destruct (Qlt_bool (a_gur a) (right_fl rnd a)) eqn:Q1, (Qlt_bool (a_gur a) z) eqn:Q2;
        try (apply Qlt_bool_iff in Q1); try (apply Qlt_bool_false in Q1);
        try (apply Qlt_bool_iff in Q2); try (apply Qlt_bool_false in Q2); split; lra.
  - pose proof (left_outside B1) as O1. pose proof (right_outside B2) as O2.
    assert (O3 : y < a_gll a) by (rewrite XL; pose proof (sign_neg (c * m - L) ltac:(lia)); lra).
    assert (O4 : a_gur a < z) by (rewrite XR; pose proof (sign_neg ((n - 1 - c) * m - L) ltac:(lia)); lra).
    unfold qmax, qmin. apply Qlt_bool_iff in O1, O2, O3, O4. rewrite O1, O2, O3, O4.
    split; apply Qabs_Qle_condition; split; lra.
Qed.
End LocalGrid.

(** ** Data with few binary digits: no rounding at all *)
Lemma dyadic rnd x e : rounding rnd -> (Z.abs x <= 2 ^ 53)%Z -> rnd (inject_Z x * two e) == inject_Z x * two e.
Proof. intros Hr H. apply (r_keep rnd Hr). apply (representable_intro x e); [exact H|reflexivity]. Qed.

Lemma local_axis_exact rnd a e x d m : rounding rnd ->
  a_min a == inject_Z x * two e -> a_max a == inject_Z (x + m * d) * two e -> a_micro a == inject_Z m ->
  (1 <= m)%Z -> (0 <= a_layers a)%Z -> (Z.abs x + (m + a_layers a) * Z.abs d <= 2 ^ 53)%Z ->
  same_grid (local_axis_fl rnd a) (local_axis a).
Proof.
  intros Hr E1 E2 E3 Hm HL HB. set (L := a_layers a) in *.
  assert (Mp : 0 < inject_Z m) by (apply (inj_lt 0); lia).
  assert (D0 : a_max a - a_min a == inject_Z (m * d) * two e).
  { rewrite E1, E2, inj_add. ring. }
  assert (R0 : rnd (a_max a - a_min a) == inject_Z (m * d) * two e).
  { rewrite (rnd_comp rnd Hr _ _ D0). apply dyadic; [exact Hr|]. nia. }
  assert (D1 : rnd (a_max a - a_min a) / a_micro a == inject_Z d * two e).
  { rewrite R0, E3, inj_mul. field. lra. }
  assert (R1 : delta_fl rnd a == inject_Z d * two e).
  { unfold delta_fl. rewrite (rnd_comp rnd Hr _ _ D1). apply dyadic; [exact Hr|]. nia. }
  assert (X1 : delta a == inject_Z d * two e).
  { unfold delta. rewrite D0, E3, inj_mul. field. lra. }
  assert (D2 : inject_Z L * delta_fl rnd a == inject_Z (L * d) * two e) by (rewrite R1, inj_mul; ring).
  assert (R2 : rnd (inject_Z L * delta_fl rnd a) == inject_Z (L * d) * two e).
  { rewrite (rnd_comp rnd Hr _ _ D2). apply dyadic; [exact Hr|]. nia. }
  assert (X2 : inject_Z L * delta a == inject_Z (L * d) * two e) by (rewrite X1, inj_mul; ring).
  assert (D3 : a_min a - rnd (inject_Z L * delta_fl rnd a) == inject_Z (x - L * d) * two e).
  { rewrite R2, E1, inj_sub. ring. }
  assert (R3 : left_fl rnd a == a_min a - inject_Z L * delta a).
  { unfold left_fl. fold L. rewrite (rnd_comp rnd Hr _ _ D3), (dyadic rnd (x - L * d) e Hr), X2, E1, inj_sub by nia. ring. }
  assert (D4 : a_max a + rnd (inject_Z L * delta_fl rnd a) == inject_Z (x + m * d + L * d) * two e).
  { rewrite R2, E2, !inj_add. ring. }
  assert (R4 : right_fl rnd a == a_max a + inject_Z L * delta a).
  { unfold right_fl. fold L. rewrite (rnd_comp rnd Hr _ _ D4), (dyadic rnd (x + m * d + L * d) e Hr), X2, E2, !inj_add by nia. ring. }
  assert (Q1 : Qlt_bool (left_fl rnd a) (a_gll a) = Qlt_bool (a_min a - inject_Z L * delta a) (a_gll a)).
  { unfold Qlt_bool. rewrite R3. reflexivity. }
  assert (Q2 : Qlt_bool (a_gur a) (right_fl rnd a) = Qlt_bool (a_gur a) (a_max a + inject_Z L * delta a)).
  { unfold Qlt_bool. rewrite R4. reflexivity. }
  unfold same_grid. cbn [g_lo g_hi g_n local_axis_fl local_axis].
  unfold lower_left, upper_right, elements_per_dim, exceeds_left, exceeds_right, qmax, qmin. fold L.
  rewrite Q1, Q2. split; [|split; [|reflexivity]].
  - destruct (Qlt_bool (a_min a - inject_Z L * delta a) (a_gll a)); [reflexivity|exact R3].
  - destruct (Qlt_bool (a_gur a) (a_max a + inject_Z L * delta a)); [reflexivity|exact R4].
Qed.
