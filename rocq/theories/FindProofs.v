(** Proofs for C130. *)
From Coq Require Import ZArith QArith Qround Qabs List Arith Bool Lia Lqa.
From Verif Require Import Util LocalGridModel LocalGridSpec LocalGridProofs RoundModel RoundSpec RoundProofs FindModel FindSpec.
Import ListNotations.
Local Open Scope Q_scope.

Lemma tolerance_ulp : tolerance == 64 * ulp.
Proof. reflexivity. Qed.

Lemma check_inside_iff x : check_inside x = true <-> - tolerance <= x /\ x <= 1 + tolerance.
Proof. unfold check_inside. rewrite andb_true_iff, !Qle_bool_iff. reflexivity. Qed.

Section Rnd.
Variable rnd : Q -> Q.
Hypothesis Hr : rounding rnd.

Lemma local_factor lo hi x : lo < hi ->
  exists F, 1 - 8 * ulp <= F /\ F <= 1 + 8 * ulp /\ local_fl rnd lo hi x * (hi - lo) == (x - lo) * F.
Proof.
  intro O. destruct ulp_small as [U0 U1]. unfold local_fl.
  destruct (rel rnd (x - lo) Hr) as (t1 & A1 & B1 & E1). destruct (rel rnd (hi - lo) Hr) as (t2 & A2 & B2 & E2).
  destruct (rel rnd (rnd (x - lo) / rnd (hi - lo)) Hr) as (t3 & A3 & B3 & E3).
  destruct (factor ulp t1 t2 t3 0) as [FA FB]; try assumption; try (unfold ulp; discriminate).
  exists ((1 + t1) * (1 + t3) * (1 + 0) / (1 + t2)). split; [exact FA|]. split; [exact FB|].
  rewrite E3, E1, E2. field. split; lra.
Qed.

Lemma refuse_below lo hi x d : lo < hi -> 0 < d -> x <= lo - d -> 2 * tolerance * (hi - lo) <= d ->
  check_inside (local_fl rnd lo hi x) = false.
Proof.
  intros O D X T. destruct (check_inside (local_fl rnd lo hi x)) eqn:E; [exfalso|reflexivity].
  apply check_inside_iff in E. destruct E as [E _].
  destruct (local_factor lo hi x O) as (F & F1 & F2 & EF). destruct ulp_small as [U0 U1].
  assert (P : - tolerance * (hi - lo) <= local_fl rnd lo hi x * (hi - lo)) by (apply Qmult_le_compat_r; lra).
  rewrite EF in P.
  assert (Q : (lo - x) * (1 # 2) < (lo - x) * F) by (apply Qmult_lt_l; lra). lra.
Qed.

Lemma refuse_above lo hi x d : lo < hi -> 0 < d -> hi + d <= x -> 4 * tolerance * (hi - lo) <= d ->
  check_inside (local_fl rnd lo hi x) = false.
Proof.
  intros O D X T. destruct (check_inside (local_fl rnd lo hi x)) eqn:E; [exfalso|reflexivity].
  apply check_inside_iff in E. destruct E as [_ E].
  destruct (local_factor lo hi x O) as (F & F1 & F2 & EF). destruct ulp_small as [U0 U1].
  assert (P : local_fl rnd lo hi x * (hi - lo) <= (1 + tolerance) * (hi - lo)) by (apply Qmult_le_compat_r; lra).
  rewrite EF in P.
  assert (Q : (x - lo) * (1 - 8 * ulp) <= (x - lo) * F) by (apply Qmult_le_l; lra).
  rewrite tolerance_ulp in *.
  assert (R : (hi - lo + d) * (1 - 8 * ulp) <= (x - lo) * (1 - 8 * ulp)) by (apply Qmult_le_compat_r; lra).
  assert (S : d * ulp <= d * (1 # 100)) by (apply Qmult_le_l; lra).
  assert (Z : 0 < ulp * (hi - lo)) by (apply Qmult_lt_0_compat; lra).
  lra.
Qed.

Lemma accept lo hi x e : lo < hi -> lo - e <= x -> x <= hi + e -> 0 <= e -> 2 * e <= tolerance * (hi - lo) ->
  check_inside (local_fl rnd lo hi x) = true.
Proof.
  intros O X1 X2 E0 T. apply check_inside_iff.
  destruct (local_factor lo hi x O) as (F & F1 & F2 & EF). destruct ulp_small as [U0 U1].
  rewrite tolerance_ulp in *. assert (H : 0 < hi - lo) by lra.
  assert (Z : 0 < ulp * (hi - lo)) by (apply Qmult_lt_0_compat; lra).
  split; apply (le_cancel _ _ _ H); rewrite EF.
  - assert ((lo - e - lo) * F <= (x - lo) * F) by (apply Qmult_le_compat_r; lra).
    assert (e * F <= e * (2 # 1)) by (rewrite !(Qmult_comm e); apply Qmult_le_compat_r; lra). lra.
  - assert ((x - lo) * F <= (hi + e - lo) * F) by (apply Qmult_le_compat_r; lra).
    assert ((hi + e - lo) * F <= (hi + e - lo) * (1 + 8 * ulp)) by (apply Qmult_le_l; lra).
    assert (e * ulp <= e * (1 # 100)) by (rewrite !(Qmult_comm e); apply Qmult_le_compat_r; lra). lra.
Qed.
End Rnd.

Lemma accept' rnd lo hi x e : rounding rnd -> lo < hi -> lo - e <= x -> x <= hi + e -> 0 <= e ->
  10 * e <= 540 * ulp * (hi - lo) -> check_inside (local_fl rnd lo hi x) = true.
Proof.
  intros Hr O X1 X2 E0 T. apply check_inside_iff.
  destruct (local_factor rnd Hr lo hi x O) as (F & F1 & F2 & EF). destruct ulp_small as [U0 U1].
  rewrite tolerance_ulp in *. assert (H : 0 < hi - lo) by lra.
  assert (Z : 0 < ulp * (hi - lo)) by (apply Qmult_lt_0_compat; lra).
  assert (e * ulp <= e * (1 # 1000)).
  { rewrite !(Qmult_comm e). apply Qmult_le_compat_r; [discriminate|lra]. }
  assert (e * F <= e * (1 + 8 * ulp)) by (rewrite !(Qmult_comm e); apply Qmult_le_compat_r; lra).
  split; apply (le_cancel _ _ _ H); rewrite EF.
  - assert ((lo - e - lo) * F <= (x - lo) * F) by (apply Qmult_le_compat_r; lra). lra.
  - assert ((x - lo) * F <= (hi + e - lo) * F) by (apply Qmult_le_compat_r; lra).
    assert ((hi - lo) * F <= (hi - lo) * (1 + 8 * ulp)) by (apply Qmult_le_l; lra). lra.
Qed.

(** ** Coordinates *)
Section Coord.
Variable rnd : Q -> Q.
Hypothesis Hr : rounding rnd.

Lemma factor_small u t1 t2 t3 : 0 < u -> u <= 1 # 1000 -> - u <= t1 -> t1 <= u -> - u <= t2 -> t2 <= u ->
  - u <= t3 -> t3 <= u ->
  1 - (31 # 10) * u <= (1 + t1) * (1 + t2) * (1 + t3) /\ (1 + t1) * (1 + t2) * (1 + t3) <= 1 + (31 # 10) * u.
Proof.
  intros.
  assert (A1 : (1 - u) * (1 - u) <= (1 + t1) * (1 + t2) /\ (1 + t1) * (1 + t2) <= (1 + u) * (1 + u)).
  { split; apply Qmult_le_compat_nonneg; lra. }
  assert (A2 : (1 - u) * (1 - u) * (1 - u) <= (1 + t1) * (1 + t2) * (1 + t3) /\
               (1 + t1) * (1 + t2) * (1 + t3) <= (1 + u) * (1 + u) * (1 + u)).
  { assert (0 <= (1 - u) * (1 - u)) by (apply Qmult_le_0_compat; lra).
    split; apply Qmult_le_compat_nonneg; lra. }
  assert (UU : u * u <= u * (1 # 1000)) by (apply Qmult_le_l; lra).
  assert (U0 : 0 <= u * u) by (apply Qmult_le_0_compat; lra).
  assert (U3 : u * u * u <= u * u * (1 # 1000)) by (rewrite !(Qmult_comm (u * u)); apply Qmult_le_compat_r; lra).
  lra.
Qed.

Lemma coord_near lo up n k : lo < up -> (1 <= n)%Z -> (0 <= k <= n)%Z ->
  Qabs (coord_fl rnd lo up n k - (lo + inject_Z k * ((up - lo) / inject_Z n))) <= 5 * ulp * (Qabs lo + Qabs up).
Proof.
  intros O Hn Hk. unfold coord_fl. assert (U0 : 0 < ulp) by reflexivity. assert (U1 : ulp <= 1 # 1000) by discriminate.
  destruct (rel rnd (up - lo) Hr) as (t1 & A1 & B1 & E1).
  destruct (rel rnd (rnd (up - lo) / inject_Z n) Hr) as (t2 & A2 & B2 & E2).
  destruct (rel rnd (inject_Z k * rnd (rnd (up - lo) / inject_Z n)) Hr) as (t3 & A3 & B3 & E3).
  destruct (factor_small ulp t1 t2 t3) as [F1 F2]; try assumption.
  assert (Np : 0 < inject_Z n) by (apply (inj_lt 0); lia).
  set (y := rnd (inject_Z k * rnd (rnd (up - lo) / inject_Z n))) in *.
  set (z := inject_Z k * ((up - lo) / inject_Z n)).
  assert (Y : y == z * ((1 + t1) * (1 + t2) * (1 + t3))).
  { rewrite E3, E2, E1. unfold z. field. lra. }
  set (F := (1 + t1) * (1 + t2) * (1 + t3)) in *.
  assert (D : z * inject_Z n == inject_Z k * (up - lo)) by (unfold z; field; lra).
  assert (Z0 : 0 <= z).
  { apply (le_cancel _ _ _ Np). rewrite D, Qmult_0_l. apply Qmult_le_0_compat; [apply (inj_le 0); lia|lra]. }
  assert (Z1 : z <= up - lo).
  { apply (le_cancel _ _ _ Np). rewrite D, (Qmult_comm (up - lo)). apply Qmult_le_compat_r; [apply inj_le; lia|lra]. }
  assert (ZF1 : z * (1 - (31 # 10) * ulp) <= y) by (rewrite Y, !(Qmult_comm z); apply Qmult_le_compat_r; assumption).
  assert (ZF2 : y <= z * (1 + (31 # 10) * ulp)) by (rewrite Y, !(Qmult_comm z); apply Qmult_le_compat_r; assumption).
  assert (ZU : z * ulp <= (up - lo) * ulp) by (apply Qmult_le_compat_r; lra).
  pose proof (Qabs_nonneg lo) as G1. pose proof (Qabs_nonneg up) as G2.
  assert (A4 : - Qabs lo <= lo /\ lo <= Qabs lo) by (apply Qabs_Qle_condition; lra).
  assert (A5 : - Qabs up <= up /\ up <= Qabs up) by (apply Qabs_Qle_condition; lra).
  set (B := Qabs lo + Qabs up) in *.
  assert (UB : (up - lo) * ulp <= B * ulp) by (apply Qmult_le_compat_r; unfold B; lra).
  assert (UB0 : 0 <= B * ulp) by (apply Qmult_le_0_compat; unfold B; lra).
  assert (UBB : B * ulp <= B * (1 # 1000)) by (rewrite !(Qmult_comm B); apply Qmult_le_compat_r; unfold B; lra).
  assert (N : Qabs (rnd (lo + y) - (lo + z)) <= (31 # 10) * (B * ulp) + ulp * ((11 # 10) * B)).
  { apply (round_near rnd Hr); apply Qabs_Qle_condition; [split; lra|]. split; unfold B in *; lra. }
  lra.
Qed.

(** Nodes are in order. *)
Lemma coord_mono lo up n k l : lo <= up -> (1 <= n)%Z -> (k <= l)%Z -> coord_fl rnd lo up n k <= coord_fl rnd lo up n l.
Proof.
  intros O Hn Hk. unfold coord_fl. apply (r_mono rnd Hr). apply Qplus_le_r. apply (r_mono rnd Hr).
  apply Qmult_le_compat_r; [apply inj_le, Hk|]. apply (rnd_nonneg rnd Hr).
  assert (Np : 0 < inject_Z n) by (apply (inj_lt 0); lia).
  apply (le_cancel _ _ _ Np). rewrite Qmult_0_l. unfold Qdiv. rewrite <- Qmult_assoc, (Qmult_comm (/ _)), Qmult_inv_r by lra.
  rewrite Qmult_1_r. apply (rnd_nonneg rnd Hr). lra.
Qed.

(** Refinement by a power of two: the nodes of the coarse grid are nodes. *)
Lemma coord_refine lo up n e k : scaling rnd -> (1 <= n)%Z -> (0 <= e)%Z ->
  coord_fl rnd lo up (n * 2 ^ e) (k * 2 ^ e) == coord_fl rnd lo up n k.
Proof.
  intros Sc Hn He. unfold coord_fl. apply (rnd_comp rnd Hr). apply Qplus_inj_l. apply (rnd_comp rnd Hr).
  assert (Np : 0 < inject_Z n) by (apply (inj_lt 0); lia).
  assert (T : 0 < two e) by apply two_pos. pose proof (two_opp e) as TO.
  assert (A : rnd (rnd (up - lo) / inject_Z (n * 2 ^ e)) == rnd (rnd (up - lo) / inject_Z n) * two (- e)).
  { etransitivity; [|apply Sc]. apply (rnd_comp rnd Hr). rewrite inj_mul, <- (two_Z e He).
    assert (TI : two (- e) == / two e).
    { rewrite <- (Qmult_1_r (two (- e))), <- (Qmult_inv_r (two e)) by lra. rewrite Qmult_assoc, TO. ring. }
    rewrite TI. field. split; lra. }
  rewrite A, inj_mul, <- (two_Z e He).
  rewrite <- (Qmult_1_r (rnd (rnd (up - lo) / inject_Z n))) at 2. rewrite <- TO. ring.
Qed.
End Coord.

(** ** One direction *)
Section Direction.
Variables (rnd : Q -> Q) (d : direction) (r : Q).
Hypothesis Hr : rounding rnd.
Hypothesis Hd : grid_ok d.
Hypothesis Hrem : remoteness d r.
Let h : Q := coarse_width d.
Let M : Q := inject_Z (d_m d).
Let g : Q := h / M.
Let e : Q := 5 * ulp * (r * h).

Lemma dir_units : 0 < h /\ 0 < g /\ M * g == h /\ 1 <= M /\ 1 <= r /\ h <= r * h /\ 0 < e /\
  inject_Z (d_n d) * h == d_up d - d_lo d /\ Qabs (d_lo d) + Qabs (d_up d) <= r * h.
Proof.
  destruct Hd as [_ _ O N1 M1]. assert (Np : 0 < inject_Z (d_n d)) by (apply (inj_lt 0); lia).
  assert (M0 : 1 <= M) by (apply (inj_le 1); lia).
  assert (NH : inject_Z (d_n d) * h == d_up d - d_lo d) by (unfold h, coarse_width; field; lra).
  assert (Hp : 0 < h) by (apply (lt_cancel _ _ _ Np); rewrite Qmult_0_l, Qmult_comm, NH; lra).
  assert (MG : M * g == h) by (unfold g; field; lra).
  assert (Gp : 0 < g) by (apply (lt_cancel _ _ M); [lra|]; rewrite Qmult_0_l, Qmult_comm, MG; exact Hp).
  unfold remoteness in Hrem. fold h in Hrem.
  assert (A : Qabs (d_up d - d_lo d) <= Qabs (d_up d) + Qabs (d_lo d)).
  { eapply Qle_trans; [apply Qabs_triangle|]. rewrite Qabs_opp. lra. }
  rewrite Qabs_pos in A by lra.
  assert (H1 : 1 * h <= inject_Z (d_n d) * h) by (apply Qmult_le_r; [exact Hp|apply (inj_le 1); lia]).
  assert (R1 : 1 <= r) by (apply (le_cancel _ _ h Hp); lra).
  assert (RH : h <= r * h) by lra.
  assert (E : 0 < e) by (unfold e; apply Qmult_lt_0_compat; [reflexivity|lra]).
  repeat split; assumption.
Qed.

Lemma coarse_near c : (0 <= c <= d_n d)%Z ->
  Qabs (coord_fl rnd (d_lo d) (d_up d) (d_n d) c - (d_lo d + inject_Z c * h)) <= e.
Proof.
  intro Hc. destruct Hd as [_ _ O N1 M1].
  pose proof (coord_near rnd Hr (d_lo d) (d_up d) (d_n d) c O N1 Hc) as A. fold (coarse_width d) in A. fold h in A.
  eapply Qle_trans; [exact A|]. unfold e. apply Qmult_le_l; [reflexivity|apply dir_units].
Qed.
Lemma fine_near f : (0 <= f <= d_n d * d_m d)%Z -> Qabs (fine_lo rnd d f - (d_lo d + inject_Z f * g)) <= e.
Proof.
  intro Hf. destruct Hd as [_ _ O N1 M1]. unfold fine_lo.
  pose proof (coord_near rnd Hr (d_lo d) (d_up d) (d_n d * d_m d) f O ltac:(nia) Hf) as A.
  assert (G : (d_up d - d_lo d) / inject_Z (d_n d * d_m d) == g).
  { unfold g, M, h, coarse_width. rewrite inj_mul. field. split; intro Z; apply (proj1 (inject_Z_injective _ 0)) in Z; lia. }
  rewrite G in A. eapply Qle_trans; [exact A|]. unfold e. apply Qmult_le_l; [reflexivity|apply dir_units].
Qed.

(** Both ends of fine cell [f] are accepted by coarse cell [c]. *)
Definition both (c f : Z) : bool := inside_axis rnd d c (fine_lo rnd d f) && inside_axis rnd d c (fine_lo rnd d (f + 1)).

Lemma only_home c f : two 10 * ulp * r * M <= 1 -> (0 <= c < d_n d)%Z -> (0 <= f < d_n d * d_m d)%Z ->
  both c f = true -> c = (f / d_m d)%Z.
Proof.
  intros S Hc Hf B. destruct dir_units as (Hp & Gp & MG & M0 & R1 & RH & E0 & NH & RB).
  destruct Hd as [_ _ O N1 M1]. assert (U0 : 0 < ulp) by reflexivity.
  change (two 10) with 1024 in S.
  assert (SE : 1024 * e <= 5 * g).
  { assert (X : 1024 * ulp * r * M * g <= 1 * g) by (apply Qmult_le_r; assumption).
    assert (Y : 1024 * ulp * r * M * g == 1024 * ulp * (r * h)) by (rewrite <- MG; ring). unfold e. lra. }
  assert (ST : 1024 * ulp * h <= g).
  { assert (ulp * h <= ulp * (r * h)) by (apply Qmult_le_l; assumption). unfold e in SE. lra. }
  pose proof (coarse_near c ltac:(lia)) as C1. pose proof (coarse_near (c + 1) ltac:(lia)) as C2.
  pose proof (fine_near f ltac:(lia)) as F1. pose proof (fine_near (f + 1) ltac:(lia)) as F2.
  rewrite inj_add in C2, F2. change (inject_Z 1) with 1 in C2, F2.
  apply Qabs_Qle_condition in C1, C2, F1, F2. destruct C1, C2, F1, F2.
  unfold both in B. apply andb_true_iff in B. destruct B as [B1 B2]. unfold inside_axis in B1, B2.
  set (lo := coord_fl rnd (d_lo d) (d_up d) (d_n d) c) in *.
  set (hi := coord_fl rnd (d_lo d) (d_up d) (d_n d) (c + 1)) in *.
  assert (GH : g <= h).
  { assert (1 * g <= M * g) by (apply Qmult_le_compat_r; lra). lra. }
  assert (LH : lo < hi) by lra.
  assert (W : ulp * (hi - lo) <= ulp * ((11 # 10) * h)) by (apply Qmult_le_l; lra).
  destruct (Z.lt_total c (f / d_m d)) as [L|[L|L]]; [exfalso| exact L|exfalso].
  - (* the cell lies below *)
    assert (K : ((c + 1) * d_m d <= f)%Z) by (pose proof (Z.mul_div_le f (d_m d)); nia).
    assert (KQ : (inject_Z c + 1) * h <= inject_Z f * g).
    { apply inj_le in K. rewrite inj_mul, inj_add in K. change (inject_Z 1) with 1 in K. fold M in K.
      assert ((inject_Z c + 1) * M * g <= inject_Z f * g) by (apply Qmult_le_compat_r; lra). rewrite <- MG. lra. }
    rewrite (refuse_above rnd Hr lo hi _ (g * (1 # 2)) LH) in B2; [discriminate|lra|lra|].
    rewrite tolerance_ulp. lra.
  - assert (K : (f + 1 <= c * d_m d)%Z).
    { pose proof (Z.mod_pos_bound f (d_m d)). pose proof (Z.div_mod f (d_m d)). nia. }
    assert (KQ : (inject_Z f + 1) * g <= inject_Z c * h).
    { apply inj_le in K. rewrite inj_mul, inj_add in K. change (inject_Z 1) with 1 in K. fold M in K.
      assert ((inject_Z f + 1) * g <= inject_Z c * M * g) by (apply Qmult_le_compat_r; lra). rewrite <- MG. lra. }
    rewrite (refuse_below rnd Hr lo hi _ (g * (1 # 2)) LH) in B1; [discriminate|lra|lra|].
    rewrite tolerance_ulp. lra.
Qed.

Lemma home_bounds f : (0 <= f < d_n d * d_m d)%Z ->
  (0 <= f / d_m d < d_n d /\ f / d_m d * d_m d <= f /\ f + 1 <= (f / d_m d + 1) * d_m d)%Z.
Proof.
  intro Hf. destruct Hd as [_ _ _ N1 M1].
  pose proof (Z.mod_pos_bound f (d_m d)). pose proof (Z.div_mod f (d_m d)).
  assert (0 <= f / d_m d)%Z by (apply Z.div_pos; lia).
  assert (f / d_m d < d_n d)%Z by (apply Z.div_lt_upper_bound; lia). nia.
Qed.

Lemma home_few f : r <= 5 -> (0 <= f < d_n d * d_m d)%Z -> both (f / d_m d) f = true.
Proof.
  intros R5 Hf. destruct dir_units as (Hp & Gp & MG & M0 & R1 & RH & E0 & NH & RB).
  destruct (home_bounds f Hf) as (Hc & Hlo & Hhi). assert (U0 : 0 < ulp) by reflexivity.
  assert (U1 : ulp <= 1 # 100000) by discriminate.
  set (c := (f / d_m d)%Z) in *.
  pose proof (coarse_near c ltac:(lia)) as C1. pose proof (coarse_near (c + 1) ltac:(lia)) as C2.
  pose proof (fine_near f ltac:(lia)) as F1. pose proof (fine_near (f + 1) ltac:(lia)) as F2.
  rewrite inj_add in C2, F2. change (inject_Z 1) with 1 in C2, F2.
  apply Qabs_Qle_condition in C1, C2, F1, F2. destruct C1, C2, F1, F2.
  assert (RH5 : ulp * (r * h) <= ulp * (5 * h)) by (apply Qmult_le_l; [reflexivity|apply Qmult_le_r; assumption]).
  assert (EE : e <= 25 * (ulp * h)) by (unfold e; lra).
  assert (UH : 0 < ulp * h) by (apply Qmult_lt_0_compat; assumption).
  assert (UH1 : ulp * h <= (1 # 100000) * h) by (apply Qmult_le_r; assumption).
  apply inj_le in Hlo, Hhi. rewrite inj_mul in Hlo. rewrite inj_mul, !inj_add in Hhi.
  change (inject_Z 1) with 1 in Hhi. fold M in Hlo, Hhi.
  assert (L1 : inject_Z c * h <= inject_Z f * g).
  { assert (inject_Z c * M * g <= inject_Z f * g) by (apply Qmult_le_compat_r; lra). rewrite <- MG. lra. }
  assert (L2 : (inject_Z f + 1) * g <= (inject_Z c + 1) * h).
  { assert ((inject_Z f + 1) * g <= (inject_Z c + 1) * M * g) by (apply Qmult_le_compat_r; lra). rewrite <- MG. lra. }
  unfold both, inside_axis.
  set (lo := coord_fl rnd (d_lo d) (d_up d) (d_n d) c) in *.
  set (hi := coord_fl rnd (d_lo d) (d_up d) (d_n d) (c + 1)) in *.
  assert (W : ulp * ((99 # 100) * h) <= ulp * (hi - lo)) by (apply Qmult_le_l; lra).
  apply andb_true_iff. split; apply (accept' rnd lo hi _ (2 * e) Hr); try lra.
Qed.

Lemma home_power f k : scaling rnd -> d_m d = (2 ^ k)%Z -> (0 <= k)%Z -> 16 * ulp * r <= 1 ->
  (0 <= f < d_n d * d_m d)%Z -> both (f / d_m d) f = true.
Proof.
  intros Sc Mk Hk S Hf. destruct dir_units as (Hp & Gp & MG & M0 & R1 & RH & E0 & NH & RB).
  destruct (home_bounds f Hf) as (Hc & Hlo & Hhi). assert (U0 : 0 < ulp) by reflexivity.
  destruct Hd as [_ _ O N1 M1]. set (c := (f / d_m d)%Z) in *.
  pose proof (coarse_near c ltac:(lia)) as C1. pose proof (coarse_near (c + 1) ltac:(lia)) as C2.
  rewrite inj_add in C2. change (inject_Z 1) with 1 in C2.
  apply Qabs_Qle_condition in C1, C2. destruct C1, C2.
  assert (SE : 16 * e <= 5 * h).
  { assert (X : 16 * ulp * r * h <= 1 * h) by (apply Qmult_le_r; assumption). unfold e. lra. }
  assert (E1 : forall i, fine_lo rnd d (i * d_m d) == coord_fl rnd (d_lo d) (d_up d) (d_n d) i).
  { intro i. unfold fine_lo. rewrite Mk. apply coord_refine; assumption. }
  assert (Mono : forall i j, (i <= j)%Z -> fine_lo rnd d i <= fine_lo rnd d j).
  { intros i j L. unfold fine_lo. apply coord_mono; [exact Hr|lra|nia|exact L]. }
  pose proof (E1 c) as Ec. pose proof (E1 (c + 1)%Z) as Ec1.
  pose proof (Mono _ _ Hlo) as A1. pose proof (Mono _ _ Hhi) as A2. pose proof (Mono f (f + 1)%Z ltac:(lia)) as A3.
  unfold both, inside_axis.
  set (lo := coord_fl rnd (d_lo d) (d_up d) (d_n d) c) in *.
  set (hi := coord_fl rnd (d_lo d) (d_up d) (d_n d) (c + 1)) in *.
  assert (LH : lo < hi) by lra.
  assert (Z : 0 < ulp * (hi - lo)) by (apply Qmult_lt_0_compat; lra).
  apply andb_true_iff. split; apply (accept' rnd lo hi _ 0 Hr); lra.
Qed.
End Direction.

(** ** All directions *)
Section Boxes.
Variable rnd : Q -> Q.

Lemma corners_nonempty ds f : corners rnd ds f <> [].
Proof.
  revert f. induction ds as [|d ds IH]; intros [|k f]; cbn [corners]; try discriminate.
  specialize (IH f). destruct (corners rnd ds f); [congruence|discriminate].
Qed.

Lemma forallb_cons d ds i c y l : l <> [] ->
  forallb (inside rnd (d :: ds) (i :: c)) (map (cons y) l) = inside_axis rnd d i y && forallb (inside rnd ds c) l.
Proof.
  induction l as [|x l IH]; [congruence|]. intros _. cbn [map forallb].
  change (inside rnd (d :: ds) (i :: c) (y :: x)) with (inside_axis rnd d i y && inside rnd ds c x).
  destruct l as [|x' l]; [cbn [map forallb]; now rewrite !andb_true_r|].
  rewrite IH by discriminate. destruct (inside_axis rnd d i y), (inside rnd ds c x); reflexivity.
Qed.

Lemma holds_cell_iff ds c f : List.length c = List.length ds -> List.length f = List.length ds ->
  (holds_cell rnd ds c f = true <->
   Forall2 (fun p k => both rnd (fst p) (snd p) k = true) (combine ds c) f).
Proof.
  revert c f. induction ds as [|d ds IH]; intros [|i c] [|k f] Lc Lf; try discriminate.
  - split; [constructor|reflexivity].
  - injection Lc as Lc. injection Lf as Lf. specialize (IH c f Lc Lf).
    unfold holds_cell in *. cbn [corners]. rewrite forallb_app, !forallb_cons by apply corners_nonempty.
    cbn [combine]. split.
    + intro H. constructor.
      * cbn [fst snd]. unfold both. destruct (inside_axis rnd d i (fine_lo rnd d k)); [|discriminate].
        destruct (inside_axis rnd d i (fine_lo rnd d (k + 1))); [reflexivity|].
        cbn [andb] in H. rewrite andb_false_r in H. discriminate.
      * apply IH. destruct (forallb (inside rnd ds c) (corners rnd ds f)); [reflexivity|].
        rewrite !andb_false_r in H. discriminate.
    + intro H. inversion H as [|? ? ? ? B F]; subst. cbn [fst snd] in B. unfold both in B.
      apply andb_true_iff in B. destruct B as [B1 B2]. apply IH in F. rewrite B1, B2, F. reflexivity.
Qed.
End Boxes.

(** ** The usual rounding does not depend on the exponent *)
Lemma half_even_comp x y : x == y -> half_even x = half_even y.
Proof. intro E. apply Z.le_antisymm; apply half_even_mono; lra. Qed.

Lemma magnitude_scaling x e : 0 < x -> magnitude (x * two e) == magnitude x * two e.
Proof.
  intro P. pose proof (two_pos e) as T.
  assert (P' : 0 < x * two e) by (apply Qmult_lt_0_compat; assumption).
  assert (E : exponent (x * two e) = (exponent x + e)%Z).
  { destruct (exponent_spec x P) as [A B]. apply exponent_unique.
    - rewrite two_add. apply Qmult_le_r; assumption.
    - replace (exponent x + e + 1)%Z with (exponent x + 1 + e)%Z by lia. rewrite two_add. apply Qmult_lt_r; assumption. }
  unfold magnitude. rewrite !Qred_correct, E.
  replace (exponent x + e - 52)%Z with (exponent x - 52 + e)%Z by lia. set (k := (exponent x - 52)%Z).
  rewrite (half_even_comp (x * two e * two (- (k + e))) (x * two (- k))).
  - rewrite two_add. ring.
  - rewrite <- Qmult_assoc, <- two_add. replace (e + - (k + e))%Z with (- k)%Z by lia. reflexivity.
Qed.

Lemma binary64_scaling : scaling binary64.
Proof.
  intros x e. pose proof (two_pos e) as T. unfold binary64.
  assert (S : (0 < x -> 0 < x * two e) /\ (x < 0 -> x * two e < 0)).
  { split; intro H; [apply Qmult_lt_0_compat; assumption|].
    assert (x * two e < 0 * two e) by (apply Qmult_lt_r; assumption). lra. }
  destruct S as [S1 S2].
  destruct (Qcompare_spec x 0) as [X|X|X], (Qcompare_spec (x * two e) 0) as [Y|Y|Y];
    try (specialize (S1 X)); try (specialize (S2 X)); try (exfalso; lra).
  - ring.
  - rewrite X in Y. exfalso. lra.
  - rewrite X in Y. exfalso. lra.
  - assert (P : 0 < - x) by lra. pose proof (magnitude_scaling (- x) e P) as M.
    assert (C : magnitude (- (x * two e)) == magnitude (- x * two e)).
    { apply Qle_antisym; apply magnitude_mono; lra. }
    rewrite C, M. ring.
  - apply magnitude_scaling, X.
Qed.

(** ** Covered local cells *)
Section Covers.
Variables (rnd : Q -> Q) (a b : axis) (h : Q) (n c m : Z) (w : Q).
Hypothesis Hr : rounding rnd.
Hypothesis Hc : computed a b h n c m w.
Hypothesis Hfit : fits b n c m.
Hypothesis Htouch : ~ touches (a_layers a) n c m.
Hypothesis Hsmall : 1024 * inject_Z (n * m) * w <= 1.

Let g : Q := h / inject_Z m.
Let E : Q := w * (inject_Z n * h).

Lemma E_small : 0 < E /\ w * h <= E /\ 1024 * E <= g /\ g <= h /\ 0 < g.
Proof.
  destruct (units a b h n c m w Hc) as (Hh & Gp & GE & W0 & UW & W1 & Hm & Hcn & HL & WH). fold g in Gp, GE, WH.
  assert (N1 : 1 <= inject_Z n) by (apply (inj_le 1); lia).
  assert (M1 : 1 <= inject_Z m) by (apply (inj_le 1); lia).
  assert (NH : 1 * h <= inject_Z n * h) by (apply Qmult_le_r; assumption).
  assert (A : w * h <= E) by (apply Qmult_le_l; [exact W0|lra]).
  assert (B : 1 * g <= inject_Z m * g) by (apply Qmult_le_r; assumption).
  assert (C : 1024 * inject_Z (n * m) * w * g <= 1 * g) by (apply Qmult_le_r; assumption).
  assert (D : 1024 * inject_Z (n * m) * w * g == 1024 * E).
  { unfold E. rewrite inj_mul, <- GE. ring. }
  assert (0 < w * h) by (apply Qmult_lt_0_compat; assumption).
  repeat split; lra.
Qed.

Lemma local_near j : (0 <= j <= g_n (local_axis b))%Z ->
  let k := local_axis_fl rnd a in
  Qabs (coord_fl rnd (g_lo k) (g_hi k) (g_n k) j - node (local_axis b) j) <= 22 * E /\
  Qabs (node (local_axis b) j) <= Qabs (a_gll a) + Qabs (a_gur a).
Proof.
  intros Hj k. destruct E_small as (E0 & EW & EG & GH & Gp).
  pose proof Hc as [ST G1 G2 _ El _ _ _ F _ _]. change (two (-52)) with ulp in F.
  destruct (corners_near rnd a b h n c m w Hr Hc) as [CL CU]. fold k in CL, CU.
  pose proof (number_same rnd a b h n c m w Hr Hc Htouch) as NS. fold k in NS.
  pose proof (tiles b h n c m ST Hfit) as (_ & off & (O1 & O2) & _ & _ & _).
  change (elements_per_dim b) with (g_n (local_axis b)) in O2.
  pose proof ST as (Hh & Hcn & Hm & HL & Emin & Emax & Egur & Emic).
  assert (D : a_gur a - a_gll a == inject_Z n * h) by (rewrite G1, G2, Egur; ring).
  assert (EQ : 12 * w * (a_gur a - a_gll a) == 12 * E) by (rewrite D; unfold E; ring). rewrite EQ in CL, CU.
  set (N := g_n (local_axis b)) in *. rewrite NS.
  assert (N1 : (1 <= N)%Z) by lia. assert (Np : 0 < inject_Z N) by (apply (inj_lt 0); lia).
  (* the exact grid *)
  assert (WD : inject_Z m * width (local_axis b) == h) by (apply (width_iff b h n c m ST), Hfit).
  assert (M1 : 1 <= inject_Z m) by (apply (inj_le 1); lia).
  assert (GE : inject_Z m * g == h) by (unfold g; field; lra).
  assert (WG : width (local_axis b) == g).
  { assert (X : inject_Z m * width (local_axis b) == inject_Z m * g) by lra.
    rewrite !(Qmult_comm (inject_Z m)) in X. apply Qmult_inj_r in X; [exact X|lra]. }
  set (lo := g_lo (local_axis b)) in *. set (hi := g_hi (local_axis b)) in *.
  assert (HLN : hi - lo == inject_Z N * g).
  { rewrite <- WG. unfold width. fold lo hi N. field. lra. }
  assert (NG : 1 * g <= inject_Z N * g) by (apply Qmult_le_r; [exact Gp|apply (inj_le 1); lia]).
  assert (Nlo : a_gll a <= lo).
  { unfold lo. cbn [g_lo local_axis]. unfold lower_left, qmax. rewrite G1.
    destruct (Qlt_bool _ _) eqn:Q; [lra|]. apply Qlt_bool_false in Q. exact Q. }
  assert (Nhi : hi <= a_gur a).
  { unfold hi. cbn [g_hi local_axis]. unfold upper_right, qmin. rewrite G2.
    destruct (Qlt_bool _ _) eqn:Q; [lra|]. apply Qlt_bool_false in Q. exact Q. }
  (* the computed corners *)
  set (lo' := g_lo k) in *. set (hi' := g_hi k) in *.
  assert (Nlo' : a_gll a <= lo').
  { unfold lo', k. cbn [g_lo local_axis_fl]. unfold qmax.
    destruct (Qlt_bool _ _) eqn:Q; [lra|]. apply Qlt_bool_false in Q. exact Q. }
  assert (Nhi' : hi' <= a_gur a).
  { unfold hi', k. cbn [g_hi local_axis_fl]. unfold qmin.
    destruct (Qlt_bool _ _) eqn:Q; [lra|]. apply Qlt_bool_false in Q. exact Q. }
  apply Qabs_Qle_condition in CL, CU. destruct CL as [CL1 CL2], CU as [CU1 CU2].
  assert (O : lo' < hi') by lra.
  pose proof (coord_near rnd Hr lo' hi' N j O N1 Hj) as CN.
  pose proof (Qabs_nonneg (a_gll a)) as P1. pose proof (Qabs_nonneg (a_gur a)) as P2.
  assert (A1 : - Qabs (a_gll a) <= a_gll a /\ a_gll a <= Qabs (a_gll a)) by (apply Qabs_Qle_condition; lra).
  assert (A2 : - Qabs (a_gur a) <= a_gur a /\ a_gur a <= Qabs (a_gur a)) by (apply Qabs_Qle_condition; lra).
  set (B := Qabs (a_gll a) + Qabs (a_gur a)) in *.
  assert (X1 : Qabs lo' <= B) by (apply Qabs_Qle_condition; unfold B; split; lra).
  assert (X2 : Qabs hi' <= B) by (apply Qabs_Qle_condition; unfold B; split; lra).
  assert (U0 : 0 < ulp) by reflexivity.
  assert (X3 : ulp * (Qabs lo' + Qabs hi') <= ulp * (2 * B)) by (apply Qmult_le_l; lra).
  (* position as a fraction *)
  set (t := inject_Z j / inject_Z N).
  assert (T : t * inject_Z N == inject_Z j) by (unfold t; field; lra).
  assert (T0 : 0 <= t) by (apply (le_cancel _ _ _ Np); rewrite T, Qmult_0_l; apply (inj_le 0); lia).
  assert (T1 : t <= 1) by (apply (le_cancel _ _ _ Np); rewrite T, Qmult_1_l; apply inj_le; lia).
  assert (EJ : lo' + inject_Z j * ((hi' - lo') / inject_Z N) == lo' * (1 - t) + hi' * t) by (unfold t; field; lra).
  assert (EJ' : node (local_axis b) j == lo * (1 - t) + hi * t).
  { unfold node, width. fold lo hi N. unfold t. field. lra. }
  rewrite EJ in CN. rewrite EJ'. apply Qabs_Qle_condition in CN. destruct CN as [CN1 CN2].
  assert (Z1 : (lo' - lo) * (1 - t) <= (12 * E) * (1 - t)) by (apply Qmult_le_compat_r; lra).
  assert (Z2 : (hi' - hi) * t <= (12 * E) * t) by (apply Qmult_le_compat_r; lra).
  assert (Z3 : - (12 * E) * (1 - t) <= (lo' - lo) * (1 - t)) by (apply Qmult_le_compat_r; lra).
  assert (Z4 : - (12 * E) * t <= (hi' - hi) * t) by (apply Qmult_le_compat_r; lra).
  assert (V1 : a_gll a * (1 - t) <= lo * (1 - t)) by (apply Qmult_le_compat_r; lra).
  assert (V2 : a_gll a * t <= hi * t) by (apply Qmult_le_compat_r; lra).
  assert (V3 : lo * (1 - t) <= a_gur a * (1 - t)) by (apply Qmult_le_compat_r; lra).
  assert (V4 : hi * t <= a_gur a * t) by (apply Qmult_le_compat_r; lra).
  split; apply Qabs_Qle_condition; unfold B in *; split; lra.
Qed.

Lemma centre_near j : (0 <= j < g_n (local_axis b))%Z ->
  Qabs (centre_fl rnd (local_axis_fl rnd a) j - centre (local_axis b) j) <= 25 * E.
Proof.
  intro Hj. destruct E_small as (E0 & EW & EG & GH & Gp).
  destruct (local_near j ltac:(lia)) as [L1 B1]. destruct (local_near (j + 1) ltac:(lia)) as [L2 B2].
  pose proof Hc as [ST G1 G2 _ El _ _ _ F _ _]. change (two (-52)) with ulp in F.
  pose proof ST as (Hh & Hcn & Hm & HL & Emin & Emax & Egur & Emic).
  assert (D : a_gur a - a_gll a == inject_Z n * h) by (rewrite G1, G2, Egur; ring).
  assert (NH : 1 * h <= inject_Z n * h) by (apply Qmult_le_r; [exact Hh|apply (inj_le 1); lia]).
  unfold centre_fl. set (k := local_axis_fl rnd a) in *.
  set (x := coord_fl rnd (g_lo k) (g_hi k) (g_n k) j) in *.
  set (y := coord_fl rnd (g_lo k) (g_hi k) (g_n k) (j + 1)) in *.
  assert (CE : centre (local_axis b) j == (1 # 2) * (node (local_axis b) j + node (local_axis b) (j + 1))).
  { unfold centre, node. rewrite inj_add. change (inject_Z 1) with 1. ring. }
  rewrite CE. set (p := node (local_axis b) j) in *. set (q := node (local_axis b) (j + 1)) in *.
  pose proof (Qabs_nonneg (a_gll a)) as P1. pose proof (Qabs_nonneg (a_gur a)) as P2.
  assert (A1 : - Qabs (a_gll a) <= a_gll a /\ a_gll a <= Qabs (a_gll a)) by (apply Qabs_Qle_condition; lra).
  assert (A2 : - Qabs (a_gur a) <= a_gur a /\ a_gur a <= Qabs (a_gur a)) by (apply Qabs_Qle_condition; lra).
  set (B := Qabs (a_gll a) + Qabs (a_gur a)) in *.
  assert (HB : h <= B) by (unfold B; lra).
  apply Qabs_Qle_condition in L1, L2, B1, B2. destruct L1, L2, B1, B2.
  assert (S1 : Qabs (rnd (x + y) - (p + q)) <= 44 * E + ulp * ((22 # 10) * B)).
  { apply (round_near rnd Hr); apply Qabs_Qle_condition; split; lra. }
  assert (UB : ulp * B <= E) by lra.
  assert (S2 : Qabs (rnd ((1 # 2) * rnd (x + y)) - (1 # 2) * (p + q)) <= (232 # 10) * E + ulp * ((12 # 10) * B)).
  { apply Qabs_Qle_condition in S1. destruct S1.
    apply (round_near rnd Hr); apply Qabs_Qle_condition; split; lra. }
  lra.
Qed.

Lemma covers_same j : (0 <= j < g_n (local_axis b))%Z -> covers_axis_fl rnd a j = covers_axis b j.
Proof.
  intro Hj. pose proof (centre_near j Hj) as CN. destruct E_small as (E0 & EW & EG & GH & Gp).
  pose proof Hc as [ST G1 G2 _ El _ Cmin Cmax F U _]. change (two (-52)) with ulp in F, U.
  pose proof (tiles b h n c m ST Hfit) as (_ & off & (O1 & O2) & CV & _ & PA).
  pose proof ST as (Hh & Hcn & Hm & HL & Emin & Emax & Egur & Emic).
  assert (WD : inject_Z m * width (local_axis b) == h) by (apply (width_iff b h n c m ST), Hfit).
  assert (M1 : 1 <= inject_Z m) by (apply (inj_le 1); lia).
  assert (GE : inject_Z m * g == h) by (unfold g; field; lra).
  assert (WG : width (local_axis b) == g).
  { assert (X : inject_Z m * width (local_axis b) == inject_Z m * g) by lra.
    rewrite !(Qmult_comm (inject_Z m)) in X. apply Qmult_inj_r in X; [exact X|lra]. }
  assert (HD : a_max b - a_min b == h) by (rewrite Emin, Emax; ring).
  assert (NJ : node (local_axis b) j == a_min b + inject_Z (j - off) * g).
  { destruct (PA j (j - off)%Z) as [_ P]. destruct (P ltac:(lia)) as [P1 _]. rewrite HD in P1.
    assert (X : inject_Z m * (node (local_axis b) j - a_min b) == inject_Z m * (inject_Z (j - off) * g)).
    { rewrite P1, <- GE. ring. }
    rewrite !(Qmult_comm (inject_Z m)) in X. apply Qmult_inj_r in X; lra. }
  assert (CJ : centre (local_axis b) j == a_min b + inject_Z (j - off) * g + (1 # 2) * g).
  { unfold centre, node in *. rewrite WG in *. lra. }
  rewrite CJ in CN. unfold covers_axis_fl. set (x := centre_fl rnd (local_axis_fl rnd a) j) in *.
  apply Qabs_Qle_condition in CN, Cmin, Cmax. destruct CN, Cmin, Cmax.
  assert (U0 : 0 < ulp) by reflexivity.
  assert (LH : a_min a < a_max a) by lra.
  assert (UH : 1024 * (ulp * h) <= g).
  { assert (ulp * h <= w * h) by (apply Qmult_le_r; assumption). lra. }
  assert (UD : ulp * (a_max a - a_min a) <= ulp * ((11 # 10) * h)) by (apply Qmult_le_l; lra).
  destruct (covers_axis b j) eqn:CB.
  - apply CV in CB.
    assert (I0 : 0 <= inject_Z (j - off) * g) by (apply Qmult_le_0_compat; [apply (inj_le 0); lia|lra]).
    assert (I1 : inject_Z (j - off) * g <= h - g).
    { assert (X : inject_Z (j - off) <= inject_Z m - 1).
      { change 1 with (inject_Z 1). rewrite <- inj_sub. apply inj_le. lia. }
      assert (inject_Z (j - off) * g <= (inject_Z m - 1) * g) by (apply Qmult_le_compat_r; lra). lra. }
    assert (Z : 0 < ulp * (a_max a - a_min a)) by (apply Qmult_lt_0_compat; lra).
    apply (accept' rnd _ _ _ 0 Hr LH); lra.
  - assert (K : (j - off < 0 \/ m <= j - off)%Z).
    { destruct (Z_lt_le_dec (j - off) 0) as [K|K]; [left; exact K|]. right.
      destruct (Z_lt_le_dec (j - off) m) as [K'|K']; [|exact K'].
      assert (X : covers_axis b j = true) by (apply CV; lia). congruence. }
    destruct K as [K|K].
    + assert (I : inject_Z (j - off) * g <= (-1) * g).
      { apply Qmult_le_compat_r; [|lra]. change (-1) with (inject_Z (-1)). apply inj_le. lia. }
      apply (refuse_below rnd Hr _ _ _ (g * (4 # 10)) LH); try lra. rewrite tolerance_ulp. lra.
    + assert (I : inject_Z m * g <= inject_Z (j - off) * g) by (apply Qmult_le_compat_r; [apply inj_le, K|lra]).
      apply (refuse_above rnd Hr _ _ _ (g * (4 # 10)) LH); try lra. rewrite tolerance_ulp. lra.
Qed.
End Covers.
