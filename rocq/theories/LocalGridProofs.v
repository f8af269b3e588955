(** Proofs for C19-C23. *)
From Coq Require Import List Arith ZArith QArith Qround Lia Lqa Bool Setoid.
From Verif Require Import Util LocalGridModel LocalGridSpec.
Import ListNotations.

Lemma Qlt_bool_true : forall a b, Qlt_bool a b = true <-> (a < b)%Q.
Proof.
  intros a b. unfold Qlt_bool. rewrite negb_true_iff.
  destruct (Qle_bool b a) eqn:E; split; intros H; try discriminate; auto.
  - apply Qle_bool_iff in E. lra.
  - apply Qnot_le_lt. intros C. apply Qle_bool_iff in C. congruence.
Qed.

Lemma Qlt_bool_false : forall a b, Qlt_bool a b = false <-> (b <= a)%Q.
Proof.
  intros a b. unfold Qlt_bool. rewrite negb_false_iff. apply Qle_bool_iff.
Qed.

Lemma qmax_cases : forall a b, (a < b /\ qmax a b = b)%Q \/ (b <= a /\ qmax a b = a)%Q.
Proof.
  intros a b. unfold qmax. destruct (Qlt_bool a b) eqn:E.
  - apply Qlt_bool_true in E. auto.
  - apply Qlt_bool_false in E. auto.
Qed.

Lemma qmin_cases : forall a b, (b < a /\ qmin a b = b)%Q \/ (a <= b /\ qmin a b = a)%Q.
Proof.
  intros a b. unfold qmin. destruct (Qlt_bool b a) eqn:E.
  - apply Qlt_bool_true in E. auto.
  - apply Qlt_bool_false in E. auto.
Qed.

Lemma delta_eq : forall a, (0 < a_micro a)%Q -> (delta a * a_micro a == a_max a - a_min a)%Q.
Proof. intros a H. unfold delta. field. lra. Qed.

Lemma pos_factor : forall x y : Q, (0 < y -> 0 < x * y -> 0 < x)%Q.
Proof.
  intros x y Hy H. destruct (Qlt_le_dec 0 x); auto. exfalso.
  assert (x * y <= 0)%Q; [|lra]. nra.
Qed.

Lemma delta_pos : forall a, axis_ok a -> (0 < delta a)%Q.
Proof.
  intros a (_ & H & _ & M & _). apply (pos_factor _ (a_micro a)); auto.
  rewrite delta_eq by auto. lra.
Qed.

Lemma inject_nonneg : forall z, (0 <= z)%Z -> (0 <= inject_Z z)%Q.
Proof. intros z H. change 0%Q with (inject_Z 0). rewrite <- Zle_Qle. exact H. Qed.

(** C19 *)
Lemma patch_spec : forall a d, axis_ok a -> (d * a_micro a == a_max a - a_min a)%Q ->
  (a_gll a <= lower_left a /\ lower_left a <= a_min a /\
   a_max a <= upper_right a /\ upper_right a <= a_gur a)%Q /\
  (a_gll a <= a_min a - inject_Z (a_layers a) * d ->
   lower_left a == a_min a - inject_Z (a_layers a) * d)%Q /\
  (a_min a - inject_Z (a_layers a) * d < a_gll a -> lower_left a == a_gll a)%Q /\
  (a_max a + inject_Z (a_layers a) * d <= a_gur a ->
   upper_right a == a_max a + inject_Z (a_layers a) * d)%Q /\
  (a_gur a < a_max a + inject_Z (a_layers a) * d -> upper_right a == a_gur a)%Q.
Proof.
  intros a d OK D. pose proof (delta_pos a OK) as DP.
  destruct OK as (H1 & H2 & H3 & H4 & H5).
  assert (DD : (delta a == d)%Q).
  { assert (E : (delta a * a_micro a == d * a_micro a)%Q) by (rewrite delta_eq; auto; lra).
    apply Qmult_inj_r in E; auto. lra. }
  assert (0 <= inject_Z (a_layers a) * delta a)%Q.
  { apply Qmult_le_0_compat; [now apply inject_nonneg|lra]. }
  assert (E : (inject_Z (a_layers a) * delta a == inject_Z (a_layers a) * d)%Q) by now rewrite DD.
  unfold lower_left, upper_right.
  set (u := (inject_Z (a_layers a) * delta a)%Q) in *.
  set (v := (inject_Z (a_layers a) * d)%Q) in *. clearbody u v.
  destruct (qmax_cases (a_min a - u) (a_gll a)) as [(Q1 & ->)|(Q1 & ->)];
  destruct (qmin_cases (a_max a + u) (a_gur a)) as [(Q2 & ->)|(Q2 & ->)];
    repeat split; intros; lra.
Qed.

(** Structured grids: positions in multiples of the fine width. *)
Definition pos (a : axis) (k : Z) : Q := (a_gll a + inject_Z k * delta a)%Q.

Lemma structured_ok : forall a h n c m, structured a h n c m -> axis_ok a.
Proof.
  intros a h n c m (Hh & Hc & Hm & HL & Emin & Emax & Egur & Emic).
  assert (0 <= inject_Z c)%Q by (apply inject_nonneg; lia).
  assert (inject_Z c + 1 <= inject_Z n)%Q.
  { change 1%Q with (inject_Z 1). rewrite <- inject_Z_plus, <- Zle_Qle. lia. }
  assert (1 <= inject_Z m)%Q by (change 1%Q with (inject_Z 1); rewrite <- Zle_Qle; lia).
  repeat split; auto.
  - rewrite Emin. nra.
  - rewrite Emin, Emax. nra.
  - rewrite Emax, Egur. nra.
  - rewrite Emic. lra.
Qed.

Section Structured.
Variables (a : axis) (h : Q) (n c m : Z).
Hypothesis ST : structured a h n c m.
Let x := (c * m)%Z.
Let L := a_layers a.
Let N := (n * m)%Z.

Lemma st_delta : (inject_Z m * delta a == h)%Q.
Proof.
  pose proof (structured_ok _ _ _ _ _ ST) as OK.
  destruct OK as (_ & _ & _ & M & _).
  destruct ST as (Hh & Hc & Hm & HL & Emin & Emax & Egur & Emic).
  rewrite Qmult_comm. rewrite <- Emic. rewrite delta_eq by auto. rewrite Emin, Emax. ring.
Qed.

Lemma st_dpos : (0 < delta a)%Q.
Proof. apply delta_pos. eapply structured_ok; eauto. Qed.

Lemma pos_lt : forall i j, (pos a i < pos a j)%Q <-> (i < j)%Z.
Proof.
  intros i j. unfold pos. rewrite Qplus_lt_r.
  rewrite Qmult_lt_r by apply st_dpos. rewrite <- Zlt_Qlt. reflexivity.
Qed.

Lemma pos_le : forall i j, (pos a i <= pos a j)%Q <-> (i <= j)%Z.
Proof.
  intros i j. unfold pos. rewrite Qplus_le_r.
  rewrite Qmult_le_r by apply st_dpos. rewrite <- Zle_Qle. reflexivity.
Qed.

Lemma pos_sub : forall i j, (pos a i - pos a j == inject_Z (i - j) * delta a)%Q.
Proof.
  intros i j. unfold pos. replace (i - j)%Z with (i + - j)%Z by lia.
  rewrite inject_Z_plus, inject_Z_opp. ring.
Qed.

Lemma pos_shift : forall i k, (pos a i + inject_Z k * delta a == pos a (i + k))%Q.
Proof. intros i k. unfold pos. rewrite inject_Z_plus. ring. Qed.

Lemma gll_pos : (a_gll a == pos a 0)%Q.
Proof. unfold pos. change (inject_Z 0) with 0%Q. ring. Qed.

Lemma min_pos : (a_min a == pos a x)%Q.
Proof.
  destruct ST as (Hh & Hc & Hm & HL & Emin & Emax & Egur & Emic).
  rewrite Emin. unfold pos, x. rewrite inject_Z_mult. rewrite <- st_delta. ring.
Qed.

Lemma max_pos : (a_max a == pos a (x + m))%Q.
Proof.
  destruct ST as (Hh & Hc & Hm & HL & Emin & Emax & Egur & Emic).
  rewrite Emax. unfold pos, x. rewrite inject_Z_plus, inject_Z_mult.
  rewrite <- st_delta. ring.
Qed.

Lemma gur_pos : (a_gur a == pos a N)%Q.
Proof.
  destruct ST as (Hh & Hc & Hm & HL & Emin & Emax & Egur & Emic).
  rewrite Egur. unfold pos, N. rewrite inject_Z_mult. rewrite <- st_delta. ring.
Qed.

Lemma st_left : (a_min a - inject_Z L * delta a == pos a (x - L))%Q.
Proof.
  rewrite min_pos. rewrite <- (pos_shift x (-L)). rewrite inject_Z_opp. ring.
Qed.

Lemma st_right : (a_max a + inject_Z L * delta a == pos a (x + m + L))%Q.
Proof. rewrite max_pos. apply pos_shift. Qed.

Lemma st_exceeds_left : exceeds_left a = (x <? L)%Z.
Proof.
  unfold exceeds_left. fold L. destruct (Z.ltb_spec x L) as [H|H].
  - apply Qlt_bool_true. rewrite st_left, gll_pos. apply pos_lt. lia.
  - apply Qlt_bool_false. rewrite st_left, gll_pos. apply pos_le. lia.
Qed.

Lemma st_exceeds_right : exceeds_right a = (N <? x + m + L)%Z.
Proof.
  unfold exceeds_right. fold L. destruct (Z.ltb_spec N (x + m + L)) as [H|H].
  - apply Qlt_bool_true. rewrite st_right, gur_pos. apply pos_lt. lia.
  - apply Qlt_bool_false. rewrite st_right, gur_pos. apply pos_le. lia.
Qed.

Definition lo_k : Z := Z.max (x - L) 0.
Definition hi_k : Z := Z.min (x + m + L) N.

Lemma st_lo : (lower_left a == pos a lo_k)%Q.
Proof.
  unfold lower_left, lo_k. fold L.
  destruct (qmax_cases (a_min a - inject_Z L * delta a) (a_gll a)) as [(Q1 & ->)|(Q1 & ->)];
    rewrite st_left, gll_pos in Q1.
  - apply (proj1 (pos_lt _ _)) in Q1. rewrite Z.max_r by lia. apply gll_pos.
  - apply (proj1 (pos_le _ _)) in Q1. rewrite Z.max_l by lia. apply st_left.
Qed.

Lemma st_hi : (upper_right a == pos a hi_k)%Q.
Proof.
  unfold upper_right, hi_k. fold L.
  destruct (qmin_cases (a_max a + inject_Z L * delta a) (a_gur a)) as [(Q1 & ->)|(Q1 & ->)];
    rewrite st_right, gur_pos in Q1.
  - apply (proj1 (pos_lt _ _)) in Q1. rewrite Z.min_r by lia. apply gur_pos.
  - apply (proj1 (pos_le _ _)) in Q1. rewrite Z.min_l by lia. apply st_right.
Qed.

Definition cells_k : Z := (m + ((if x <? L then 0 else 1) + (if N <? x + m + L then 0 else 1)) * L)%Z.

Lemma st_cells : elements_per_dim a = cells_k.
Proof.
  unfold elements_per_dim. rewrite st_exceeds_left, st_exceeds_right. fold L.
  destruct ST as (Hh & Hc & Hm & HL & Emin & Emax & Egur & Emic).
  rewrite Emic, <- inject_Z_plus, Qfloor_Z. unfold cells_k, int_not. reflexivity.
Qed.

Lemma st_ints : (0 <= x)%Z /\ (x + m <= N)%Z /\ (1 <= m)%Z /\ (0 <= L)%Z /\
  (x = 0 <-> c = 0)%Z /\ (N - (x + m) = (n - 1 - c) * m)%Z /\
  ((n - 1 - c) * m = 0 <-> n - 1 - c = 0)%Z.
Proof.
  destruct ST as (Hh & Hc & Hm & HL & Emin & Emax & Egur & Emic).
  unfold x, N, L. repeat split; try nia.
Qed.

Lemma cells_pos : (1 <= cells_k <= hi_k - lo_k)%Z.
Proof.
  destruct st_ints as (H1 & H2 & H3 & H4 & _).
  unfold cells_k, hi_k, lo_k.
  destruct (Z.ltb_spec x L); destruct (Z.ltb_spec N (x + m + L)); lia.
Qed.

Lemma cells_exact : (cells_k = hi_k - lo_k)%Z <-> fits a n c m.
Proof.
  destruct st_ints as (H1 & H2 & H3 & H4 & H5 & H6 & H7).
  unfold cells_k, hi_k, lo_k, fits, side_fits. fold L. fold x. rewrite <- H6, <- H5.
  assert (E : (n - 1 - c = 0 <-> N = x + m)%Z) by lia.
  destruct (Z.ltb_spec x L); destruct (Z.ltb_spec N (x + m + L)); lia.
Qed.

Lemma st_width_eq : (width (local_axis a) * inject_Z cells_k == inject_Z (hi_k - lo_k) * delta a)%Q.
Proof.
  unfold width, local_axis. simpl. rewrite st_cells, st_lo, st_hi, pos_sub.
  field. pose proof cells_pos. change 0%Q with (inject_Z 0). rewrite inject_Z_injective. lia.
Qed.

Lemma st_width_iff : (width (local_axis a) == delta a)%Q <-> fits a n c m.
Proof.
  rewrite <- cells_exact. pose proof st_width_eq as W. pose proof cells_pos as P.
  pose proof st_dpos as D. split; intros H.
  - rewrite H in W. rewrite Qmult_comm in W. apply Qmult_inj_r in W; [|lra].
    apply (proj1 (inject_Z_injective _ _)) in W. auto.
  - rewrite <- H in W. rewrite Qmult_comm in W. apply Qmult_inj_l in W; auto.
    change 0%Q with (inject_Z 0). rewrite inject_Z_injective. lia.
Qed.

Lemma st_width_coarser : ~ fits a n c m -> (delta a < width (local_axis a))%Q.
Proof.
  rewrite <- cells_exact. intros NE. pose proof st_width_eq as W. pose proof cells_pos as P.
  pose proof st_dpos as D.
  assert (LT : (cells_k < hi_k - lo_k)%Z) by lia.
  rewrite Zlt_Qlt in LT. assert (0 < inject_Z cells_k)%Q.
  { change 0%Q with (inject_Z 0). rewrite <- Zlt_Qlt. lia. }
  set (w := width (local_axis a)) in *. set (k := inject_Z cells_k) in *.
  set (e := inject_Z (hi_k - lo_k)) in *. clearbody w k e.
  destruct (Qlt_le_dec (delta a) w); auto. exfalso. nra.
Qed.

(** With the fine width. *)
Lemma fit_node : fits a n c m -> forall j, (node (local_axis a) j == pos a (lo_k + j))%Q.
Proof.
  intros F j. unfold node. apply st_width_iff in F. rewrite F. simpl.
  rewrite st_lo. apply pos_shift.
Qed.

Lemma fit_covers : fits a n c m -> forall j,
  covers_axis a j = true <-> (x - lo_k <= j < x - lo_k + m)%Z.
Proof.
  intros F j. unfold covers_axis.
  assert (E : (centre (local_axis a) j == pos a (lo_k + j) + (1 # 2) * delta a)%Q).
  { unfold centre. pose proof (proj2 st_width_iff F) as W. rewrite W. simpl.
    rewrite st_lo. rewrite <- (pos_shift lo_k j). ring. }
  pose proof st_dpos as D.
  assert (M : (0 < inject_Z m)%Q).
  { change 0%Q with (inject_Z 0). rewrite <- Zlt_Qlt. destruct st_ints. lia. }
  assert (X : ((centre (local_axis a) j - a_min a) / (a_max a - a_min a) * inject_Z m ==
              inject_Z (lo_k + j - x) + (1 # 2))%Q).
  { rewrite E, min_pos, max_pos, pos_sub.
    replace (x + m - x)%Z with m by lia.
    setoid_replace (pos a (lo_k + j) + (1 # 2) * delta a - pos a x)%Q
      with ((inject_Z (lo_k + j - x) + (1 # 2)) * delta a)%Q
      by (rewrite Qmult_plus_distr_l, <- pos_sub; ring).
    field. split; lra. }
  set (y := ((centre (local_axis a) j - a_min a) / (a_max a - a_min a))%Q) in *. clearbody y.
  rewrite andb_true_iff, !Qle_bool_iff.
  assert (K : (lo_k + j - x < 0 \/ m <= lo_k + j - x \/ 0 <= lo_k + j - x < m)%Z) by lia.
  destruct K as [K|[K|K]].
  - assert (inject_Z (lo_k + j - x) <= - 1)%Q.
    { change (-1)%Q with (inject_Z (-1)). rewrite <- Zle_Qle. lia. }
    split; [|lia]. intros (A & B). exfalso. nra.
  - assert (inject_Z m <= inject_Z (lo_k + j - x))%Q by (rewrite <- Zle_Qle; lia).
    split; [|lia]. intros (A & B). exfalso. nra.
  - assert (0 <= inject_Z (lo_k + j - x))%Q by (apply inject_nonneg; lia).
    assert (inject_Z (lo_k + j - x) <= inject_Z m - 1)%Q.
    { change 1%Q with (inject_Z 1). unfold Qminus. rewrite <- inject_Z_opp, <- inject_Z_plus, <- Zle_Qle. lia. }
    split; [lia|]. intros _. split.
    + destruct (Qlt_le_dec y 0); auto. exfalso. nra.
    + destruct (Qlt_le_dec 1 y); auto. exfalso. nra.
Qed.

Lemma part_pos : fits a n c m -> forall j i,
  is_part a m j i <-> (lo_k + j = x + i)%Z.
Proof.
  intros F j i. pose proof st_dpos as D.
  assert (M : (0 < inject_Z m)%Q).
  { change 0%Q with (inject_Z 0). rewrite <- Zlt_Qlt. destruct st_ints. lia. }
  unfold is_part. rewrite !(fit_node F), max_pos, min_pos, !pos_sub.
  replace (x + m - x)%Z with m by lia.
  split.
  - intros (A & _).
    assert (B : (inject_Z (lo_k + j - x) * (inject_Z m * delta a) == inject_Z i * (inject_Z m * delta a))%Q)
      by (rewrite <- A; ring).
    apply Qmult_inj_r in B; [|nra]. apply (proj1 (inject_Z_injective _ _)) in B. lia.
  - intros E. replace (lo_k + j - x)%Z with i by lia.
    replace (lo_k + (j + 1) - x)%Z with (i + 1)%Z by lia.
    split; [ring|]. rewrite inject_Z_plus. change (inject_Z 1) with 1%Q. ring.
Qed.

Lemma fit_strict : fits a n c m -> forall j,
  covers_strict_axis a j = true <-> (x - lo_k <= j < x - lo_k + m)%Z.
Proof.
  intros F j. pose proof st_dpos as D. destruct st_ints as (_ & _ & M & _).
  assert (X : forall k, ((node (local_axis a) k - a_min a) / (a_max a - a_min a) * inject_Z m ==
              inject_Z (lo_k + k - x))%Q).
  { intros k. rewrite (fit_node F), min_pos, max_pos, !pos_sub.
    replace (x + m - x)%Z with m by lia. field.
    assert (0 < inject_Z m)%Q by (change 0%Q with (inject_Z 0); rewrite <- Zlt_Qlt; lia).
    split; lra. }
  assert (MQ : (0 < inject_Z m)%Q) by (change 0%Q with (inject_Z 0); rewrite <- Zlt_Qlt; lia).
  assert (A0 : forall k, (0 <= (node (local_axis a) k - a_min a) / (a_max a - a_min a))%Q <->
                         (0 <= lo_k + k - x)%Z).
  { intros k. rewrite Zle_Qle, <- X. change (inject_Z 0) with 0%Q.
    set (y := ((node (local_axis a) k - a_min a) / (a_max a - a_min a))%Q). clearbody y.
    split; intros H; [nra|]. destruct (Qlt_le_dec y 0); auto. exfalso; nra. }
  assert (A1 : forall k, ((node (local_axis a) k - a_min a) / (a_max a - a_min a) <= 1)%Q <->
                         (lo_k + k - x <= m)%Z).
  { intros k. rewrite Zle_Qle, <- X.
    set (y := ((node (local_axis a) k - a_min a) / (a_max a - a_min a))%Q). clearbody y.
    split; intros H; [nra|]. destruct (Qlt_le_dec 1 y); auto. exfalso; nra. }
  unfold covers_strict_axis. rewrite !andb_true_iff, !Qle_bool_iff, !A0, !A1. lia.
Qed.

Lemma fit_offset : fits a n c m -> (0 <= x - lo_k /\ x - lo_k + m <= cells_k)%Z.
Proof.
  intros F. apply cells_exact in F. rewrite F. destruct st_ints as (H1 & H2 & H3 & H4 & _).
  unfold lo_k, hi_k. lia.
Qed.
End Structured.

(** C20 *)
Lemma width_iff : forall a h n c m, structured a h n c m ->
  ((inject_Z m * width (local_axis a) == h)%Q <-> fits a n c m) /\
  (~ fits a n c m -> (h < inject_Z m * width (local_axis a))%Q) /\
  ((a_layers a <= m)%Z -> fits a n c m).
Proof.
  intros a h n c m ST.
  pose proof (st_delta _ _ _ _ _ ST) as D.
  assert (M : (0 < inject_Z m)%Q).
  { change 0%Q with (inject_Z 0). rewrite <- Zlt_Qlt. destruct ST. lia. }
  split; [|split].
  - rewrite <- (st_width_iff _ _ _ _ _ ST), <- D. split; intros H.
    + apply Qmult_inj_l in H; auto. lra.
    + now rewrite H.
  - intros NF. apply (st_width_coarser _ _ _ _ _ ST) in NF. rewrite <- D. nra.
  - intros H. destruct ST as (Hh & Hc & Hm & HL & _).
    unfold fits, side_fits. split.
    + destruct (Z.eq_dec c 0); auto. right. nia.
    + destruct (Z.eq_dec (n - 1 - c) 0); auto. right. nia.
Qed.

(** C21, one direction *)
Lemma tiles : forall a h n c m, structured a h n c m -> fits a n c m ->
  (forall j, (0 <= j <= elements_per_dim a)%Z -> exists k, (0 <= k <= n * m)%Z /\
     (inject_Z m * (node (local_axis a) j - a_gll a) == inject_Z k * h)%Q) /\
  exists off, (0 <= off /\ off + m <= elements_per_dim a)%Z /\
    (forall j, covers_axis a j = true <-> (off <= j < off + m)%Z) /\
    (forall j, covers_strict_axis a j = covers_axis a j) /\
    (forall j i, is_part a m j i <-> (j = off + i)%Z).
Proof.
  intros a h n c m ST F.
  rewrite (st_cells _ _ _ _ _ ST). split.
  - intros j Hj. exists (lo_k a c m + j)%Z. split.
    + pose proof (proj2 (cells_exact _ _ _ _ _ ST) F) as E. rewrite E in Hj.
      pose proof (st_ints _ _ _ _ _ ST). unfold lo_k, hi_k in *. lia.
    + rewrite (fit_node _ _ _ _ _ ST F). unfold pos.
      rewrite <- (st_delta _ _ _ _ _ ST). ring.
  - exists (c * m - lo_k a c m)%Z. split; [apply (fit_offset _ _ _ _ _ ST F)|].
    split; [intros j; apply (fit_covers _ _ _ _ _ ST F)|]. split.
    + intros j. apply eq_true_iff_eq.
      rewrite (fit_covers _ _ _ _ _ ST F), (fit_strict _ _ _ _ _ ST F). reflexivity.
    + intros j i. rewrite (part_pos _ _ _ _ _ ST F). lia.
Qed.

(** C23 *)
Lemma build_spec : forall es l,
  (forall e, In e es -> e_interior e = true) ->
  NoDup (map e_index es) -> NoDup (map fst l) ->
  (forall e, In e es -> ~ In (e_index e) (map fst l)) ->
  exists l', build es l = Done l' /\ NoDup (map fst l') /\
    length l' = (length es + length l)%nat /\
    forall i g, In (i, g) l' <->
      In (i, g) l \/ exists e, In e es /\ e_index e = i /\ g = map local_axis (e_axes e).
Proof.
  induction es as [|e es IH]; intros l HI ND NL DIS; simpl.
  - exists l. repeat split; auto. intros [H|(e & [] & _)]; auto.
  - rewrite (HI e) by (left; auto).
    inversion ND as [|? ? NI ND']; subst.
    assert (A : assoc (e_index e) l = None) by (apply assoc_None; apply DIS; left; auto).
    rewrite A.
    destruct (IH ((e_index e, map local_axis (e_axes e)) :: l)) as (l' & B & C & D & E).
    + intros e' H. apply HI. now right.
    + auto.
    + simpl. constructor; auto. apply DIS. now left.
    + intros e' H [Q|Q].
      * simpl in Q. apply NI. rewrite Q. now apply in_map.
      * eapply DIS; [right; eauto|auto].
    + exists l'. repeat split; auto.
      * rewrite D. simpl. lia.
      * intros H. apply E in H. simpl in H. destruct H as [[H|H]|(e' & H1 & H2 & H3)]; auto.
        -- injection H as <- <-. right. exists e. auto.
        -- right. exists e'. auto.
      * intros H. apply E. simpl. destruct H as [H|(e' & [<-|H1] & H2 & H3)]; auto.
        -- left. left. congruence.
        -- right. exists e'. auto.
Qed.

Lemma list_spec : forall es,
  (forall e, In e es -> e_interior e = true) -> NoDup (map e_index es) ->
  exists l, make_list es = Done l /\ list_size l = length es /\
    (forall e, In e es -> get_sub_grid l e = Done (map local_axis (e_axes e))) /\
    (forall i, ~ In i (map e_index es) -> get_by_index l i = AssertFails) /\
    (forall e, e_interior e = false -> get_sub_grid l e = AssertFails).
Proof.
  intros es HI ND. destruct (build_spec es [] HI ND) as (l & B & C & D & E).
  - constructor.
  - intros e _ [].
  - exists l. split; auto. split; [unfold list_size; rewrite D; simpl; lia|].
    split; [|split].
    + intros e H. unfold get_sub_grid, get_by_index. rewrite HI by auto.
      rewrite (In_assoc _ l (e_index e) (map local_axis (e_axes e))); auto.
      apply E. right. exists e. auto.
    + intros i H. unfold get_by_index.
      destruct (assoc i l) as [g|] eqn:A; auto. apply assoc_In in A. apply E in A.
      destruct A as [[]|(e & H1 & H2 & _)]. elim H. rewrite <- H2. now apply in_map.
    + intros e H. unfold get_sub_grid. now rewrite H.
Qed.
