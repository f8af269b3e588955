(** Theorems about the generation of the random field: C100, C101. *)
From Coq Require Import Reals ZArith List Arith Bool Lra Lia.
From Verif Require Import RSum SampleModel SampleSpec SampleProofs.
Import ListNotations.
Open Scope R_scope.

(** ** C100 *)
(** Logarithms of the generated values have mean zero. *)
Theorem C100_logarithms_have_mean_zero :
  forall Omega (E : (Omega -> R) -> R) n dim N nProc corr T t part x,
  dim = 2%nat \/ dim = 3%nat -> (0 < N)%nat -> (0 < nProc)%nat -> Nat.divide nProc (2 * N) ->
  white_noise nProc (draws dim N nProc T) E n -> (t < T)%nat -> node dim N x ->
  E (fun w => ln (node_value dim N nProc corr (fun r i => n r i w) t part x)) = 0.
Proof.
  intros Omega E n dim N nProc corr T t part x D PN PP PD WN Ht X.
  destruct D as [-> | ->]; now apply (field_mean _ N nProc corr PN PP PD T E n WN).
Qed.
Print Assumptions C100_logarithms_have_mean_zero.

(** Real and imaginary parts and different computations are uncorrelated: every
    call of create yields a field uncorrelated with the earlier ones. *)
Theorem C100_different_fields_are_uncorrelated :
  forall Omega (E : (Omega -> R) -> R) n dim N nProc corr T t a x t' b y,
  dim = 2%nat \/ dim = 3%nat -> (0 < N)%nat -> (0 < nProc)%nat -> Nat.divide nProc (2 * N) ->
  white_noise nProc (draws dim N nProc T) E n -> (t < T)%nat -> (t' < T)%nat ->
  (a < 2)%nat -> (b < 2)%nat -> (t, a) <> (t', b) -> node dim N x -> node dim N y ->
  E (fun w => ln (node_value dim N nProc corr (fun r i => n r i w) t a x) *
              ln (node_value dim N nProc corr (fun r i => n r i w) t' b y)) = 0.
Proof.
  intros Omega E n dim N nProc corr T t a x t' b y D PN PP PD WN Ht Ht' A B Ne X Y.
  assert (S : (Nat.eqb t t' && same_part a b = false)%bool).
  { apply andb_false_iff. destruct (Nat.eqb_spec t t') as [->|]; [right|auto].
    destruct a as [|[|a]], b as [|[|b]]; try lia; try reflexivity; exfalso; auto. }
  destruct D as [-> | ->]; rewrite (field_cov _ N nProc corr PN PP PD T E n WN) by auto; now rewrite S.
Qed.
Print Assumptions C100_different_fields_are_uncorrelated.

(** Within one field the requested correlation is met exactly, for any two nodes
    of the unit cube and on any number of processes. *)
Theorem C100_correlation_is_met :
  forall Omega (E : (Omega -> R) -> R) n dim N nProc corr T t part x y,
  dim = 2%nat \/ dim = 3%nat -> (0 < N)%nat -> (0 < nProc)%nat -> Nat.divide nProc (2 * N) ->
  white_noise nProc (draws dim N nProc T) E n -> (t < T)%nat -> node dim N x -> node dim N y ->
  (forall k, length k = dim -> Forall (fun i => (i < 2 * N)%nat) k -> 0 <= eigenvalue dim N corr k) ->
  E (fun w => ln (node_value dim N nProc corr (fun r i => n r i w) t part x) *
              ln (node_value dim N nProc corr (fun r i => n r i w) t part y)) = corr (difference N x y).
Proof.
  intros Omega E n dim N nProc corr T t part x y D PN PP PD WN Ht X Y EV.
  destruct D as [-> | ->]; rewrite (field_cov _ N nProc corr PN PP PD T E n WN) by auto;
    unfold same_part; rewrite Nat.eqb_refl, Bool.eqb_reflx; cbn [andb];
    apply (kernel_nonneg _ N nProc corr PN PP); auto; now apply (ev_all _ N nProc corr PN PP).
Qed.
Print Assumptions C100_correlation_is_met.

(** Dropping the imaginary part of the transformed correlation loses nothing. *)
Theorem C100_transformed_correlation_is_real : forall dim N nProc corr r p,
  dim = 2%nat \/ dim = 3%nat -> (0 < N)%nat -> (0 < nProc)%nat -> Nat.divide nProc (2 * N) ->
  (r < nProc)%nat -> (p < entries dim N nProc)%nat -> snd (transform dim N nProc corr r p) = 0.
Proof. intros dim N nProc corr r p [-> | ->] PN PP PD R0 P0; now apply transform_real. Qed.
Print Assumptions C100_transformed_correlation_is_real.

(** ** C101 *)
(** The variance is never smaller than requested, and it is the requested one
    exactly if no eigenvalue is negative (random_permeability.hh:156-157, 189-190: the
    check is commented out and the absolute value is taken). *)
Theorem C101_variance_is_never_too_small :
  forall Omega (E : (Omega -> R) -> R) n dim N nProc corr T t part x,
  dim = 2%nat \/ dim = 3%nat -> (0 < N)%nat -> (0 < nProc)%nat -> Nat.divide nProc (2 * N) ->
  white_noise nProc (draws dim N nProc T) E n -> (t < T)%nat -> node dim N x ->
  let variance := E (fun w => ln (node_value dim N nProc corr (fun r i => n r i w) t part x) *
                              ln (node_value dim N nProc corr (fun r i => n r i w) t part x)) in
  corr (difference N x x) <= variance /\
  (variance = corr (difference N x x) <->
   forall k, length k = dim -> Forall (fun i => (i < 2 * N)%nat) k -> 0 <= eigenvalue dim N corr k).
Proof.
  intros Omega E n dim N nProc corr T t part x D PN PP PD WN Ht X.
  destruct D as [-> | ->]; cbn zeta; rewrite (field_cov _ N nProc corr PN PP PD T E n WN) by auto;
    unfold same_part; rewrite Nat.eqb_refl, Bool.eqb_reflx; cbn [andb];
    rewrite <- (ev_all _ N nProc corr PN PP); now apply (kernel_variance _ N nProc corr PN PP).
Qed.
Print Assumptions C101_variance_is_never_too_small.

(** ** Concrete cases. *)
(** Finitely many equally likely outcomes carrying white noise. *)
Definition coin_mean (L : nat) (f : nat -> R) : R := / INR (2 * L) * rsum (2 * L) f.
Definition coin (L K r i : nat) (w : nat) : R :=
  if Nat.eqb w (2 * (r * K + i)) then sqrt (INR L) else
  if Nat.eqb w (2 * (r * K + i) + 1) then - sqrt (INR L) else 0.
Example white_noise_exists : forall P K, (0 < P)%nat -> (0 < K)%nat ->
  white_noise P K (coin_mean (P * K)) (coin (P * K) K).
Proof.
  intros P K HP HK. set (L := (P * K)%nat). assert (HL : (0 < L)%nat) by (unfold L; nia).
  pose proof (lt_0_INR L HL) as RL.
  assert (R2 : 0 < INR (2 * L)) by (apply lt_0_INR; lia).
  assert (SQ : sqrt (INR L) * sqrt (INR L) = INR L) by (apply sqrt_sqrt; lra).
  assert (PAIR : forall f a, (a < L)%nat -> (forall w, w <> (2 * a)%nat -> w <> (2 * a + 1)%nat -> f w = 0) ->
            rsum (2 * L) f = f (2 * a)%nat + f (2 * a + 1)%nat).
  { intros f a A Z.
    rewrite (rsum_ext _ f (fun w => (if Nat.eqb w (2 * a) then f w else 0) +
                                    (if Nat.eqb w (2 * a + 1) then f w else 0))).
    - rewrite rsum_plus. rewrite (rsum_single (2 * L) (2 * a) (fun w => if Nat.eqb w (2 * a) then f w else 0));
        [|lia|intros j _ J; destruct (Nat.eqb_spec j (2 * a)); [congruence|auto]].
      rewrite (rsum_single (2 * L) (2 * a + 1) (fun w => if Nat.eqb w (2 * a + 1) then f w else 0));
        [|lia|intros j _ J; destruct (Nat.eqb_spec j (2 * a + 1)); [congruence|auto]].
      now rewrite !Nat.eqb_refl.
    - intros w _. destruct (Nat.eqb_spec w (2 * a)); destruct (Nat.eqb_spec w (2 * a + 1)); try lia; try lra.
      rewrite Z by auto. lra. }
  assert (KEY : forall r i s j, (i < K)%nat -> (j < K)%nat -> (r * K + i = s * K + j)%nat -> r = s /\ i = j).
  { intros r i s j I J E. destruct (div_mul_add r K i HK I) as (D & M). destruct (div_mul_add s K j HK J) as (D' & M').
    rewrite E in D, M. lia. }
  split.
  - intros f g H. unfold coin_mean. f_equal. apply rsum_ext. auto.
  - intros f g. unfold coin_mean. rewrite rsum_plus. ring.
  - intros c f. unfold coin_mean. rewrite rsum_scale. ring.
  - intros r i Hr Hi. assert (A : (r * K + i < L)%nat) by (unfold L; nia).
    unfold coin_mean. rewrite (PAIR _ (r * K + i)%nat A).
    + unfold coin. rewrite !Nat.eqb_refl.
      destruct (Nat.eqb_spec (2 * (r * K + i) + 1) (2 * (r * K + i))); [lia|]. ring.
    + intros w W1 W2. unfold coin. destruct (Nat.eqb_spec w (2 * (r * K + i))); [congruence|].
      destruct (Nat.eqb_spec w (2 * (r * K + i) + 1)); [congruence|]. reflexivity.
  - intros r i s j Hr Hi Hs Hj. assert (A : (r * K + i < L)%nat) by (unfold L; nia).
    unfold coin_mean. rewrite (PAIR _ (r * K + i)%nat A).
    + unfold coin. rewrite !Nat.eqb_refl.
      destruct (Nat.eqb_spec (2 * (r * K + i) + 1) (2 * (r * K + i))); [lia|].
      destruct (Nat.eqb_spec r s) as [X1|D1]; [destruct (Nat.eqb_spec i j) as [X2|D1]|]; [subst r i| |].
      * rewrite !Nat.eqb_refl. destruct (Nat.eqb_spec (2 * (s * K + j) + 1) (2 * (s * K + j))); [lia|].
        replace (sqrt (INR L) * sqrt (INR L) + - sqrt (INR L) * - sqrt (INR L))
          with (2 * (sqrt (INR L) * sqrt (INR L))) by ring.
        rewrite SQ, mult_INR. simpl (INR 2). field. lra.
      * repeat match goal with |- context [Nat.eqb ?u ?v] => destruct (Nat.eqb_spec u v); [exfalso; destruct (KEY r i s j Hi Hj ltac:(lia)); congruence|] end.
        ring.
      * repeat match goal with |- context [Nat.eqb ?u ?v] => destruct (Nat.eqb_spec u v); [exfalso; destruct (KEY r i s j Hi Hj ltac:(lia)); congruence|] end.
        ring.
    + intros w W1 W2. unfold coin. destruct (Nat.eqb_spec w (2 * (r * K + i))); [congruence|].
      destruct (Nat.eqb_spec w (2 * (r * K + i) + 1)); [congruence|]. ring.
Qed.

(** Bounds of the exponential function. *)
Lemma exp_16 : forall x, exp x = exp (x / 16) ^ 16.
Proof.
  intros x. assert (H : forall n y, exp (INR n * y) = exp y ^ n).
  { induction n as [|n IH]; intros y; [simpl; rewrite Rmult_0_l; apply exp_0|].
    rewrite S_INR. replace ((INR n + 1) * y) with (y + INR n * y) by ring. rewrite exp_plus, IH. reflexivity. }
  rewrite <- H. f_equal. simpl. field.
Qed.
Lemma exp_upper : forall x, 0 <= x -> exp (- x) <= / (1 + x / 16) ^ 16.
Proof.
  intros x H. rewrite exp_Ropp, (exp_16 x). apply Rinv_le_contravar; [apply pow_lt; lra|].
  apply pow_incr. split; [lra|]. apply exp_ineq1_le.
Qed.
Lemma exp_lower : forall x, x <= 16 -> (1 - x / 16) ^ 16 <= exp (- x).
Proof.
  intros x H. rewrite (exp_16 (- x)). apply pow_incr. split; [lra|].
  pose proof (exp_ineq1_le (- x / 16)). lra.
Qed.
Lemma exp_antitone : forall x y, x <= y -> exp (- y) <= exp (- x).
Proof. intros x y [H|H]; [left; apply exp_increasing; lra|right; now rewrite H]. Qed.

Lemma circle_values : circle 2 0 = 0 /\ circle 2 1 = / 2 /\ circle 2 2 = 1 /\ circle 2 3 = / 2.
Proof. unfold circle. simpl. repeat split; field. Qed.

Lemma correlation_bound : forall l s a b, 0 < l -> 0 <= s -> s * s <= a * a + b * b ->
  correlation l 1 [a; b] <= exp (- (s / l)).
Proof.
  intros l s a b L S H. unfold correlation. cbn [fold_left]. rewrite !Rmult_1_l.
  replace (- sqrt (0 + a * a + b * b) / l) with (- (sqrt (0 + a * a + b * b) / l)) by (unfold Rdiv; ring).
  apply exp_antitone. unfold Rdiv. apply Rmult_le_compat_r; [left; now apply Rinv_0_lt_compat|].
  rewrite <- (sqrt_square s) by auto. apply sqrt_le_1_alt. lra.
Qed.
Lemma correlation_floor : forall l s a b, 0 < l -> 0 <= s -> a * a + b * b <= s * s ->
  exp (- (s / l)) <= correlation l 1 [a; b].
Proof.
  intros l s a b L S H. unfold correlation. cbn [fold_left]. rewrite !Rmult_1_l.
  replace (- sqrt (0 + a * a + b * b) / l) with (- (sqrt (0 + a * a + b * b) / l)) by (unfold Rdiv; ring).
  apply exp_antitone. unfold Rdiv. apply Rmult_le_compat_r; [left; now apply Rinv_0_lt_compat|].
  rewrite <- (sqrt_square s) by auto. apply sqrt_le_1_alt. lra.
Qed.
Lemma correlation_zero : forall l, 0 < l -> correlation l 1 [0; 0] = 1.
Proof.
  intros l L. unfold correlation. cbn [fold_left]. replace (0 + 0 * 0 + 0 * 0) with 0 by ring.
  rewrite sqrt_0. replace (- 0 / l) with 0 by (unfold Rdiv; ring). rewrite exp_0. ring.
Qed.

(** The default correlation length with two segments per direction: no eigenvalue
    is negative. *)
Example C100_case : forall k, length k = 2%nat -> Forall (fun i => (i < 2 * 2)%nat) k ->
  0 <= eigenvalue 2 2 (correlation (1 / 5) 1) k.
Proof.
  intros k L _. unfold eigenvalue. change (2 * 2)%nat with 4%nat.
  assert (Z : cos (2 * PI * inner k [0; 0]%nat / INR 4) = 1).
  { destruct k as [|a [|b [|c k]]]; try discriminate. unfold inner. cbn [combine lsum fst snd].
    rewrite <- cos_0. f_equal. simpl (INR 0). unfold Rdiv. ring. }
  assert (G : forall x, - correlation (1 / 5) 1 (map (circle 2) x) <=
     correlation (1 / 5) 1 (map (circle 2) x) * cos (2 * PI * inner k x / INR 4)).
  { intros x. pose proof (COS_bound (2 * PI * inner k x / INR 4)) as (B & _).
    assert (0 < correlation (1 / 5) 1 (map (circle 2) x)).
    { unfold correlation. rewrite !Rmult_1_l. apply exp_pos. }
    nra. }
  assert (N1 : exp (- (/ 2 / (1 / 5))) <= 1 / 10).
  { eapply Rle_trans; [apply exp_upper; lra|]. apply Rle_trans with (/ 10); [|lra].
    apply Rinv_le_contravar; [lra|]. simpl. lra. }
  assert (N2 : exp (- (7 / 10 / (1 / 5))) <= 1 / 20).
  { eapply Rle_trans; [apply exp_upper; lra|]. apply Rle_trans with (/ 20); [|lra].
    apply Rinv_le_contravar; [lra|]. simpl. lra. }
  destruct circle_values as (C0 & C1 & C2 & C3).
  assert (H1 : forall a b, / 2 * / 2 <= a * a + b * b -> correlation (1 / 5) 1 [a; b] <= 1 / 10).
  { intros a b H. eapply Rle_trans; [apply correlation_bound with (s := / 2); lra|exact N1]. }
  assert (H2 : forall a b, 7 / 10 * (7 / 10) <= a * a + b * b -> correlation (1 / 5) 1 [a; b] <= 1 / 20).
  { intros a b H. eapply Rle_trans; [apply correlation_bound with (s := 7 / 10); lra|exact N2]. }
  cbn [tuples flat_map map seq app lsum]. rewrite Z.
  pose proof (G [0; 1]%nat). pose proof (G [0; 2]%nat). pose proof (G [0; 3]%nat). pose proof (G [1; 0]%nat).
  pose proof (G [1; 1]%nat). pose proof (G [1; 2]%nat). pose proof (G [1; 3]%nat). pose proof (G [2; 0]%nat).
  pose proof (G [2; 1]%nat). pose proof (G [2; 2]%nat). pose proof (G [2; 3]%nat). pose proof (G [3; 0]%nat).
  pose proof (G [3; 1]%nat). pose proof (G [3; 2]%nat). pose proof (G [3; 3]%nat). clear G Z.
  cbn [map] in *. rewrite C0, C1, C2, C3 in *. rewrite correlation_zero in * by lra.
  pose proof (H1 0 (/ 2) ltac:(lra)). pose proof (H1 (/ 2) 0 ltac:(lra)).
  pose proof (H2 (/ 2) (/ 2) ltac:(lra)). pose proof (H2 0 1 ltac:(lra)). pose proof (H2 1 0 ltac:(lra)).
  pose proof (H2 (/ 2) 1 ltac:(lra)). pose proof (H2 1 (/ 2) ltac:(lra)). pose proof (H2 1 1 ltac:(lra)).
  lra.
Qed.

(** A long correlation length: a negative eigenvalue, so that the variance of the
    generated field is larger than requested. *)
Theorem C101_negative_eigenvalue : eigenvalue 2 2 (correlation 2 1) [2; 0]%nat < 0.
Proof.
  unfold eigenvalue. change (2 * 2)%nat with 4%nat.
  assert (K : forall i j z, INR i = INR (2 * z) \/ INR i = INR (2 * z + 1) ->
     cos (2 * PI * inner [2; 0]%nat [i; j] / INR 4) = if Nat.even i then 1 else -1).
  { intros i j z H. unfold inner. cbn [combine lsum fst snd].
    replace (2 * PI * (INR 2 * INR i + (INR 0 * INR j + 0)) / INR 4) with (PI * INR i) by (simpl; field).
    destruct H as [H|H]; apply INR_eq in H; subst i.
    - replace (Nat.even (2 * z)) with true by (symmetry; apply Nat.even_spec; exists z; lia).
      replace (PI * INR (2 * z)) with (0 + 2 * INR z * PI) by (rewrite mult_INR; simpl; ring).
      rewrite cos_period. apply cos_0.
    - replace (Nat.even (2 * z + 1)) with false
        by (symmetry; rewrite Nat.even_add; replace (Nat.even (2 * z)) with true
             by (symmetry; apply Nat.even_spec; exists z; lia); reflexivity).
      replace (PI * INR (2 * z + 1)) with (PI + 2 * INR z * PI) by (rewrite plus_INR, mult_INR; simpl; ring).
      rewrite cos_period. apply cos_PI. }
  destruct circle_values as (C0 & C1 & C2 & C3).
  cbn [tuples flat_map map seq app lsum]. rewrite C0, C1, C2, C3.
  rewrite !(K 0%nat _ 0%nat) by auto. rewrite !(K 1%nat _ 0%nat) by auto.
  rewrite !(K 2%nat _ 1%nat) by auto. rewrite !(K 3%nat _ 1%nat) by auto. cbn [Nat.even].
  assert (S : forall a b, correlation 2 1 [a; b] = correlation 2 1 [b; a]).
  { intros a b. unfold correlation. cbn [fold_left]. do 5 f_equal. ring. }
  rewrite (S (/ 2) 0), (S 1 0), (S 1 (/ 2)), correlation_zero by lra.
  assert (U1 : correlation 2 1 [0; 1] <= 123 / 200).
  { eapply Rle_trans; [apply correlation_bound with (s := 1); lra|].
    eapply Rle_trans; [apply exp_upper; lra|]. apply Rle_trans with (/ (200 / 123)); [|right; field].
    apply Rinv_le_contravar; [lra|]. simpl. lra. }
  assert (U2 : correlation 2 1 [1; 1] <= 51 / 100).
  { eapply Rle_trans; [apply correlation_bound with (s := 1414 / 1000); lra|].
    eapply Rle_trans; [apply exp_upper; lra|]. apply Rle_trans with (/ (100 / 51)); [|right; field].
    apply Rinv_le_contravar; [lra|]. simpl. lra. }
  assert (U3 : 695 / 1000 <= correlation 2 1 [/ 2; / 2]).
  { eapply Rle_trans; [|apply correlation_floor with (s := 708 / 1000); lra].
    eapply Rle_trans; [|apply exp_lower; lra]. simpl. lra. }
  lra.
Qed.
Print Assumptions C101_negative_eigenvalue.

Theorem C101_long_correlation_lengths_inflate_the_variance :
  forall Omega (E : (Omega -> R) -> R) n nProc T t part x,
  (0 < nProc)%nat -> Nat.divide nProc 4 -> white_noise nProc (draws 2 2 nProc T) E n -> (t < T)%nat -> node 2 2 x ->
  correlation 2 1 (difference 2 x x) = 1 /\
  1 < E (fun w => ln (node_value 2 2 nProc (correlation 2 1) (fun r i => n r i w) t part x) *
                  ln (node_value 2 2 nProc (correlation 2 1) (fun r i => n r i w) t part x)).
Proof.
  intros Omega E n nProc T t part x PP PD WN Ht X.
  assert (S : correlation 2 1 (difference 2 x x) = 1).
  { destruct X as (L & _). destruct x as [|a [|b [|c x]]]; try discriminate. unfold difference.
    cbn [combine map fst snd]. rewrite !Rminus_diag_eq by reflexivity. rewrite Rabs_R0.
    replace (0 / INR 2) with 0 by (unfold Rdiv; ring). apply correlation_zero. lra. }
  split; auto.
  destruct (C101_variance_is_never_too_small Omega E n 2 2 nProc (correlation 2 1) T t part x
              (or_introl eq_refl) ltac:(lia) PP PD WN Ht X) as (LE & EQ).
  rewrite S in LE, EQ. destruct LE as [LT|E1]; [exact LT|]. exfalso.
  pose proof (proj1 EQ (eq_sym E1) [2; 0]%nat eq_refl) as H. pose proof C101_negative_eigenvalue.
  specialize (H ltac:(repeat constructor)). lra.
Qed.
Print Assumptions C101_long_correlation_lengths_inflate_the_variance.

(** Two processes, three computations, two segments per direction. *)
Example C100_hypotheses :
  white_noise 2 (draws 2 2 2 3) (coin_mean (2 * draws 2 2 2 3)) (coin (2 * draws 2 2 2 3) (draws 2 2 2 3)) /\
  Nat.divide 2 (2 * 2) /\ draws 2 2 2 3 = 48%nat /\ node 2 2 [0; 2]%nat /\ node 2 2 [1; 1]%nat /\
  difference 2 [0; 2]%nat [1; 1]%nat = [/ 2; / 2].
Proof.
  repeat split; try (apply white_noise_exists; cbv; lia); try (exists 2%nat; reflexivity); try (repeat constructor).
  unfold difference. cbn [combine map fst snd]. simpl (INR _).
  replace (0 - 1) with (- (1)) by ring. replace (1 + 1 - 1) with 1 by ring. rewrite Rabs_Ropp, Rabs_R1.
  repeat f_equal; field.
Qed.

Example C101_case :
  1 < coin_mean (2 * draws 2 2 2 3) (fun w =>
        ln (node_value 2 2 2 (correlation 2 1)
             (fun r i => coin (2 * draws 2 2 2 3) (draws 2 2 2 3) r i w) 1 0 [0; 2]%nat) *
        ln (node_value 2 2 2 (correlation 2 1)
             (fun r i => coin (2 * draws 2 2 2 3) (draws 2 2 2 3) r i w) 1 0 [0; 2]%nat)).
Proof.
  apply (C101_long_correlation_lengths_inflate_the_variance _ _
           (coin (2 * draws 2 2 2 3) (draws 2 2 2 3)) 2 3 1 0 [0; 2]%nat);
    try apply C100_hypotheses; lia.
Qed.
