(** Proofs for C131. *)
From Coq Require Import Reals List Arith Bool Lra Lia.
From Verif Require Import Util RSum LinModel LinSpec LinProofs QuadModel CoarseModel CoarseSpec SystemModel SystemSpec SystemProofs SystemProps.
From Verif Require Import FemModel FemSpec FemProps PatchSpec PatchProofs SolveSpec SolveProofs LayerSpec LayerProofs MaxSpec MaxProofs BoundsSpec BoundsProofs QuadProofs LineSpec LineProofs OverSpec SampleProofs ConvSpec.
Import ListNotations.
Open Scope R_scope.

(** * Sums *)
Lemma Rabs_le_inv : forall x b, Rabs x <= b -> - b <= x <= b.
Proof. intros x b A. unfold Rabs in A. destruct (Rcase_abs x); lra. Qed.
Lemma rsum_abs : forall n F, Rabs (rsum n F) <= rsum n (fun i => Rabs (F i)).
Proof.
  induction n as [|n IH]; intros F; cbn [rsum]; [rewrite Rabs_R0; lra|].
  eapply Rle_trans; [apply Rabs_triang|]. specialize (IH F). lra.
Qed.
Lemma rsum_bound : forall n F B, (forall i, (i < n)%nat -> Rabs (F i) <= B) -> Rabs (rsum n F) <= INR n * B.
Proof.
  intros n F B H. eapply Rle_trans; [apply rsum_abs|]. rewrite <- rsum_const. now apply rsum_le.
Qed.
Lemma lsum_abs : forall A (l : list A) F, Rabs (lsum l F) <= lsum l (fun i => Rabs (F i)).
Proof.
  induction l as [|a l IH]; intros F; cbn [lsum]; [rewrite Rabs_R0; lra|].
  eapply Rle_trans; [apply Rabs_triang|]. specialize (IH F). lra.
Qed.
(** Weighted mean of numbers of absolute value at most [B]. *)
Lemma mean_bound : forall n (w b : nat -> R) C B, (0 < n)%nat -> (forall i, (i < n)%nat -> 0 < w i /\ Rabs (b i) <= B) ->
  rsum n (fun i => w i * (b i - C)) = 0 -> Rabs C <= B.
Proof.
  intros n w b C B Ln H Z.
  assert (P : 0 < rsum n w).
  { destruct n as [|k]; [lia|]. cbn [rsum]. assert (0 <= rsum k w) by (apply rsum_nonneg; intros; apply Rlt_le, H; lia).
    destruct (H k ltac:(lia)). lra. }
  assert (E : rsum n (fun i => w i * b i) = C * rsum n w).
  { rewrite <- rsum_scale. rewrite (rsum_ext n (fun i => w i * (b i - C)) (fun i => w i * b i + (-1) * (C * w i))) in Z by (intros; ring).
    rewrite rsum_plus, rsum_scale in Z. lra. }
  apply Rabs_le. split.
  - apply (Rmult_le_reg_r (rsum n w)); auto. rewrite <- E, <- rsum_scale. apply rsum_le. intros i Li. destruct (H i Li) as (W & A).
    apply Rabs_le_inv in A. nra.
  - apply (Rmult_le_reg_r (rsum n w)); auto. rewrite <- E, <- rsum_scale. apply rsum_le. intros i Li. destruct (H i Li) as (W & A).
    apply Rabs_le_inv in A. nra.
Qed.

Section Interval.
Variables (I : interval) (start u uh : nat -> R).
Hypothesis S0 : sound_interval I.
Hypothesis Su : coarse_result I u.
Hypothesis Sf : fine_result I start uh.
Notation n := (iv_n I).
Notation m := (iv_m I).
Notation H := (iv_H I).
Notation h := (iv_h I).
Notation a := (iv_a I).

Lemma Ln : (0 < n)%nat. Proof. apply S0. Qed.
Lemma Lm : (0 < m)%nat. Proof. apply S0. Qed.
Lemma LH : 0 < H. Proof. apply S0. Qed.
Lemma Lh : 0 < h. Proof. exact (iv_h_pos I S0). Qed.
Lemma Pm : 0 < INR m. Proof. apply lt_0_INR, Lm. Qed.
Lemma Hmh : INR m * h = H. Proof. unfold iv_h. pose proof Pm. field. lra. Qed.
Lemma pos_a : forall g, (g < n * m)%nat -> 0 < a g.
Proof. intros g Lg. destruct S0 as (_ & _ & _ & _ & _ & _ & Me & _). now apply Me. Qed.
Lemma in_block : forall c f, (c < n)%nat -> (f < m)%nat -> (c * m + f < n * m)%nat.
Proof. apply block_lt; [exact Ln|exact Lm]. Qed.

(** * The two flows *)
Lemma inner_profile : forall c j, inner_at I u c j = profile m (iv_num I) (iv_pa I) (iv_x I) u c j.
Proof. intros c j. unfold inner_at, corrected_at, profile, added, jump. cbn [INR]. rewrite Rminus_0_r. reflexivity. Qed.

(** The multiscale flow is the same on all fine cells of a coarse cell. *)
Lemma inner_flow : forall c f, (c < n)%nat -> (f < m)%nat ->
  flow I (inner_at I u) c f = kappa I c / H * (u (iv_num I [S c]) - u (iv_num I [c])).
Proof.
  intros c f Lc Lf. destruct S0 as (L1 & L2 & L3 & Num & Numf & Dv & Me & Co & _).
  pose proof (cell_product n m (iv_N I) H (iv_num I) (iv_diffusion I) (iv_global I) a (iv_order I) (iv_rhs_order I) (iv_o I) (iv_fo I)
    (iv_pa I) (iv_x I) (iv_rq I) L1 L2 L3 Num Dv Me Co c u (fun k => if Nat.leb k f then 0 else 1) Lc) as E.
  rewrite (rsum_single m f) in E; [|exact Lf|].
  - unfold flow. rewrite !inner_profile, profile_step by exact L2.
    destruct (Nat.leb_spec (S f) f); [lia|]. destruct (Nat.leb_spec f f); [|lia]. destruct (Nat.leb_spec m f); [lia|]. cbn [Nat.leb] in E.
    unfold kappa. unfold jump in E at 1. rewrite !Rminus_0_r, !Rmult_1_r in E. rewrite <- E. unfold iv_h. reflexivity.
  - intros j Lj Nj. assert (Nat.leb (S j) f = Nat.leb j f) as ->; [|unfold Rdiv; ring].
    destruct (Nat.leb_spec (S j) f), (Nat.leb_spec j f); try reflexivity; lia.
Qed.

(** The equation of the reference solution for a function vanishing at both
    ends. *)
Lemma fine_equation : forall z : nat -> R, z 0%nat = 0 -> z (n * m)%nat = 0 ->
  rsum (n * m) (fun g => a g * (uh (iv_numf I [S g]) - uh (iv_numf I [g])) / h * (z (S g) - z g)) =
  rsum (n * m) (fun g => h * lsum (iv_rq I g) (fun q => snd q * iv_source I (iv_global I [g] (fst q)) * (z g + (z (S g) - z g) * nth 0 (fst q) 0))).
Proof.
  intros z Z0 Zn. destruct S0 as (L1 & L2 & L3 & Num & Numf & Dv & Me & Co & Bo & Rq & Ag & Oe & Oef & _).
  destruct (spread (n * m) (iv_numf I) (iv_Nf I) z Numf) as (V & EV).
  assert (FB : forall c fs i, In (c, fs) (fine_line I) -> (i < fc_n (list R) c)%nat -> (fc_index (list R) c i < iv_Nf I)%nat).
  { apply (fine_bounds n m (iv_Nf I) H (iv_numf I) (iv_global I) (iv_fo I) (iv_rqf I) (iv_nl I) (iv_nr I) (iv_left I) (iv_right I)); auto. }
  pose proof (proj1 (C93_reference_solution_balances _ _ _ _ _ _ _ _ _ _ _ FB) Sf) as (_ & W).
  assert (ZV : forall i, (i < iv_Nf I)%nat -> iv_conf I i = true -> V i = 0).
  { intros i Li Ci. destruct (proj2 (proj2 Numf) i Li) as (js & Nj & <-). apply node_line in Nj. destruct Nj as (g & Lg & ->).
    rewrite EV by lia. destruct (Nat.eq_dec g 0) as [->|Ng0]; [auto|]. destruct (Nat.eq_dec g (n * m)) as [->|Ng1]; [auto|].
    rewrite Oef in Ci by lia. discriminate. }
  specialize (W V ZV). unfold fine_line, fine_boxes in W. rewrite !lsum_map, !lsum_cells in W. cbn [fst snd nth] in W.
  rewrite (rsum_ext (n * m) _ (fun g => fine_energy 1 (list R) (iv_diffusion I)
     (fem_cell (box_cell [h] (iv_numf I) [g] []) (iv_global I [g]) (volume [h]) (cube_rule 1 (iv_fo I)) (iv_rqf I g))
     (fine_grad (list R) uh (fem_cell (box_cell [h] (iv_numf I) [g] []) (iv_global I [g]) (volume [h]) (cube_rule 1 (iv_fo I)) (iv_rqf I g)))
     (fine_grad (list R) V (fem_cell (box_cell [h] (iv_numf I) [g] []) (iv_global I [g]) (volume [h]) (cube_rule 1 (iv_fo I)) (iv_rqf I g))))).
  - rewrite W. rewrite rsum_plus.
    assert (Lnm : (0 < n * m)%nat) by (apply Nat.mul_pos_pos; lia).
    transitivity (rsum (n * m) (fun g => h * lsum (iv_rq I g) (fun q => snd q * iv_source I (iv_global I [g] (fst q)) * (z g + (z (S g) - z g) * nth 0 (fst q) 0))) + 0); [|ring].
    f_equal.
    + apply rsum_ext. intros g Lg. rewrite (Ag _ _ _ Lg). unfold fine_load.
      change (fc_rquad (list R) (fem_cell (box_cell [h] (iv_numf I) [g] []) (iv_global I [g]) (volume [h]) (cube_rule 1 (iv_fo I)) (iv_rqf I g))) with (iv_rqf I g).
      rewrite <- lsum_scale. apply lsum_ext. intros q J. pose proof (Rq _ q (or_intror J)) as Lq.
      destruct (fst q) as [|t [|t' r]]; try discriminate. cbn [nth].
      unfold iv_h. rewrite (fine_val_on n m (iv_Nf I) H (iv_numf I) (iv_global I) (iv_fo I) (iv_rqf I) Numf g t V Lg).
      cbn [fem_cell fc_factor fc_global]. unfold volume. cbn [fold_right]. rewrite !EV by lia. ring.
    + etransitivity; [exact (end_loads n m (iv_neumann I) (iv_nl I) (iv_nr I) (iv_left I) (iv_right I) L1 L2 (n * m)%nat
        (fun g => fine_val (list R) V (fem_cell (box_cell [h] (iv_numf I) [g] []) (iv_global I [g]) (volume [h]) (cube_rule 1 (iv_fo I)) (iv_rqf I g))) Lnm)|].
      cbv beta.
      pose proof (fine_val_on n m (iv_Nf I) H (iv_numf I) (iv_global I) (iv_fo I) (iv_rqf I) Numf 0%nat 0 V Lnm) as E0.
      pose proof (fine_val_on n m (iv_Nf I) H (iv_numf I) (iv_global I) (iv_fo I) (iv_rqf I) Numf (n * m - 1)%nat 1 V ltac:(lia)) as E1.
      replace (S (n * m - 1)) with (n * m)%nat in E1 by lia. rewrite !EV in E0, E1 by lia. rewrite Z0 in E0. rewrite Zn in E1.
      unfold iv_h in *. rewrite E0, E1. destruct (iv_nl I), (iv_nr I); ring.
  - intros g Lg. symmetry.
    etransitivity; [exact (fine_energy_on n m (iv_Nf I) H (iv_numf I) (iv_diffusion I) (iv_neumann I) (iv_global I) a (iv_order I) (iv_rhs_order I)
      (iv_o I) (iv_fo I) (iv_rq I) (iv_rqf I) (iv_left I) L2 L3 Numf Me g uh V Lg)|].
    rewrite !EV by lia. unfold iv_h. pose proof (Lh) as P. unfold iv_h in P. field. split; [|lra]. pose proof Pm. lra.
Qed.

Variable F : R.
Hypothesis Bs : bounded_source I F.

Lemma F_nonneg : 0 <= F.
Proof.
  destruct Bs as (O & B). assert (L : (0 < n * m)%nat) by (apply Nat.mul_pos_pos; [exact Ln|exact Lm]).
  destruct (O _ L) as (_ & E). destruct (iv_rq I 0) as [|q l] eqn:Q; [cbn in E; lra|].
  pose proof (B 0%nat q L) as X. rewrite Q in X. specialize (X (or_introl eq_refl)). pose proof (Rabs_pos (iv_source I (iv_global I [0%nat] (fst q)))). lra.
Qed.

Lemma source_on_cell : forall g (phi : R -> R), (g < n * m)%nat -> (forall t, 0 <= t <= 1 -> Rabs (phi t) <= 1) ->
  Rabs (lsum (iv_rq I g) (fun q => snd q * iv_source I (iv_global I [g] (fst q)) * phi (nth 0 (fst q) 0))) <= F.
Proof.
  intros g phi Lg P. destruct Bs as (O & B). destruct (O g Lg) as (O1 & O2). pose proof F_nonneg.
  eapply Rle_trans; [apply lsum_abs|]. apply Rle_trans with (lsum (iv_rq I g) (fun q => F * snd q)).
  - apply lsum_le. intros q J. destruct (O1 q J) as (W & T). rewrite !Rabs_mult, (Rabs_pos_eq _ W).
    specialize (B g q Lg J). specialize (P _ T). pose proof (Rabs_pos (phi (nth 0 (fst q) 0))). pose proof (Rabs_pos (iv_source I (iv_global I [g] (fst q)))).
    assert (Rabs (iv_source I (iv_global I [g] (fst q))) * Rabs (phi (nth 0 (fst q) 0)) <= F * 1) by (apply Rmult_le_compat; lra). nra.
  - rewrite lsum_scale. change (lsum (iv_rq I g) (fun q => snd q)) with (lsum (iv_rq I g) snd). rewrite O2. lra.
Qed.

(** The reference flow differs between two fine cells of a coarse cell by at
    most the source between them. *)
Lemma reference_flow : forall c f f', (c < n)%nat -> (f <= f' < m)%nat ->
  Rabs (flow I (reference_at I uh) c f' - flow I (reference_at I uh) c f) <= H * F.
Proof.
  intros c f f' Lc Lf. set (lo := (c * m + f)%nat). set (hi := (c * m + f')%nat).
  set (z := fun g => if Nat.leb g lo then 0 else if Nat.leb g hi then 1 else 0).
  assert (Lhi : (hi < n * m)%nat) by (apply in_block; lia). assert (Llo : (lo <= hi)%nat) by (unfold lo, hi; lia).
  pose proof F_nonneg as FN. pose proof Lh as HP.
  destruct (Nat.eq_dec f f') as [<-|Nf]; [rewrite Rminus_diag_eq, Rabs_R0 by reflexivity; pose proof LH; nra|].
  pose proof (fine_equation z) as E.
  assert (Z0 : z 0%nat = 0) by (unfold z; reflexivity).
  assert (Zn : z (n * m)%nat = 0).
  { unfold z. destruct (Nat.leb_spec (n * m) lo); [reflexivity|]. destruct (Nat.leb_spec (n * m) hi); [lia|reflexivity]. }
  specialize (E Z0 Zn).
  assert (A : rsum (n * m) (fun g => a g * (uh (iv_numf I [S g]) - uh (iv_numf I [g])) / h * (z (S g) - z g)) =
    flow I (reference_at I uh) c f - flow I (reference_at I uh) c f').
  { rewrite (rsum_ext (n * m) _ (fun g => (if Nat.eqb g lo then flow I (reference_at I uh) c f else 0) + (-1) * (if Nat.eqb g hi then flow I (reference_at I uh) c f' else 0))).
    - rewrite rsum_plus, rsum_scale. rewrite (rsum_single (n * m) lo), (rsum_single (n * m) hi); try lia.
      + rewrite !Nat.eqb_refl. ring.
      + intros j _ Nj. destruct (Nat.eqb_spec j hi); [lia|reflexivity].
      + intros j _ Nj. destruct (Nat.eqb_spec j lo); [lia|reflexivity].
    - intros g Lg. unfold z. assert (lo <> hi) by (unfold lo, hi; lia).
      destruct (Nat.eqb_spec g lo) as [->|]; [|destruct (Nat.eqb_spec g hi) as [->|]].
      + destruct (Nat.eqb_spec lo hi); [lia|]. destruct (Nat.leb_spec (S lo) lo); [lia|]. destruct (Nat.leb_spec (S lo) hi); [|lia].
        destruct (Nat.leb_spec lo lo); [|lia]. unfold flow, reference_at, lo. rewrite Nat.add_succ_r. ring.
      + destruct (Nat.leb_spec (S hi) lo); [lia|]. destruct (Nat.leb_spec (S hi) hi); [lia|].
        destruct (Nat.leb_spec hi lo); [lia|]. destruct (Nat.leb_spec hi hi); [|lia]. unfold flow, reference_at, hi. rewrite Nat.add_succ_r. ring.
      + destruct (Nat.leb_spec (S g) lo), (Nat.leb_spec g lo); try lia; destruct (Nat.leb_spec (S g) hi), (Nat.leb_spec g hi); try lia; ring. }
  rewrite A in E. rewrite Rabs_minus_sym, E. rewrite rsum_blocks. rewrite (rsum_single n c); [|exact Lc|].
  - rewrite <- Hmh, Rmult_assoc. apply rsum_bound. intros k Lk. rewrite Rabs_mult, (Rabs_pos_eq h) by lra.
    apply Rmult_le_compat_l; [lra|].
    apply (source_on_cell (c * m + k) (fun t => z (c * m + k)%nat + (z (S (c * m + k)) - z (c * m + k)%nat) * t)); [now apply in_block|].
    intros t T. assert (B : forall g, 0 <= z g <= 1) by (intros g; unfold z; destruct (Nat.leb g lo), (Nat.leb g hi); lra).
    pose proof (B (c * m + k)%nat). pose proof (B (S (c * m + k))). apply Rabs_le. nra.
  - intros d Ld Nd. rewrite (rsum_ext m _ (fun _ => 0)); [apply rsum_zero|]. intros k Lk.
    assert (ZZ : z (d * m + k)%nat = 0 /\ z (S (d * m + k)) = 0).
    { unfold z. destruct (Nat.lt_trichotomy d c) as [X|[X|X]]; [|congruence|].
      - assert (S (d * m + k) <= c * m)%nat by (apply block_lt; lia).
        split; [destruct (Nat.leb_spec (d * m + k) lo)|destruct (Nat.leb_spec (S (d * m + k)) lo)]; try reflexivity; unfold lo in *; lia.
      - assert (hi < d * m)%nat by (unfold hi; apply block_lt; lia).
        split.
        + destruct (Nat.leb (d * m + k) lo); [reflexivity|]. destruct (Nat.leb_spec (d * m + k) hi); [lia|reflexivity].
        + destruct (Nat.leb (S (d * m + k)) lo); [reflexivity|]. destruct (Nat.leb_spec (S (d * m + k)) hi); [lia|reflexivity]. }
    destruct ZZ as (-> & ->). rewrite (lsum_ext _ _ _ (fun _ => 0)); [rewrite lsum_zero; ring|]. intros; ring.
Qed.

(** Mean of the reference flow over a coarse cell. *)
Lemma reference_mean : forall c f, (c < n)%nat -> (f < m)%nat ->
  Rabs (flow I (reference_at I uh) c f - kappa I c / H * (uh (iv_numf I [(S c * m)%nat]) - uh (iv_numf I [(c * m)%nat]))) <= H * F.
Proof.
  intros c f Lc Lf. set (J := uh (iv_numf I [(S c * m)%nat]) - uh (iv_numf I [(c * m)%nat])).
  pose proof Pm as mp_. pose proof LH as Hp. pose proof Lh as hp_.
  set (q := flow I (reference_at I uh) c).
  assert (T : rsum m (fun k => / a (c * m + k)%nat * q k) = J / h).
  { rewrite (rsum_ext m _ (fun k => / h * (reference_at I uh c (S k) - reference_at I uh c k))).
    - rewrite rsum_scale, (rsum_tele m (reference_at I uh c)). unfold reference_at, J.
      rewrite Nat.add_0_r. replace (c * m + m)%nat with (S c * m)%nat by (cbn [Nat.mul]; lia). unfold Rdiv. ring.
    - intros k Lk. unfold q, flow. pose proof (pos_a _ (in_block c k Lc Lk)). field. lra. }
  assert (Sp : 0 < rsum m (fun k => / a (c * m + k)%nat)).
  { apply rsum_inverse_pos; [exact Lm|]. intros k Lk. now apply pos_a, in_block. }
  assert (K : kappa I c / H * J = J / h / rsum m (fun k => / a (c * m + k)%nat)).
  { unfold kappa, harmonic. rewrite <- Hmh. field. lra. }
  rewrite K.
  assert (Z : rsum m (fun k => / a (c * m + k)%nat * ((q k - q f) - (J / h / rsum m (fun k => / a (c * m + k)%nat) - q f))) = 0).
  { rewrite (rsum_ext m _ (fun k => / a (c * m + k)%nat * q k + (- (J / h / rsum m (fun k => / a (c * m + k)%nat))) * / a (c * m + k)%nat)) by (intros; ring).
    rewrite rsum_plus, rsum_scale, T. field. lra. }
  rewrite Rabs_minus_sym. apply (mean_bound m (fun k => / a (c * m + k)%nat) (fun k => q k - q f)); [exact Lm| |exact Z].
  intros k Lk. split; [apply Rinv_0_lt_compat; now apply pos_a, in_block|].
  destruct (Nat.le_ge_cases f k) as [X|X]; [apply reference_flow; auto|]. rewrite Rabs_minus_sym. apply reference_flow; auto.
Qed.

(** * Consequences of a bound on the misplaced source *)
Variable B : R.
Hypothesis Bm : forall c, (c < n)%nat -> Rabs (h * mis I c) <= B.

Lemma jump_error : exists C, Rabs C <= B /\
  (forall c, (c < n)%nat -> kappa I c / H * (difference_at I u uh (S c) - difference_at I u uh c) = h * mis I c - C) /\
  (left_constrained I -> difference_at I u uh 0 = 0) /\ (right_constrained I -> difference_at I u uh n = 0).
Proof.
  destruct (line_difference I start u uh S0 Su Sf) as (C & D & Fr & A & Z). exists C.
  split; [|auto]. pose proof LH as Hp.
  assert (BN : 0 <= B) by (pose proof (Bm 0%nat Ln); pose proof (Rabs_pos (h * mis I 0%nat)); lra).
  destruct (bool_dec (iv_con I (iv_num I [0%nat])) true) as [L|L]; [destruct (bool_dec (iv_con I (iv_num I [n])) true) as [R|R]|].
  - apply (mean_bound n (fun c => H / kappa I c) (fun c => h * mis I c) C B Ln).
    + intros c Lc. split; [apply Rdiv_lt_0_compat; [exact Hp|now apply kappa_pos]|now apply Bm].
    + rewrite (rsum_ext n _ (fun c => difference_at I u uh (S c) - difference_at I u uh c)).
      * rewrite (rsum_tele n (difference_at I u uh)), A, Z by assumption. ring.
      * intros c Lc. rewrite <- D by exact Lc. pose proof (kappa_pos I c S0 Lc). field. lra.
  - rewrite Fr, Rabs_R0 by auto. exact BN.
  - rewrite Fr, Rabs_R0 by auto. exact BN.
Qed.

Lemma B_nonneg : 0 <= B.
Proof. pose proof (Bm 0%nat Ln). pose proof (Rabs_pos (h * mis I 0%nat)). lra. Qed.

Lemma flow_error : forall c f, (c < n)%nat -> (f < m)%nat ->
  Rabs (flow I (inner_at I u) c f - flow I (reference_at I uh) c f) <= H * F + 2 * B.
Proof.
  intros c f Lc Lf. destruct jump_error as (C & BC & D & _). specialize (D c Lc).
  pose proof (reference_mean c f Lc Lf) as Rm. rewrite (inner_flow c f Lc Lf).
  assert (X : kappa I c / H * (u (iv_num I [S c]) - u (iv_num I [c])) =
    kappa I c / H * (uh (iv_numf I [(S c * m)%nat]) - uh (iv_numf I [(c * m)%nat])) + (h * mis I c - C)).
  { rewrite <- D. unfold difference_at. ring. }
  rewrite X. pose proof (Bm c Lc) as Bc. apply Rabs_le_inv in Bc, BC, Rm. apply Rabs_le. lra.
Qed.

Variable al : R.
Hypothesis Da : diffusion_from I al.

Lemma kappa_from : forall c, (c < n)%nat -> al <= kappa I c.
Proof.
  intros c Lc. destruct Da as (P & A). pose proof Pm as mp_. unfold kappa, harmonic.
  assert (Sp : 0 < rsum m (fun k => / a (c * m + k)%nat)).
  { apply rsum_inverse_pos; [exact Lm|]. intros k Lk. now apply pos_a, in_block. }
  apply (Rmult_le_reg_r (rsum m (fun k => / a (c * m + k)%nat))); auto.
  replace (INR m / rsum m (fun k => / a (c * m + k)%nat) * rsum m (fun k => / a (c * m + k)%nat)) with (INR m * 1) by (field; lra).
  rewrite <- rsum_scale, <- rsum_const. apply rsum_le. intros k Lk. pose proof (in_block c k Lc Lk) as Lg.
  specialize (A _ Lg). pose proof (pos_a _ Lg). apply (Rmult_le_reg_r (a (c * m + k)%nat)); auto. rewrite Rmult_assoc, Rinv_l by lra. lra.
Qed.

Lemma node_error_between : forall c k, (c + k <= n)%nat ->
  Rabs (difference_at I u uh (c + k) - difference_at I u uh c) <= INR k * (H / al * (2 * B)).
Proof.
  intros c k. destruct jump_error as (C & BC & D & _). pose proof LH as Hp. destruct Da as (P & _). pose proof B_nonneg as BN.
  induction k as [|k IH]; intros Lk; [rewrite Nat.add_0_r, Rminus_diag_eq, Rabs_R0 by reflexivity; cbn; lra|].
  specialize (IH ltac:(lia)). rewrite Nat.add_succ_r, S_INR.
  assert (Lc : (c + k < n)%nat) by lia. specialize (D _ Lc). pose proof (kappa_from _ Lc) as Kf.
  assert (X : difference_at I u uh (S (c + k)) - difference_at I u uh (c + k) = H / kappa I (c + k) * (h * mis I (c + k) - C))
    by (rewrite <- D; field; lra).
  replace (difference_at I u uh (S (c + k)) - difference_at I u uh c) with
    ((difference_at I u uh (S (c + k)) - difference_at I u uh (c + k)) + (difference_at I u uh (c + k) - difference_at I u uh c)) by ring.
  eapply Rle_trans; [apply Rabs_triang|]. rewrite X, Rabs_mult.
  assert (Y : Rabs (h * mis I (c + k) - C) <= 2 * B).
  { pose proof (Bm _ Lc) as Bc. apply Rabs_le_inv in Bc, BC. apply Rabs_le. lra. }
  assert (W : Rabs (H / kappa I (c + k)) <= H / al).
  { rewrite Rabs_pos_eq by (apply Rlt_le, Rdiv_lt_0_compat; lra). unfold Rdiv. apply Rmult_le_compat_l; [lra|]. apply Rinv_le_contravar; lra. }
  assert (Rabs (H / kappa I (c + k)) * Rabs (h * mis I (c + k) - C) <= H / al * (2 * B)) by (apply Rmult_le_compat; auto using Rabs_pos). lra.
Qed.

Lemma node_error : forall c, (c <= n)%nat -> left_constrained I \/ right_constrained I ->
  Rabs (difference_at I u uh c) <= INR n * H * (2 * B) / al.
Proof.
  intros c Lc E. destruct jump_error as (C & _ & _ & Le & Ri). pose proof LH as Hp. destruct Da as (P & _). pose proof B_nonneg as BN.
  assert (Q : 0 <= H / al * (2 * B)) by (apply Rmult_le_pos; [apply Rlt_le, Rdiv_lt_0_compat; lra|lra]).
  assert (T : forall k, (k <= n)%nat -> INR k * (H / al * (2 * B)) <= INR n * H * (2 * B) / al).
  { intros k Lk. apply le_INR in Lk. replace (INR n * H * (2 * B) / al) with (INR n * (H / al * (2 * B))) by (field; lra). now apply Rmult_le_compat_r. }
  destruct E as [E|E].
  - pose proof (node_error_between 0 c Lc) as X. cbn [Nat.add] in X. rewrite (Le E), Rminus_0_r in X. eapply Rle_trans; [exact X|auto].
  - pose proof (node_error_between c (n - c) ltac:(lia)) as X. replace (c + (n - c))%nat with n in X by lia.
    rewrite (Ri E) in X. rewrite Rabs_minus_sym, Rminus_0_r in X. eapply Rle_trans; [exact X|]. apply T. lia.
Qed.

Lemma inner_first : forall c, (c < n)%nat -> inner_at I u c 0 = u (iv_num I [c]).
Proof.
  intros c Lc. rewrite inner_profile. destruct S0 as (L1 & L2 & L3 & Num & Numf & Dv & Me & Co & _).
  unfold profile. rewrite (proj1 (ends n m H (iv_num I) (iv_diffusion I) (iv_global I) (iv_order I) (iv_rhs_order I) (iv_pa I) (iv_x I) L2 Dv Co c u Lc)).
  cbn [INR]. pose proof Pm. field. lra.
Qed.

Lemma value_error : forall c j, (c < n)%nat -> (j <= m)%nat -> left_constrained I \/ right_constrained I ->
  Rabs (inner_at I u c j - reference_at I uh c j) <= INR n * H * (2 * B) / al + H * (H * F + 2 * B) / al.
Proof.
  intros c j Lc Lj E. pose proof (node_error c ltac:(lia) E) as N0. pose proof Lh as hp_. pose proof B_nonneg as BN. pose proof F_nonneg as FN.
  destruct Da as (P & A). pose proof LH as Hp. pose proof Pm as mp_.
  assert (EP : 0 <= H * F + 2 * B) by nra.
  assert (X : forall k, (k <= m)%nat -> inner_at I u c k - reference_at I uh c k =
    difference_at I u uh c + rsum k (fun f => h / a (c * m + f)%nat * (flow I (inner_at I u) c f - flow I (reference_at I uh) c f))).
  { induction k as [|k IH]; intros Lk.
    - cbn [rsum]. rewrite inner_first by exact Lc. unfold reference_at, difference_at. rewrite Nat.add_0_r. ring.
    - cbn [rsum]. rewrite <- Rplus_assoc, <- IH by lia. unfold flow. pose proof (pos_a _ (in_block c k Lc Lk)). field. lra. }
  rewrite (X j Lj). eapply Rle_trans; [apply Rabs_triang|]. apply Rplus_le_compat; [exact N0|].
  apply Rle_trans with (INR j * (h / al * (H * F + 2 * B))).
  - apply rsum_bound. intros f Lf. rewrite Rabs_mult. pose proof (in_block c f Lc ltac:(lia)) as Lg. specialize (A _ Lg).
    apply Rmult_le_compat; auto using Rabs_pos.
    + rewrite Rabs_pos_eq by (apply Rlt_le, Rdiv_lt_0_compat; lra). unfold Rdiv. apply Rmult_le_compat_l; [lra|]. apply Rinv_le_contravar; lra.
    + apply flow_error; [exact Lc|lia].
  - replace (H * (H * F + 2 * B) / al) with (INR m * (h / al * (H * F + 2 * B))).
    + apply Rmult_le_compat_r; [|now apply le_INR]. apply Rmult_le_pos; [apply Rlt_le, Rdiv_lt_0_compat; lra|exact EP].
    + rewrite <- Hmh at 2. field. lra.
Qed.

Lemma energy_error : energy_of I (fun c j => inner_at I u c j - reference_at I uh c j) <= INR n * H * (H * F + 2 * B) ^ 2 / al.
Proof.
  pose proof Lh as hp_. pose proof B_nonneg as BN. pose proof F_nonneg as FN. destruct Da as (P & A). pose proof LH as Hp.
  assert (EP : 0 <= H * F + 2 * B) by nra. unfold energy_of.
  apply Rle_trans with (rsum n (fun _ => rsum m (fun _ => h * (H * F + 2 * B) ^ 2 / al))).
  - apply rsum_le. intros c Lc. apply rsum_le. intros f Lf. pose proof (in_block c f Lc Lf) as Lg. specialize (A _ Lg).
    pose proof (flow_error c f Lc Lf) as Fe. set (d := flow I (inner_at I u) c f - flow I (reference_at I uh) c f) in *.
    assert (X : flow I (fun c j => inner_at I u c j - reference_at I uh c j) c f *
      (inner_at I u c (S f) - reference_at I uh c (S f) - (inner_at I u c f - reference_at I uh c f)) = h * d ^ 2 * / a (c * m + f)%nat).
    { unfold d, flow. field. split; lra. }
    rewrite X. unfold Rdiv.
    assert (d ^ 2 <= (H * F + 2 * B) ^ 2) by (apply Rabs_le_inv in Fe; nra).
    assert (0 <= d ^ 2) by nra. apply Rmult_le_compat; try nra.
    + apply Rlt_le, Rinv_0_lt_compat. lra.
    + apply Rinv_le_contravar; lra.
  - rewrite !rsum_const. rewrite <- Hmh at 2. apply Req_le. field. lra.
Qed.
End Interval.

(** * Bounds on the misplaced source *)
Lemma misplaced_bounded : forall I F c, sound_interval I -> bounded_source I F -> (c < iv_n I)%nat -> Rabs (iv_h I * mis I c) <= iv_H I * F.
Proof.
  intros I F c S0 Bs Lc. pose proof (Lh I S0) as hp_. pose proof (Pm I S0) as mp_.
  rewrite Rabs_mult, (Rabs_pos_eq (iv_h I)) by lra. rewrite <- (Hmh I S0), (Rmult_comm (INR _)), Rmult_assoc. apply Rmult_le_compat_l; [lra|].
  unfold mis, misplaced. apply rsum_bound. intros f Lf.
  apply (source_on_cell I S0 F Bs (c * iv_m I + f) (fun t => t - (INR f + t) / INR (iv_m I))); [now apply in_block|].
  intros t T. assert (Ff : INR f + 1 <= INR (iv_m I)) by (rewrite <- S_INR; now apply le_INR). pose proof (pos_INR f) as Fp.
  assert (0 <= (INR f + t) / INR (iv_m I) <= 1).
  { split; [apply Rmult_le_pos; [lra|apply Rlt_le, Rinv_0_lt_compat; lra]|].
    apply (Rmult_le_reg_r (INR (iv_m I))); auto. unfold Rdiv. rewrite Rmult_assoc, Rinv_l by lra. lra. }
  apply Rabs_le. lra.
Qed.

Lemma gauss_ordinary : forall r, (2 <= r <= 5)%nat -> ordinary_rule (cube_rule 1 r).
Proof.
  intros r L. destruct (LineProofs.moments r L) as (M0 & _). split; [|exact M0].
  intros q J. unfold cube_rule in J. split.
  - assert (G : (2 <= gauss_points r <= 3)%nat) by (destruct r as [|[|[|[|[|[|]]]]]]; try lia; cbn; lia).
    pose proof (gauss_positive _ G) as P. unfold product_rule in J. apply in_flat_map in J. destruct J as (p & Jp & J).
    rewrite Forall_forall in P. specialize (P p Jp). cbn in J. destruct J as [<-|[]]. cbn. lra.
  - pose proof (rule_inside _ (gauss_inside (gauss_points r)) 1 q J) as X. destruct (rule_one _ _ J) as (t & T). rewrite T in *.
    inversion X; subst. cbn. lra.
Qed.

Lemma misplaced_smooth : forall I start K c, sound_interval I -> smooth_source I start K -> (c < iv_n I)%nat ->
  Rabs (iv_h I * mis I c) <= K * iv_H I ^ 2 / 2.
Proof.
  intros I start K c S0 (Li & Gl & Ru) Lc. pose proof (Lh I S0) as hp_. pose proof (Pm I S0) as mp_. pose proof (LH I S0) as Hp_.
  assert (KN : 0 <= K).
  { pose proof (Li 1 0) as X. pose proof (Rabs_pos (iv_source I [1] - iv_source I [0])). rewrite Rminus_0_r, Rabs_R1 in X. lra. }
  set (mid := start + (INR (c * iv_m I) + INR (iv_m I) / 2) * iv_h I).
  assert (E : mis I c = rsum (iv_m I) (fun f => lsum (iv_rq I (c * iv_m I + f)%nat) (fun q =>
    snd q * (iv_source I (iv_global I [(c * iv_m I + f)%nat] (fst q)) - iv_source I [mid]) * (nth 0 (fst q) 0 - (INR f + nth 0 (fst q) 0) / INR (iv_m I))))).
  { transitivity (mis I c + (- iv_source I [mid]) * rsum (iv_m I) (fun f => 1 / 2 - (INR f + 1 / 2) / INR (iv_m I))).
    - assert (Z : rsum (iv_m I) (fun f => 1 / 2 - (INR f + 1 / 2) / INR (iv_m I)) = 0).
      { rewrite (rsum_ext (iv_m I) _ (fun f => (1 / 2 - 1 / 2 / INR (iv_m I)) * 1 + (- / INR (iv_m I)) * INR f)) by (intros; field; lra).
        rewrite rsum_plus, !rsum_scale, sum_first, rsum_const. field. lra. }
      rewrite Z. ring.
    - unfold mis, misplaced. rewrite <- rsum_scale, <- rsum_plus. apply rsum_ext. intros f Lf.
      destruct (Ru (c * iv_m I + f)%nat) as (r & Lr & ->). destruct (LineProofs.moments r Lr) as (M0 & M1 & _).
      assert (X : lsum (cube_rule 1 r) (fun q => snd q * (nth 0 (fst q) 0 - (INR f + nth 0 (fst q) 0) / INR (iv_m I))) = 1 / 2 - (INR f + 1 / 2) / INR (iv_m I)).
      { rewrite (lsum_ext _ _ _ (fun q => (1 - / INR (iv_m I)) * (snd q * nth 0 (fst q) 0) + (- INR f / INR (iv_m I)) * snd q)) by (intros; field; lra).
        rewrite lsum_plus, !lsum_scale, M1. change (lsum (cube_rule 1 r) (fun q => snd q)) with (lsum (cube_rule 1 r) snd) in *. rewrite M0. field. lra. }
      rewrite <- X, <- lsum_scale, <- lsum_plus. apply lsum_ext. intros q _. ring. }
  rewrite E, Rabs_mult, (Rabs_pos_eq (iv_h I)) by lra.
  replace (K * iv_H I ^ 2 / 2) with (iv_h I * (INR (iv_m I) * (K * iv_H I / 2))) by (rewrite <- (Hmh I S0); field).
  apply Rmult_le_compat_l; [lra|]. apply rsum_bound. intros f Lf.
  destruct (Ru (c * iv_m I + f)%nat) as (r & Lr & ->). destruct (gauss_ordinary r Lr) as (O1 & O2).
  eapply Rle_trans; [apply lsum_abs|]. apply Rle_trans with (lsum (cube_rule 1 r) (fun q => K * iv_H I / 2 * snd q)).
  - apply lsum_le. intros q J. destruct (O1 q J) as (W & T). destruct (rule_one _ _ J) as (t & Et). rewrite Et in *. cbn [nth] in *.
    rewrite Gl by now apply in_block. rewrite !Rabs_mult, (Rabs_pos_eq _ W).
    assert (Ff : INR f + 1 <= INR (iv_m I)) by (rewrite <- S_INR; now apply le_INR). pose proof (pos_INR f) as Fp.
    assert (A : Rabs (iv_source I [start + (INR (c * iv_m I + f) + t) * iv_h I] - iv_source I [mid]) <= K * iv_H I / 2).
    { eapply Rle_trans; [apply Li|]. unfold mid. rewrite plus_INR.
      replace (start + (INR (c * iv_m I) + INR f + t) * iv_h I - (start + (INR (c * iv_m I) + INR (iv_m I) / 2) * iv_h I))
        with ((INR f + t - INR (iv_m I) / 2) * iv_h I) by ring.
      rewrite Rabs_mult, (Rabs_pos_eq (iv_h I)) by lra.
      assert (Rabs (INR f + t - INR (iv_m I) / 2) <= INR (iv_m I) / 2) by (apply Rabs_le; lra).
      replace (K * iv_H I / 2) with (K * (INR (iv_m I) / 2 * iv_h I)) by (rewrite <- (Hmh I S0); field).
      apply Rmult_le_compat_l; [exact KN|]. apply Rmult_le_compat_r; lra. }
    assert (Q : 0 <= (INR f + t) / INR (iv_m I) <= 1).
    { split; [apply Rmult_le_pos; [lra|apply Rlt_le, Rinv_0_lt_compat; lra]|].
      apply (Rmult_le_reg_r (INR (iv_m I))); auto. unfold Rdiv. rewrite Rmult_assoc, Rinv_l by lra. lra. }
    assert (Bp : Rabs (t - (INR f + t) / INR (iv_m I)) <= 1) by (apply Rabs_le; lra).
    assert (Rabs (iv_source I [start + (INR (c * iv_m I + f) + t) * iv_h I] - iv_source I [mid]) * Rabs (t - (INR f + t) / INR (iv_m I)) <= K * iv_H I / 2 * 1)
      by (apply Rmult_le_compat; auto using Rabs_pos). nra.
  - rewrite lsum_scale. change (lsum (cube_rule 1 r) (fun q => snd q)) with (lsum (cube_rule 1 r) snd). rewrite O2. lra.
Qed.

(** * A constant source *)
Lemma flow_drop : forall I start uh y0 s0, sound_interval I -> fine_result I start uh -> affine_source I y0 s0 0 ->
  forall c f, (c < iv_n I)%nat -> (S f < iv_m I)%nat ->
  flow I (reference_at I uh) c f - flow I (reference_at I uh) c (S f) = s0 * iv_h I.
Proof.
  intros I start uh y0 s0 S0 Sf (So & Gl & Ru) c f Lc Lf. set (lo := (c * iv_m I + f)%nat).
  set (z := fun g => if Nat.eqb g (S lo) then 1 else 0).
  assert (Lg : (S lo < iv_n I * iv_m I)%nat) by (unfold lo; rewrite <- Nat.add_succ_r; now apply in_block).
  assert (Zn : z (iv_n I * iv_m I)%nat = 0) by (unfold z; destruct (Nat.eqb_spec (iv_n I * iv_m I) (S lo)); [lia|reflexivity]).
  pose proof (fine_equation I start uh S0 Sf z eq_refl Zn) as E.
  assert (T : forall (X Y : R) G, (forall g, (g < iv_n I * iv_m I)%nat -> G g = (if Nat.eqb g lo then X else 0) + (if Nat.eqb g (S lo) then Y else 0)) ->
    rsum (iv_n I * iv_m I) G = X + Y).
  { intros X Y G HG. rewrite (rsum_ext _ _ _ HG), rsum_plus. rewrite (rsum_single _ lo), (rsum_single _ (S lo)); try lia.
    - now rewrite !Nat.eqb_refl.
    - intros j _ Nj. destruct (Nat.eqb_spec j (S lo)); [lia|reflexivity].
    - intros j _ Nj. destruct (Nat.eqb_spec j lo); [lia|reflexivity]. }
  rewrite (T (flow I (reference_at I uh) c f) (- flow I (reference_at I uh) c (S f))) in E.
  - rewrite (T (s0 * iv_h I / 2) (s0 * iv_h I / 2)) in E; [lra|].
    intros g Hg. destruct (Ru g) as (r & Lr & ->). destruct (LineProofs.moments r Lr) as (M0 & M1 & _).
    rewrite (lsum_ext _ _ _ (fun q => s0 * z g * snd q + s0 * (z (S g) - z g) * (snd q * nth 0 (fst q) 0))).
    + rewrite lsum_plus, !lsum_scale, M1. change (lsum (cube_rule 1 r) (fun q => snd q)) with (lsum (cube_rule 1 r) snd) in *. rewrite M0.
      unfold z. cbn [Nat.eqb]. destruct (Nat.eqb_spec g lo) as [->|]; [|destruct (Nat.eqb_spec g (S lo)) as [->|]].
      * destruct (Nat.eqb_spec lo (S lo)); [lia|]. field.
      * destruct (Nat.eqb_spec (S lo) lo); [lia|]. field.
      * ring.
    + intros q J. destruct (rule_one _ _ J) as (t & ->). cbn [nth]. rewrite Gl, So by exact Hg. ring.
  - intros g Hg. unfold z. cbn [Nat.eqb]. destruct (Nat.eqb_spec g lo) as [->|]; [|destruct (Nat.eqb_spec g (S lo)) as [->|]].
    + destruct (Nat.eqb_spec lo (S lo)); [lia|]. unfold flow, reference_at, lo. rewrite Nat.add_succ_r. ring.
    + destruct (Nat.eqb_spec (S lo) lo); [lia|]. unfold flow, reference_at, lo. rewrite !Nat.add_succ_r. ring.
    + ring.
Qed.
Lemma flow_drops : forall I start uh y0 s0, sound_interval I -> fine_result I start uh -> affine_source I y0 s0 0 ->
  forall c f, (c < iv_n I)%nat -> (f < iv_m I)%nat ->
  flow I (reference_at I uh) c 0 - flow I (reference_at I uh) c f = INR f * (s0 * iv_h I).
Proof.
  intros I start uh y0 s0 S0 Sf A c. induction f as [|f IH]; intros Lc Lf; [cbn; ring|].
  specialize (IH Lc ltac:(lia)). pose proof (flow_drop I start uh y0 s0 S0 Sf A c f Lc Lf). rewrite S_INR. lra.
Qed.

(** * Periodic diffusion *)
Lemma periodic_mean : forall I p l, (0 < p)%nat -> iv_m I = (l * p)%nat -> sound_interval I ->
  (forall g, (g + p < iv_n I * iv_m I)%nat -> iv_a I (g + p)%nat = iv_a I g) ->
  forall c, (c < iv_n I)%nat -> kappa I c = INR p / rsum p (fun k => / iv_a I k).
Proof.
  intros I p l Lp M S0 Per c Lc. pose proof (Lm I S0) as Lm_. assert (Ll : (0 < l)%nat) by (destruct l; lia).
  assert (W : forall j k, (j * p + k < iv_n I * iv_m I)%nat -> iv_a I (j * p + k)%nat = iv_a I k).
  { induction j as [|j IH]; intros k Lk; [reflexivity|]. cbn [Nat.mul] in *.
    replace (p + j * p + k)%nat with (j * p + k + p)%nat by lia. rewrite Per by lia. apply IH. lia. }
  assert (Pp : 0 < rsum p (fun k => / iv_a I k)).
  { apply rsum_inverse_pos; [exact Lp|]. intros k Lk. apply pos_a; [exact S0|]. pose proof (in_block I S0 0 0 ltac:(lia) Lm_).
    assert (l * p <= iv_n I * (l * p))%nat by (rewrite <- (Nat.mul_1_l (l * p)) at 1; apply Nat.mul_le_mono_r; lia).
    assert (p <= l * p)%nat by (rewrite <- (Nat.mul_1_l p) at 1; apply Nat.mul_le_mono_r; lia). rewrite M. lia. }
  unfold kappa, harmonic. rewrite M at 1 2. rewrite rsum_blocks.
  rewrite (rsum_ext l _ (fun _ => rsum p (fun k => / iv_a I k))).
  - rewrite rsum_const, mult_INR. apply lt_INR in Ll. cbn in Ll. apply lt_INR in Lp. cbn in Lp. field. split; lra.
  - intros b Lb. apply rsum_ext. intros k Lk. f_equal.
    replace (c * iv_m I + (b * p + k))%nat with ((c * l + b) * p + k)%nat by (rewrite M; nia). apply W.
    pose proof (in_block I S0 c (b * p + k) Lc) as X. rewrite M in X.
    assert (b * p + k < l * p)%nat by (assert (S b * p <= l * p)%nat by (apply Nat.mul_le_mono_r; lia); cbn [Nat.mul] in *; lia).
    rewrite M. specialize (X ltac:(lia)). nia.
Qed.
