(** Proofs for C133. *)
From Coq Require Import Reals List Arith Bool Lra Lia.
From Verif Require Import Util RSum LinModel LinSpec LinProofs QuadModel CoarseModel CoarseSpec SystemModel SystemSpec SystemProofs SystemProps.
From Verif Require Import FemModel FemSpec FemProps PatchSpec PatchProofs SolveSpec SolveProofs LayerSpec LayerProofs LineSpec LineProofs OverSpec ConvSpec ConvProofs MonoSpec.
Import ListNotations.
Open Scope R_scope.

(** * A function on a line whose products with functions without negative values
      are not negative has no negative values *)
Lemma rsum_nonneg : forall n F, (forall i, (i < n)%nat -> 0 <= F i) -> 0 <= rsum n F.
Proof.
  induction n as [|n IH]; intros F P; cbn [rsum]; [lra|]. pose proof (IH F (fun i L => P i ltac:(lia))). pose proof (P n ltac:(lia)). lra.
Qed.
Lemma rsum_nonneg_zero : forall n F, (forall i, (i < n)%nat -> 0 <= F i) -> rsum n F <= 0 -> forall i, (i < n)%nat -> F i = 0.
Proof.
  induction n as [|n IH]; intros F P E i Li; [lia|]. cbn [rsum] in E.
  pose proof (rsum_nonneg n F (fun i L => P i ltac:(lia))). pose proof (P n ltac:(lia)).
  destruct (Nat.eq_dec i n) as [->|]; [lra|]. apply IH; [intros; apply P; lia|lra|lia].
Qed.
Lemma lsum_nonneg : forall A (l : list A) F, (forall a, In a l -> 0 <= F a) -> 0 <= lsum l F.
Proof.
  induction l as [|a l IH]; intros F P; cbn [lsum]; [lra|]. pose proof (P a (or_introl eq_refl)). pose proof (IH F (fun b J => P b (or_intror J))). lra.
Qed.

Lemma no_negative : forall n (k w : nat -> R) (cl cr : bool), (forall c, (c < n)%nat -> 0 < k c) ->
  (forall z : nat -> R, (cl = true -> z 0%nat = 0) -> (cr = true -> z n = 0) -> (forall c, 0 <= z c) ->
     0 <= rsum n (fun c => k c * (z (S c) - z c) * (w (S c) - w c))) ->
  (cl = true -> 0 <= w 0%nat) -> (cr = true -> 0 <= w n) -> cl = true \/ cr = true ->
  forall c, (c <= n)%nat -> 0 <= w c.
Proof.
  intros n k w cl cr K P Wl Wr E.
  set (z := fun c => Rmax 0 (- w c)).
  assert (Z : forall c, 0 <= z c) by (intros; apply Rmax_l).
  assert (Zw : forall c, 0 <= w c -> z c = 0) by (intros c A; unfold z; rewrite Rmax_left; lra).
  specialize (P z (fun e => Zw _ (Wl e)) (fun e => Zw _ (Wr e)) Z).
  assert (D : forall c, (c < n)%nat -> z (S c) = z c).
  { assert (Q : forall c, (c < n)%nat -> 0 <= k c * (z (S c) - z c) ^ 2).
    { intros c L. pose proof (K c L). apply Rmult_le_pos; [lra|apply pow2_ge_0]. }
    assert (B : rsum n (fun c => k c * (z (S c) - z c) ^ 2) <= 0).
    { assert (T : 0 <= rsum n (fun i => k i * - ((z (S i) - z i) * ((z (S i) - z i) + (w (S i) - w i))))).
      { apply rsum_nonneg. intros c L. pose proof (K c L). apply Rmult_le_pos; [lra|].
        unfold z, Rmax. destruct (Rle_dec 0 (- w (S c))), (Rle_dec 0 (- w c)); nra. }
      rewrite (rsum_ext n _ (fun i => -1 * (k i * (z (S i) - z i) ^ 2) + -1 * (k i * (z (S i) - z i) * (w (S i) - w i)))) in T by (intros; ring).
      rewrite rsum_plus, !rsum_scale in T. lra. }
    intros c L. pose proof (rsum_nonneg_zero n _ Q B c L) as X. cbv beta in X. pose proof (K c L).
    apply Rmult_integral in X. destruct X as [X|X]; [lra|].
    assert (z (S c) - z c = 0); [|lra]. apply Rsqr_0_uniq. unfold Rsqr. cbn [pow] in X. lra. }
  assert (A : forall c, (c <= n)%nat -> z c = z 0%nat) by (induction c as [|c IH]; intros L; [reflexivity|rewrite D by lia; apply IH; lia]).
  assert (z0 : z 0%nat = 0). { destruct E as [e|e]; [apply Zw; auto|]. rewrite <- (A n (le_n n)). apply Zw; auto. }
  intros c L. pose proof (A c L) as Ac. rewrite z0 in Ac. unfold z, Rmax in Ac. destruct (Rle_dec 0 (- w c)); lra.
Qed.

(** * The load of the coarse system *)
Definition load_of (I : interval) (v : nat -> R) : R :=
  lsum (coarse_line I) (fun cf => lsum (covered (list R) (fst cf)) (fun l => load (list R) (iv_source I) l (test_val (list R) v (fst cf) l))
       + boundary_load (list R) (iv_neumann I) (snd cf) (test_coarse (list R) v (fst cf))).
(** Value of the test function as the right hand side has it. *)
Definition tested (I : interval) (v : nat -> R) (c f : nat) (t : R) : R :=
  v (iv_num I [c]) + t * (v (iv_num I [S c]) - v (iv_num I [c])) +
  ((1 - t) * added (iv_num I) c (iv_pa I [c]) (iv_x I [c]) v f + t * added (iv_num I) c (iv_pa I [c]) (iv_x I [c]) v (S f)).

Section Interval.
Variable I : interval.
Hypothesis S0 : sound_interval I.
Notation n := (iv_n I).
Notation m := (iv_m I).
Notation HH := (iv_H I).
Notation h := (iv_h I).
Notation a := (iv_a I).
Notation add c v := (added (iv_num I) c%nat (iv_pa I [c%nat]) (iv_x I [c%nat]) v).

Lemma load_is : forall v, load_of I v =
  rsum n (fun c => rsum m (fun f => h * lsum (iv_rq I (c * m + f)%nat) (fun q => snd q * iv_source I (iv_global I [(c * m + f)%nat] (fst q)) *
    tested I v c f (nth 0 (fst q) 0)))) +
  ((if iv_nl I then iv_neumann I (iv_left I) * v (iv_num I [0%nat]) else 0) + (if iv_nr I then iv_neumann I (iv_right I) * v (iv_num I [n]) else 0)).
Proof.
  intros v. destruct S0 as (L1 & L2 & L3 & Num & Numf & Dv & Me & Co & Bo & Rq & Ag & _). unfold load_of.
  etransitivity; [exact (coarse_load n m (iv_N I) HH (iv_num I) (iv_source I) (iv_neumann I) (iv_global I) (iv_o I) (iv_pa I) (iv_x I) (iv_rq I) (iv_rqf I)
    (iv_nl I) (iv_nr I) (iv_left I) (iv_right I) L1 L2 Num Dv Rq v)|].
  unfold flux_load. f_equal. apply rsum_ext. intros c Lc. unfold misplaced. rewrite <- rsum_scale, <- rsum_plus. apply rsum_ext. intros f Lf.
  fold (iv_h I). rewrite <- !lsum_scale, <- lsum_plus. apply lsum_ext. intros q J. unfold tested, profile, jump. pose proof (Pm I S0). rewrite S_INR. field. lra.
Qed.

(** The corrected function takes over the corner values. *)
Lemma added_zero_ends : forall c v, (c < n)%nat -> add c v 0%nat = 0 /\ add c v m = 0.
Proof.
  intros c v Lc. destruct S0 as (L1 & L2 & L3 & Num & Numf & Dv & Me & Co & Bo & _).
  eapply ends; eauto.
Qed.
Lemma inner_is : forall v c j, inner_at I v c j = v (iv_num I [c]) + INR j / INR m * (v (iv_num I [S c]) - v (iv_num I [c])) + add c v j.
Proof. intros v c j. rewrite inner_profile. reflexivity. Qed.
Lemma inner_step : forall v c f, (c < n)%nat -> (f < m)%nat ->
  inner_at I v c (S f) - inner_at I v c f = kappa I c / (INR m * a (c * m + f)%nat) * (v (iv_num I [S c]) - v (iv_num I [c])).
Proof.
  intros v c f Lc Lf. pose proof (inner_flow I v S0 c f Lc Lf) as E. unfold flow in E. pose proof (Lh I S0). pose proof (Pm I S0).
  pose proof (pos_a I S0 _ (in_block I S0 c f Lc Lf)). pose proof (LH I S0).
  assert (inner_at I v c (S f) - inner_at I v c f = kappa I c / HH * (v (iv_num I [S c]) - v (iv_num I [c])) * h / a (c * m + f)%nat) as ->.
  { rewrite <- E. field. split; lra. }
  unfold iv_h. field. repeat split; lra.
Qed.

(** Nothing is added in cells of uniform diffusion. *)
Lemma uniform_adds_nothing : forall c v, uniform_cells I -> (c < n)%nat -> forall f, (f <= m)%nat -> add c v f = 0.
Proof.
  intros c v U Lc. pose proof (Pm I S0). induction f as [|f IH]; intros Lf; [now apply added_zero_ends|].
  pose proof (inner_step v c f Lc Lf) as E. rewrite !inner_is, IH in E by lia. rewrite S_INR in E.
  assert (K : kappa I c = a (c * m + f)%nat).
  { unfold kappa, harmonic. pose proof (pos_a I S0 _ (in_block I S0 c f Lc Lf)).
    rewrite (rsum_ext m _ (fun _ => / a (c * m + f)%nat)) by (intros k Lk; now rewrite (U c k f Lc Lk Lf)).
    rewrite rsum_const. field. split; lra. }
  pose proof (pos_a I S0 _ (in_block I S0 c f Lc Lf)). rewrite K in E.
  replace (a (c * m + f)%nat / (INR m * a (c * m + f)%nat)) with (/ INR m) in E by (field; split; lra).
  replace ((INR f + 1) / INR m) with (INR f / INR m + / INR m) in E by (field; lra). lra.
Qed.
Lemma tested_nonneg : forall c v f t, uniform_cells I -> (c < n)%nat -> (f < m)%nat -> 0 <= t <= 1 -> (forall i, 0 <= v i) -> 0 <= tested I v c f t.
Proof.
  intros c v f t U Lc Lf T V. unfold tested. rewrite !(uniform_adds_nothing c v U Lc) by lia.
  pose proof (V (iv_num I [c])). pose proof (V (iv_num I [S c])). nra.
Qed.

(** The corrected function lies between the values at the corners. *)
Lemma inner_convex : forall v c j lo hi, (c < n)%nat -> (j <= m)%nat ->
  lo <= v (iv_num I [c]) <= hi -> lo <= v (iv_num I [S c]) <= hi -> lo <= inner_at I v c j <= hi.
Proof.
  intros v c j lo hi Lc Lj A B.
  set (d := v (iv_num I [S c]) - v (iv_num I [c])).
  assert (P : forall f, (f < m)%nat -> 0 < kappa I c / (INR m * a (c * m + f)%nat)).
  { intros f Lf. pose proof (pos_a I S0 _ (in_block I S0 c f Lc Lf)). pose proof (Pm I S0). apply Rdiv_lt_0_compat; [now apply kappa_pos|nra]. }
  assert (Q : forall f, (f < m)%nat -> 0 <= d -> inner_at I v c f <= inner_at I v c (S f)).
  { intros f Lf D. pose proof (inner_step v c f Lc Lf) as X. fold d in X. pose proof (P f Lf). nra. }
  assert (Q' : forall f, (f < m)%nat -> d <= 0 -> inner_at I v c (S f) <= inner_at I v c f).
  { intros f Lf D. pose proof (inner_step v c f Lc Lf) as X. fold d in X. pose proof (P f Lf). nra. }
  assert (F : inner_at I v c 0 = v (iv_num I [c])).
  { rewrite inner_is, (proj1 (added_zero_ends c v Lc)). cbn [INR]. pose proof (Pm I S0). field. lra. }
  assert (G : inner_at I v c m = v (iv_num I [S c])).
  { rewrite inner_is, (proj2 (added_zero_ends c v Lc)). pose proof (Pm I S0). field. lra. }
  assert (M : forall k f, (f + k <= m)%nat -> (0 <= d -> inner_at I v c f <= inner_at I v c (f + k)) /\ (d <= 0 -> inner_at I v c (f + k) <= inner_at I v c f)).
  { induction k as [|k IH]; intros f L; [rewrite Nat.add_0_r; split; lra|]. destruct (IH f ltac:(lia)) as (X & Y).
    rewrite Nat.add_succ_r. pose proof (Q (f + k)%nat ltac:(lia)). pose proof (Q' (f + k)%nat ltac:(lia)). split; intros D; [specialize (X D)|specialize (Y D)]; lra. }
  destruct (M j 0%nat ltac:(lia)) as (X1 & X2). destruct (M (m - j)%nat j ltac:(lia)) as (Y1 & Y2).
  cbn [Nat.add] in X1, X2. replace (j + (m - j))%nat with m in * by lia. rewrite F, G in *.
  destruct (Rle_dec 0 d) as [D|D]; [specialize (X1 D); specialize (Y1 D)|specialize (X2 ltac:(lra)); specialize (Y2 ltac:(lra))]; lra.
Qed.

(** ** Comparison *)
Variables (source neumann : list R -> R) (g gf : nat -> R).
Notation J := (with_data I source neumann g gf).
Hypothesis SJ : sound_interval J.
Variables u u' : nat -> R.
Hypothesis Su : coarse_result I u.
Hypothesis Su' : coarse_result J u'.
Hypothesis En : ends_le I J.
Hypothesis Fix : left_constrained I \/ right_constrained I.
Hypothesis Ld : forall v, (forall i, 0 <= v i) -> load_of I v <= load_of J v.

Lemma comparison : forall c, (c <= n)%nat -> u (iv_num I [c]) <= u' (iv_num I [c]).
Proof.
  pose proof (proj1 (line_scheme I u S0) Su) as (Bu & Wu). pose proof (proj1 (line_scheme J u' SJ) Su') as (Bu' & Wu').
  cbn [with_data iv_n iv_num iv_con iv_g iv_H] in Bu', Wu'. change (kappa J) with (kappa I) in Wu'.
  destruct S0 as (L1 & L2 & L3 & Num & Numf & Dv & Me & Co & Bo & Rq & Ag & Oe & _). destruct En as (E1 & E2 & _).
  intros c Lc. apply Rminus_le. cut (0 <= u' (iv_num I [c]) - u (iv_num I [c])); [lra|]. revert c Lc.
  apply (no_negative n (fun c => kappa I c / HH) (fun c => u' (iv_num I [c]) - u (iv_num I [c])) (iv_con I (iv_num I [0%nat])) (iv_con I (iv_num I [n]))).
  - intros c Lc. apply Rdiv_lt_0_compat; [now apply kappa_pos|exact L3].
  - intros z Zl Zr Z. destruct (spread n (iv_num I) (iv_N I) z Num) as (V0 & EV0).
    set (V := fun i => Rabs (V0 i)). assert (EV : forall c, (c <= n)%nat -> V (iv_num I [c]) = z c).
    { intros c Lc. unfold V. rewrite EV0 by exact Lc. apply Rabs_pos_eq, Z. }
    assert (VZ : forall c, (c <= n)%nat -> iv_con I (iv_num I [c]) = true -> V (iv_num I [c]) = 0).
    { intros c Lc Cc. rewrite EV by exact Lc. destruct (Nat.eq_dec c 0) as [->|N0]; [auto|]. destruct (Nat.eq_dec c n) as [->|N1]; [auto|].
      rewrite Oe in Cc by lia. discriminate. }
    specialize (Wu V VZ). specialize (Wu' V VZ). specialize (Ld V (fun i => Rabs_pos _)). fold (load_of I V) in Wu. fold (load_of J V) in Wu'.
    rewrite (rsum_ext n _ (fun c => kappa I c / HH * (V (iv_num I [S c]) - V (iv_num I [c])) * (u' (iv_num I [S c]) - u' (iv_num I [c])) +
      -1 * (kappa I c / HH * (V (iv_num I [S c]) - V (iv_num I [c])) * (u (iv_num I [S c]) - u (iv_num I [c]))))).
    + rewrite rsum_plus, rsum_scale, Wu, Wu'. lra.
    + intros c Lc. rewrite !EV by lia. ring.
  - intros e. rewrite Bu, Bu' by (auto; lia). specialize (E1 e). cbn [with_data iv_g] in E1. lra.
  - intros e. rewrite Bu, Bu' by (auto; lia). specialize (E2 e). cbn [with_data iv_g] in E2. lra.
  - exact Fix.
Qed.
End Interval.

Lemma loads_le : forall I source neumann g gf v, sound_interval I -> sound_interval (with_data I source neumann g gf) ->
  ends_le I (with_data I source neumann g gf) ->
  (forall y, iv_source I y = source y) \/ (uniform_cells I /\ source_le I (with_data I source neumann g gf)) ->
  (forall i, 0 <= v i) -> load_of I v <= load_of (with_data I source neumann g gf) v.
Proof.
  intros I source neumann g gf v S0 SJ (_ & _ & E3 & E4) K V. rewrite (load_is I S0), (load_is _ SJ).
  cbn [with_data iv_n iv_m iv_rq iv_source iv_global iv_nl iv_nr iv_neumann iv_left iv_right iv_num] in *. change (iv_h (with_data I source neumann g gf)) with (iv_h I).
  apply Rplus_le_compat.
  - apply Rminus_le. apply Ropp_le_cancel. rewrite Ropp_0, Ropp_minus_distr.
    match goal with |- 0 <= rsum ?n ?F - rsum ?n ?G => replace (rsum n F - rsum n G) with (rsum n (fun c => F c + -1 * G c)) by (rewrite rsum_plus, rsum_scale; ring) end.
    apply rsum_nonneg. intros c Lc. cbv beta.
    rewrite <- rsum_scale, <- rsum_plus.
    apply rsum_nonneg. intros f Lf. cbv beta.
    replace (_ + _) with (iv_h I * lsum (iv_rq I (c * iv_m I + f)%nat) (fun q => snd q *
      (source (iv_global I [(c * iv_m I + f)%nat] (fst q)) - iv_source I (iv_global I [(c * iv_m I + f)%nat] (fst q))) * tested I v c f (nth 0 (fst q) 0))).
    + apply Rmult_le_pos; [left; now apply iv_h_pos|]. apply lsum_nonneg. intros q J.
      destruct K as [K|(U & Sl & Or)]; [rewrite K; right; ring|].
      destruct (Or _ (in_block I S0 c f Lc Lf)) as (Oq & _). destruct (Oq q J) as (Wq & Tq).
      specialize (Sl (iv_global I [(c * iv_m I + f)%nat] (fst q))). cbn [with_data iv_source] in Sl.
      pose proof (tested_nonneg I S0 c v f _ U Lc Lf Tq V). apply Rmult_le_pos; [|assumption]. apply Rmult_le_pos; [assumption|lra].
    + change (tested (with_data I source neumann g gf) v c f) with (tested I v c f).
      rewrite <- !lsum_scale. rewrite <- lsum_plus. apply lsum_ext. intros q _. ring.
  - pose proof (V (iv_num I [0%nat])). pose proof (V (iv_num I [iv_n I])).
    apply Rplus_le_compat; [destruct (iv_nl I)|destruct (iv_nr I)]; try lra; apply Rmult_le_compat_r; auto.
Qed.

(** * Bounds without supply *)
Lemma with_data_back : forall I s q g gf, with_data (with_data I s q g gf) (iv_source I) (iv_neumann I) (iv_g I) (iv_gf I) = I.
Proof. intros []. reflexivity. Qed.

(** Constant boundary values leave a sound interval sound ... *)
Lemma constant_sound : forall I b, sound_interval I -> sound_interval (with_data I (iv_source I) (iv_neumann I) (fun _ => b) (fun _ => b)).
Proof.
  intros I b (L1 & L2 & L3 & Num & Numf & Dv & Me & Co & Bo & Rq & Ag & Oe & Oef & Cl & Cr & _).
  exact (conj L1 (conj L2 (conj L3 (conj Num (conj Numf (conj Dv (conj Me (conj Co (conj Bo (conj Rq (conj Ag (conj Oe (conj Oef (conj Cl (conj Cr
    (conj (fun _ => eq_refl) (fun _ => eq_refl))))))))))))))))).
Qed.
(** ... and the constant is the solution for them if nothing is supplied. *)
Lemma constant_solution : forall I b, sound_interval I -> nothing_supplied I ->
  coarse_result (with_data I (iv_source I) (iv_neumann I) (fun _ => b) (fun _ => b)) (fun _ => b).
Proof.
  intros I b S0 (Z1 & Z2 & Z3). apply (line_scheme _ _ (constant_sound I b S0)). split; [reflexivity|]. intros v _.
  rewrite (rsum_ext _ _ (fun _ => 0)) by (intros; ring). rewrite rsum_zero. symmetry.
  match goal with |- ?X = 0 => change X with (load_of (with_data I (iv_source I) (iv_neumann I) (fun _ => b) (fun _ => b)) v) end.
  rewrite (load_is _ (constant_sound I b S0)).
  cbn [with_data iv_n iv_m iv_rq iv_source iv_global iv_nl iv_nr iv_neumann iv_left iv_right iv_num].
  rewrite (rsum_ext _ _ (fun _ => 0)), rsum_zero.
  - destruct (iv_nl I), (iv_nr I); rewrite ?Z2, ?Z3 by reflexivity; ring.
  - intros c _. rewrite (rsum_ext _ _ (fun _ => 0)); [apply rsum_zero|]. intros f _.
    rewrite (lsum_ext _ _ _ (fun _ => 0 * 0)) by (intros; rewrite Z1; ring). rewrite lsum_scale. ring.
Qed.

Lemma within : forall I u lo hi, sound_interval I -> coarse_result I u -> nothing_supplied I -> ends_between I lo hi ->
  left_constrained I \/ right_constrained I -> forall c, (c <= iv_n I)%nat -> lo <= u (iv_num I [c]) <= hi.
Proof.
  intros I u lo hi S0 Su Z (B1 & B2) Fx c Lc. pose proof (constant_sound I lo S0) as Sl. pose proof (constant_sound I hi S0) as Sh.
  pose proof (constant_solution I lo S0 Z) as Rl. pose proof (constant_solution I hi S0 Z) as Rh. split.
  - set (Jl := with_data I (iv_source I) (iv_neumann I) (fun _ => lo) (fun _ => lo)) in *.
    pose proof (with_data_back I (iv_source I) (iv_neumann I) (fun _ => lo) (fun _ => lo)) as E. fold Jl in E.
    assert (En : ends_le Jl (with_data Jl (iv_source I) (iv_neumann I) (iv_g I) (iv_gf I))).
    { split; [|split; [|split]]; [intros e; apply (B1 e)|intros e; apply (B2 e)|intros _; apply Rle_refl|intros _; apply Rle_refl]. }
    apply (comparison Jl Sl (iv_source I) (iv_neumann I) (iv_g I) (iv_gf I)) with (u := fun _ => lo) (c := c); auto; try (rewrite E; auto).
    intros v V. rewrite <- E. apply loads_le; auto; rewrite E; auto.
  - apply (comparison I S0 (iv_source I) (iv_neumann I) (fun _ => hi) (fun _ => hi)) with (u' := fun _ => hi); auto.
    + split; [|split; [|split]]; [intros e; apply (B1 e)|intros e; apply (B2 e)|intros _; apply Rle_refl|intros _; apply Rle_refl].
    + intros v V. apply loads_le; auto.
      split; [|split; [|split]]; [intros e; apply (B1 e)|intros e; apply (B2 e)|intros _; apply Rle_refl|intros _; apply Rle_refl].
Qed.
