(** Proofs for C128. *)
From Coq Require Import Reals List Arith Bool Lra Lia.
From Verif Require Import Util RSum LinModel LinSpec LinProofs QuadModel CoarseModel CoarseSpec SystemModel SystemSpec SystemProofs SystemProps.
From Verif Require Import FemModel FemSpec FemProps PatchSpec PatchProofs SolveSpec SolveProofs LayerSpec LayerProofs MaxSpec MaxProofs BoundsSpec BoundsProofs QuadProofs LineSpec LineProofs OverSpec.
Import ListNotations.
Open Scope R_scope.

Lemma rsum_window : forall M k m F, (k + m <= M)%nat ->
  rsum M (fun f => if Nat.leb k f && Nat.ltb f (k + m) then F f else 0) = rsum m (fun f => F (k + f)%nat).
Proof.
  intros M k m F L. replace M with (k + (m + (M - k - m)))%nat by lia. rewrite rsum_add.
  rewrite (rsum_0 k), Rplus_0_l.
  - rewrite rsum_add. rewrite (rsum_0 (M - k - m)), Rplus_0_r.
    + apply rsum_ext. intros f Lf. destruct (Nat.leb_spec k (k + f)), (Nat.ltb_spec (k + f) (k + m)); try lia. reflexivity.
    + intros f Lf. destruct (Nat.leb_spec k (k + (m + f))), (Nat.ltb_spec (k + (m + f)) (k + m)); try lia; reflexivity.
  - intros f Lf. destruct (Nat.leb_spec k f); [lia|reflexivity].
Qed.

Section Over.
Variable I : interval.
Variables k M : nat -> nat.
Hypothesis So : sound_layers I k M.
Notation n := (iv_n I).
Notation m := (iv_m I).
Notation h := (iv_h I).
Notation HH := (iv_H I).
Notation a := (iv_a I).
Notation num := (iv_num I).
Notation pa c := (iv_pa I [c%nat]).
Notation x c := (iv_x I [c%nat]).

Lemma o_m : 0 < INR m. Proof. apply lt_0_INR. apply So. Qed.
Lemma o_H : 0 < HH. Proof. apply So. Qed.
Lemma o_h : 0 < h. Proof. unfold iv_h. apply Rdiv_lt_0_compat; [apply o_H|apply o_m]. Qed.
Lemma o_wide : forall c, (c < n)%nat -> widened I c (k c) (M c) (pa c).
Proof. apply So. Qed.
Lemma o_index : forall c f, (c < n)%nat -> (f < M c)%nat -> (c * m + f - k c < n * m)%nat /\ (c * m + f - k c = c * m - k c + f)%nat.
Proof. intros c f Lc Lf. destruct (o_wide c Lc) as (A & B & C & _). lia. Qed.
Lemma o_pos : forall c f, (c < n)%nat -> (f < M c)%nat -> 0 < a (c * m - k c + f)%nat.
Proof. intros c f Lc Lf. destruct (o_index c f Lc Lf) as (A & <-). now apply So. Qed.
Lemma o_mean : forall c f rule, (c < n)%nat -> (f < M c)%nat ->
  In rule [cube_rule 1 (iv_order I); cube_rule 1 (iv_rhs_order I); cube_rule 1 (iv_o I); iv_rq I (c * m + f - k c)%nat; cube_rule 1 (iv_fo I)] ->
  mean (iv_diffusion I) (iv_global I) rule (c * m + f - k c) = a (c * m - k c + f)%nat.
Proof. intros c f rule Lc Lf J. destruct (o_index c f Lc Lf) as (A & <-). destruct So as (_ & _ & _ & _ & _ & _ & Me & _). now apply Me. Qed.
Lemma o_M : forall c, (c < n)%nat -> (0 < M c)%nat.
Proof. intros c Lc. destruct (o_wide c Lc) as (_ & B & _). assert (0 < m)%nat by apply So. lia. Qed.
Lemma o_sound : forall c, (c < n)%nat -> sound 1 (pa c).
Proof.
  intros c Lc. destruct (o_wide c Lc) as (_ & _ & _ & C & E & L & N & _). unfold sound. rewrite C, E, L. cbn [length].
  repeat split; auto; try (apply N); repeat constructor; auto using o_M, o_h.
Qed.

Definition ojump (c : nat) (v : nat -> R) : R := v (num [S c]) - v (num [c]).
Definition ostep (c : nat) (v : nat -> R) (f : nat) : R := corrected_at I k v c (S f) - corrected_at I k v c f.

Lemma o_energy : forall c o y z, (c < n)%nat ->
  (forall f, (f < M c)%nat -> mean (iv_diffusion I) (iv_global I) (cube_rule 1 o) (c * m + f - k c) = a (c * m - k c + f)%nat) ->
  LinSpec.energy 1 (patch_points 1 o (iv_diffusion I) (pa c)) (field_of (pa_n (pa c)) y) (field_of (pa_n (pa c)) z) =
  rsum (M c) (fun f => a (c * m - k c + f)%nat * (y (pa_num (pa c) [S f]) - y (pa_num (pa c) [f])) * (z (pa_num (pa c) [S f]) - z (pa_num (pa c) [f])) / h).
Proof.
  intros c o y z Lc Mo. rewrite patch_energy by now apply o_sound.
  destruct (o_wide c Lc) as (_ & _ & _ & C & E & L & Nu & _ & _ & G). rewrite C, E. unfold bsum. rewrite lsum_cells, <- rsum_scale.
  apply rsum_ext. intros f Lf. rewrite <- (Mo f Lf). unfold mean, cube_rule. cbn [length].
  set (dy := y (pa_num (pa c) [S f]) - y (pa_num (pa c) [f])). set (dz := z (pa_num (pa c) [S f]) - z (pa_num (pa c) [f])).
  rewrite (lsum_ext _ _ _ (fun q => dy / h * (dz / h) * (snd q * iv_diffusion I (iv_global I [(c * m + f - k c)%nat] (fst q)) 0%nat 0%nat))).
  - rewrite lsum_scale. unfold volume. cbn [fold_right]. pose proof o_h. unfold cube_rule. field. lra.
  - intros q J. destruct (rule_one _ _ J) as (t & T). rewrite T. unfold dot, mv. cbn [rsum grad value nodal].
    rewrite G by exact Lf. unfold nodal. fold dy. fold dz. ring.
Qed.

Lemma o_vanish : forall c i, (c < n)%nat -> (i < 2)%nat -> x c i (pa_num (pa c) [0%nat]) = 0 /\ x c i (pa_num (pa c) [M c]) = 0.
Proof.
  intros c i Lc Li. destruct So as (_ & _ & _ & _ & _ & _ & _ & Co & _).
  destruct (Co c Lc i Li) as (y & _ & C). apply corrector_orthogonal in C. destruct C as (V & _).
  destruct (o_wide c Lc) as (_ & _ & _ & _ & _ & _ & Nu & Oc & _). split; apply V.
  - apply Nu. apply node_line. exists 0%nat. split; [lia|reflexivity].
  - rewrite Oc; [reflexivity|]. apply node_line. exists 0%nat. split; [lia|reflexivity].
  - apply Nu. apply node_line. exists (M c). split; [lia|reflexivity].
  - rewrite Oc; [cbn [outer_node]; rewrite Nat.eqb_refl; now rewrite orb_true_r|]. apply node_line. exists (M c). split; [lia|reflexivity].
Qed.

Lemma o_step_sum : forall c v, (c < n)%nat -> rsum (M c) (ostep c v) = INR (M c) / INR m * ojump c v.
Proof.
  intros c v Lc. unfold ostep. rewrite (rsum_tele (M c) (corrected_at I k v c)). unfold corrected_at.
  destruct (o_vanish c 0 Lc ltac:(lia)) as (A & B). destruct (o_vanish c 1 Lc ltac:(lia)) as (A' & B').
  rewrite A, B, A', B'. cbn [INR]. unfold ojump. pose proof o_m. field. lra.
Qed.

Lemma o_orthogonal : forall c v (z : nat -> R), (c < n)%nat -> z 0%nat = 0 -> z (M c) = 0 ->
  rsum (M c) (fun f => a (c * m - k c + f)%nat * ostep c v f * (z (S f) - z f)) = 0.
Proof.
  intros c v z Lc Z0 Zm. destruct (o_wide c Lc) as (_ & _ & _ & C & E & L & Nu & Oc & In_ & G).
  destruct (spread (M c) (pa_num (pa c)) (pa_n (pa c)) z Nu) as (zz & Zz).
  assert (Vz : vanishes (pa_n (pa c)) (pa_con (pa c)) zz).
  { intros i Li Ci. destruct Nu as (_ & _ & Su). destruct (Su i Li) as (js & Nj & Ej). pose proof Nj as Nj0. apply node_line in Nj. destruct Nj as (f & Lf & ->).
    rewrite <- Ej in Ci |- *. rewrite Oc in Ci by exact Nj0. rewrite Zz by exact Lf. cbn [outer_node] in Ci.
    destruct (Nat.eqb_spec f 0) as [Ef|_]; [now rewrite Ef|]. destruct (Nat.eqb_spec f (M c)) as [Ef|_]; [now rewrite Ef|]. discriminate. }
  assert (Hc : forall i, (i < 2)%nat -> rsum (M c) (fun f => a (c * m - k c + f)%nat *
     ((one_at num (num (nth i (corners [c]) [])) [S c] - one_at num (num (nth i (corners [c]) [])) [c]) / INR m +
      (x c i (pa_num (pa c) [S f]) - x c i (pa_num (pa c) [f]))) * (z (S f) - z f)) = 0).
  { intros i Li. destruct So as (_ & _ & _ & _ & _ & _ & _ & Co & _).
    destruct (Co c Lc i Li) as (y & Y & Cr). cbn [length] in Cr. apply corrector_orthogonal in Cr. destruct Cr as (_ & O).
    specialize (O zz Vz). rewrite (o_energy c (iv_order I)) in O by (auto; intros; apply o_mean; auto; cbn; tauto).
    rewrite (o_energy c (iv_rhs_order I)) in O by (auto; intros; apply o_mean; auto; cbn; tauto).
    rewrite <- rsum_plus in O.
    assert (O' : / h * rsum (M c) (fun f => a (c * m - k c + f)%nat *
     ((one_at num (num (nth i (corners [c]) [])) [S c] - one_at num (num (nth i (corners [c]) [])) [c]) / INR m +
      (x c i (pa_num (pa c) [S f]) - x c i (pa_num (pa c) [f]))) * (z (S f) - z f)) = 0).
    { rewrite <- rsum_scale, <- O. apply rsum_ext. intros f Lf.
      assert (R1 : forall j, (j <= M c)%nat -> y (pa_num (pa c) [j]) =
        one_at num (num (nth i (corners [c]) [])) [c] +
        (INR j - INR (k c)) / INR m * (one_at num (num (nth i (corners [c]) [])) [S c] - one_at num (num (nth i (corners [c]) [])) [c])).
      { intros j Lj. rewrite Y by (rewrite C; apply node_line; eauto).
        unfold restricted. rewrite L, E. cbn [map place value]. unfold iv_h. pose proof o_m. pose proof o_H. field. split; lra. }
      rewrite !R1 by lia. rewrite !Zz by lia. rewrite S_INR. pose proof o_m. pose proof o_h. field. lra. }
    apply Rmult_integral in O'. destruct O' as [O'|O']; [|exact O']. pose proof (Rinv_0_lt_compat _ o_h). lra. }
  pose proof (Hc 0%nat ltac:(lia)) as H0. pose proof (Hc 1%nat ltac:(lia)) as H1.
  assert (Num : numbering [n] num (iv_N I)) by apply So.
  cbn [corners map app nth] in H0, H1. destruct (one_at_ends n (iv_N I) num c Lc Num) as (E1 & E2 & E3 & E4). rewrite E1, E2 in H0. rewrite E3, E4 in H1.
  match type of H0 with ?X = 0 => match type of H1 with ?Y = 0 => transitivity (v (num [c]) * X + v (num [S c]) * Y) end end;
    [|rewrite H0, H1; ring].
  rewrite <- !rsum_scale, <- rsum_plus. apply rsum_ext. intros f _. unfold ostep, corrected_at. rewrite S_INR. pose proof o_m. field. lra.
Qed.

Lemma o_flux : forall c v f, (c < n)%nat -> (f < M c)%nat ->
  a (c * m - k c + f)%nat * ostep c v f = kappa_patch I k M c / INR m * ojump c v.
Proof.
  intros c v f Lc Lf.
  pose proof (flux_constant (M c) (fun f => a (c * m - k c + f)%nat * ostep c v f) (fun z Z0 Zm => o_orthogonal c v z Lc Z0 Zm)) as F. cbv beta in F.
  pose proof (rsum_inverse_pos (M c) (fun f => a (c * m - k c + f)%nat) (o_M c Lc) (fun f Lf => o_pos c f Lc Lf)) as Sp.
  rewrite (F f Lf). pose proof (o_step_sum c v Lc) as Ss.
  rewrite (rsum_ext (M c) _ (fun f => a (c * m - k c + 0)%nat * ostep c v 0%nat * / a (c * m - k c + f)%nat)) in Ss.
  - rewrite rsum_scale in Ss. unfold kappa_patch. pose proof o_m.
    apply (Rmult_eq_reg_r (rsum (M c) (fun f => / a (c * m - k c + f)%nat))); [|lra]. rewrite Ss. field. lra.
  - intros g Lg. rewrite <- (F g Lg). pose proof (o_pos c g Lc Lg). field. lra.
Qed.

(** Inside the coarse cell. *)
Lemma o_inside : forall c f, (c < n)%nat -> (f < m)%nat -> (k c + f < M c)%nat /\ (c * m - k c + (k c + f) = c * m + f)%nat.
Proof. intros c f Lc Lf. destruct (o_wide c Lc) as (A & B & _). lia. Qed.
Lemma o_rise : forall c v, (c < n)%nat ->
  corrected_at I k v c (k c + m) - corrected_at I k v c (k c) = kappa_patch I k M c / kappa I c * ojump c v.
Proof.
  intros c v Lc.
  pose proof (rsum_tele m (fun f => corrected_at I k v c (k c + f))) as T. cbv beta in T. rewrite Nat.add_0_r in T. rewrite <- T. clear T.
  assert (Pc : forall f, (f < m)%nat -> 0 < a (c * m + f)%nat).
  { intros f Lf. destruct (o_inside c f Lc Lf) as (A & B). rewrite <- B. now apply o_pos. }
  assert (Lm : (0 < m)%nat) by apply So. pose proof (rsum_inverse_pos m _ Lm Pc) as Sp.
  rewrite (rsum_ext m _ (fun f => kappa_patch I k M c / INR m * ojump c v * / a (c * m + f)%nat)).
  - rewrite rsum_scale. unfold kappa, harmonic. pose proof o_m. field. lra.
  - intros f Lf. destruct (o_inside c f Lc Lf) as (A & B). rewrite <- (o_flux c v (k c + f) Lc A), B. unfold ostep. rewrite Nat.add_succ_r.
    pose proof (Pc f Lf). field. lra.
Qed.

(** * The coarse grid *)
Definition o_element (c f : nat) : local_cell (list R) :=
  {| lc_covered := pa_inside (pa c) [f]; lc_global := pa_global (pa c) [f]; lc_factor := fun _ => volume (pa_edges (pa c));
     lc_grad := fun i xs => grad (pa_edges (pa c)) (fun js => x c i (pa_num (pa c) js)) [f] xs;
     lc_val := fun i xs => value (fun js => x c i (pa_num (pa c) js)) [f] xs;
     lc_quad := product_rule (line_rule (gauss_points (iv_o I))) (length (pa_cells (pa c)));
     lc_rquad := iv_rq I (c * m + f - k c)%nat |}.
Definition o_cell (c : nat) : coarse_cell (list R) :=
  box_cell [HH] num [c] (patch_elements (pa c) (line_rule (gauss_points (iv_o I))) (fun f => iv_rq I (c * m + nth 0 f 0 - k c)%nat) (x c)).

Lemma o_grid_sum : forall (F : coarse_cell (list R) -> local_cell (list R) -> R) (B : coarse_cell (list R) -> list (cface (list R)) -> R),
  lsum (wide_line I k) (fun cf => lsum (covered (list R) (fst cf)) (F (fst cf)) + B (fst cf) (snd cf)) =
  rsum n (fun c => rsum m (fun f => F (o_cell c) (o_element c (k c + f))) + B (o_cell c) (end_faces n (iv_nl I) (iv_nr I) (iv_left I) (iv_right I) [c])).
Proof.
  intros F B. unfold wide_line, patched. rewrite lsum_map, lsum_cells. apply rsum_ext. intros c Lc. cbn [fst snd nth].
  fold (o_cell c). f_equal. unfold covered. destruct (o_wide c Lc) as (_ & Lk & _ & C & _ & _ & _ & _ & W & _).
  assert (E : cc_locals (list R) (o_cell c) = map (fun cs => o_element c (nth 0 cs 0%nat)) (cells [M c])).
  { unfold o_cell, box_cell, patch_elements. cbn [cc_locals]. rewrite C at 1. apply map_ext_in. intros cs J.
    apply in_line in J. destruct J as (f & _ & ->). reflexivity. }
  rewrite E, lsum_filter, lsum_map, lsum_cells. rewrite <- (rsum_window (M c) (k c) m (fun f => F (o_cell c) (o_element c f)) Lk).
  apply rsum_ext. intros f _. cbn [o_element lc_covered nth]. rewrite W. reflexivity.
Qed.

Lemma o_grad : forall c f t v, (c < n)%nat -> (f < M c)%nat ->
  test_grad (list R) v (o_cell c) (o_element c f) [t] 0 = ostep c v f / h.
Proof.
  intros c f t v Lc Lf. destruct (o_wide c Lc) as (_ & _ & _ & C & E & L & _).
  assert (Num : numbering [n] num (iv_N I)) by apply So.
  destruct (one_at_ends n (iv_N I) num c Lc Num) as (E1 & E2 & E3 & E4).
  unfold test_grad, o_cell, box_cell, used_grad. cbn [cc_n cc_index cc_grad corners map app length rsum nth].
  unfold o_element. cbn [lc_grad]. rewrite E. cbn [grad value]. rewrite E1, E2, E3, E4.
  unfold ostep, corrected_at, iv_h. rewrite S_INR. pose proof o_m. pose proof o_H. field. split; lra.
Qed.
Notation bnd c j := (x c 3%nat (pa_num (pa c) [j%nat]) - x c 2%nat (pa_num (pa c) [j%nat])).
Lemma o_boundary : forall c f t, (c < n)%nat -> (f < M c)%nat ->
  boundary_grad (list R) (o_cell c) (o_element c f) [t] 0 = (bnd c (S f) - bnd c f) / h.
Proof.
  intros c f t Lc Lf. destruct (o_wide c Lc) as (_ & _ & _ & C & E & _).
  unfold boundary_grad, o_cell, box_cell. cbn [cc_n corners map app length]. unfold o_element. cbn [lc_grad].
  rewrite E. cbn [Nat.add grad value]. unfold Rdiv. ring.
Qed.

Lemma o_element_energy : forall c f u v, (c < n)%nat -> (f < M c)%nat ->
  ms_energy 1 (list R) (iv_diffusion I) u (o_cell c) (o_element c f) (test_grad (list R) v (o_cell c) (o_element c f)) =
  kappa_patch I k M c / HH * ojump c v * (ostep c u f + (bnd c (S f) - bnd c f)).
Proof.
  intros c f u v Lc Lf. destruct (o_wide c Lc) as (_ & _ & _ & C & E & L & Nu & Oc & _ & G).
  pose proof o_h as hp_. pose proof o_m as mp_. pose proof o_H as Hp_.
  transitivity (a (c * m - k c + f)%nat * ostep c v f / h * (ostep c u f + (bnd c (S f) - bnd c f))).
  2:{ rewrite (o_flux c v f Lc Lf). unfold iv_h. field. lra. }
  unfold ms_energy. rewrite Rmult_plus_distr_l. f_equal.
  - rewrite <- (o_mean c f (cube_rule 1 (iv_o I)) Lc Lf) by (cbn; auto). unfold mean, energy. cbn [o_element lc_quad lc_factor lc_global].
    rewrite C, E. cbn [length]. unfold cube_rule.
    rewrite (lsum_ext _ _ _ (fun q => ostep c u f * ostep c v f / h * (snd q * iv_diffusion I (iv_global I [(c * m + f - k c)%nat] (fst q)) 0%nat 0%nat))).
    + rewrite lsum_scale. field. lra.
    + intros q J. destruct (rule_one _ _ J) as (t & T). rewrite T. unfold dot, mv. cbn [rsum].
      rewrite !o_grad by auto. rewrite G by auto. unfold volume. cbn [fold_right]. field. lra.
  - rewrite <- (o_mean c f (iv_rq I (c * m + f - k c)%nat) Lc Lf) by (cbn; auto). unfold mean, rhs_energy. cbn [o_element lc_rquad lc_factor lc_global].
    rewrite E.
    rewrite (lsum_ext _ _ _ (fun q => (bnd c (S f) - bnd c f) * ostep c v f / h * (snd q * iv_diffusion I (iv_global I [(c * m + f - k c)%nat] (fst q)) 0%nat 0%nat))).
    + rewrite lsum_scale. field. lra.
    + intros q J. assert (Lq : length (fst q) = 1%nat) by (destruct So as (_ & _ & _ & _ & _ & _ & _ & _ & Rq); eapply Rq; eauto).
      destruct (fst q) as [|t [|t' r]]; try discriminate.
      unfold dot, mv. cbn [rsum]. rewrite o_grad, o_boundary by auto. rewrite G by auto. unfold volume. cbn [fold_right]. field. lra.
Qed.

Lemma o_coarse_energy : forall u v,
  lsum (wide_line I k) (fun cf => lsum (covered (list R) (fst cf)) (fun l =>
     ms_energy 1 (list R) (iv_diffusion I) u (fst cf) l (test_grad (list R) v (fst cf) l))) =
  rsum n (fun c => kappa_patch I k M c / HH * ojump c v * (kappa_patch I k M c / kappa I c * ojump c u + moved I k c)).
Proof.
  intros u v.
  transitivity (lsum (wide_line I k) (fun cf => lsum (covered (list R) (fst cf)) (fun l =>
     ms_energy 1 (list R) (iv_diffusion I) u (fst cf) l (test_grad (list R) v (fst cf) l)) + (fun _ _ => 0) (fst cf) (snd cf))).
  { apply lsum_ext. intros. cbv beta. ring. }
  etransitivity; [exact (o_grid_sum (fun c l => ms_energy 1 (list R) (iv_diffusion I) u c l (test_grad (list R) v c l)) (fun _ _ => 0))|].
  apply rsum_ext. intros c Lc. rewrite Rplus_0_r.
  rewrite (rsum_ext m _ (fun f => kappa_patch I k M c / HH * ojump c v *
    ((corrected_at I k u c (k c + S f) + bnd c (k c + S f)) - (corrected_at I k u c (k c + f) + bnd c (k c + f))))).
  - rewrite rsum_scale. pose proof (rsum_tele m (fun f => corrected_at I k u c (k c + f) + bnd c (k c + f))) as T. cbv beta in T. rewrite T.
    rewrite <- (o_rise c u Lc). unfold moved. rewrite Nat.add_0_r. ring.
  - intros f Lf. destruct (o_inside c f Lc Lf) as (A & _). rewrite o_element_energy by auto. unfold ostep. rewrite Nat.add_succ_r. ring.
Qed.

Lemma o_bounds : (forall c fs i, In (c, fs) (wide_line I k) -> (i < cc_n (list R) c)%nat -> (cc_index (list R) c i < iv_N I)%nat) /\
  forall c fs, In (c, fs) (wide_line I k) -> (cc_slots (list R) c = cc_n (list R) c + 2)%nat.
Proof.
  assert (Num : numbering [n] num (iv_N I)) by apply So.
  split; intros c fs; [intros i J|intros J]; unfold wide_line, patched in J; apply in_map_iff in J; destruct J as (cs & E & J); injection E as <- _;
    apply in_line in J; destruct J as (j & Lj & ->); cbn; [intros Li|reflexivity].
  apply Num. apply node_line. destruct i as [|[|]]; [exists j|exists (S j)|lia]; (split; [lia|reflexivity]).
Qed.

Lemma over_scheme : forall u,
  (wide_result I k u <->
   (forall c, (c <= n)%nat -> iv_con I (num [c]) = true -> u (num [c]) = iv_g I (num [c])) /\
   forall v, (forall c, (c <= n)%nat -> iv_con I (num [c]) = true -> v (num [c]) = 0) ->
     rsum n (fun c => kappa_patch I k M c / HH * (v (num [S c]) - v (num [c])) *
       (kappa_patch I k M c / kappa I c * (u (num [S c]) - u (num [c])) + moved I k c)) =
     lsum (wide_line I k) (fun cf => lsum (covered (list R) (fst cf)) (fun l => load (list R) (iv_source I) l (test_val (list R) v (fst cf) l))
       + boundary_load (list R) (iv_neumann I) (snd cf) (test_coarse (list R) v (fst cf)))).
Proof.
  intros u. assert (Num : numbering [n] num (iv_N I)) by apply So.
  destruct o_bounds as (B1 & B2). unfold wide_result.
  rewrite (C90_multiscale_solution_balances _ _ _ _ _ _ _ _ _ _ B1 B2).
  assert (Q : forall P : nat -> Prop, (forall i, (i < iv_N I)%nat -> iv_con I i = true -> P i) <->
    (forall c, (c <= n)%nat -> iv_con I (num [c]) = true -> P (num [c]))).
  { intros P. split.
    - intros A c Lc. apply A. apply Num. apply node_line. exists c. auto.
    - intros A i Li Ci. destruct (proj2 (proj2 Num) i Li) as (js & Nj & <-). apply node_line in Nj. destruct Nj as (c & Lc & ->). auto. }
  rewrite (Q (fun i => u i = iv_g I i)). apply and_iff_compat_l.
  split; intros A v Z; specialize (A v).
  - rewrite <- A by (now apply (Q (fun i => v i = 0))). symmetry. apply o_coarse_energy.
  - rewrite <- A by (now apply (Q (fun i => v i = 0))). apply o_coarse_energy.
Qed.

(** * Driven by the flux at the right end *)
Lemma o_load : forall q v, driven_by_flux I k q ->
  lsum (wide_line I k) (fun cf => lsum (covered (list R) (fst cf)) (fun l => load (list R) (iv_source I) l (test_val (list R) v (fst cf) l))
       + boundary_load (list R) (iv_neumann I) (snd cf) (test_coarse (list R) v (fst cf))) = q * v (num [n]).
Proof.
  intros q v (Sz & _ & Nl & Nr & Q & _). assert (Ln : (0 < n)%nat) by apply So. assert (Lm : (0 < m)%nat) by apply So.
  assert (Num : numbering [n] num (iv_N I)) by apply So.
  etransitivity; [exact (o_grid_sum (fun c l => load (list R) (iv_source I) l (test_val (list R) v c l))
    (fun c fs => boundary_load (list R) (iv_neumann I) fs (test_coarse (list R) v c)))|].
  rewrite rsum_plus. rewrite rsum_0.
  - rewrite Rplus_0_l.
    etransitivity; [exact (end_loads n m (iv_neumann I) (iv_nl I) (iv_nr I) (iv_left I) (iv_right I) Ln Lm n (fun c => test_coarse (list R) v (o_cell c)) Ln)|].
    rewrite Nl, Nr, Q, Rplus_0_l. f_equal. cbv beta.
    destruct (one_at_ends n (iv_N I) num (n - 1) ltac:(lia) Num) as (E1 & E2 & E3 & E4).
    unfold test_coarse, o_cell, box_cell. cbn [cc_n cc_index cc_val corners map app length rsum nth value].
    rewrite E1, E2, E3, E4. replace (S (n - 1)) with n by lia. ring.
  - intros c Lc. apply rsum_0. intros f Lf. unfold load. apply lsum_0. intros p J. rewrite Sz. ring.
Qed.

Lemma o_driven : forall q u, driven_by_flux I k q -> wide_result I k u -> forall c, (c < n)%nat ->
  kappa_patch I k M c * kappa_patch I k M c / kappa I c / HH * ojump c u = q.
Proof.
  intros q u D U c Lc. apply over_scheme in U. destruct U as (_ & W).
  assert (Num : numbering [n] num (iv_N I)) by apply So.
  destruct (spread n num (iv_N I) (fun j => if Nat.ltb c j then 1 else 0) Num) as (v & Ev).
  pose proof D as (_ & Mv & _ & _ & _ & Cn & _).
  assert (Zv : forall j, (j <= n)%nat -> iv_con I (num [j]) = true -> v (num [j]) = 0).
  { intros j Lj Cj. rewrite Cn in Cj by exact Lj. apply Nat.eqb_eq in Cj. subst j. rewrite Ev by lia. reflexivity. }
  specialize (W v Zv). rewrite (o_load q v D) in W. rewrite Ev in W by lia. destruct (Nat.ltb_spec c n); [|lia]. rewrite Rmult_1_r in W. rewrite <- W.
  rewrite (rsum_single n c); [|lia|].
  - rewrite !Ev by lia. destruct (Nat.ltb_spec c (S c)); [|lia]. rewrite Nat.ltb_irrefl. rewrite Mv by lia. unfold ojump, Rdiv. ring.
  - intros j Lj Nj. rewrite !Ev by lia. destruct (Nat.ltb_spec c (S j)), (Nat.ltb_spec c j); try lia; ring.
Qed.

Lemma o_driven_iff : forall q u, driven_by_flux I k q ->
  (wide_result I k u <-> u (num [0%nat]) = iv_g I (num [0%nat]) /\
   forall c, (c < n)%nat -> kappa_patch I k M c * kappa_patch I k M c / kappa I c / HH * (u (num [S c]) - u (num [c])) = q).
Proof.
  intros q u D. split.
  - intros U. split.
    + apply over_scheme in U. apply U; [lia|]. apply D. lia.
    + now apply o_driven.
  - intros (U0 & F). apply over_scheme. pose proof D as (_ & Mv & _ & _ & _ & Cn & _). split.
    + intros c Lc C. rewrite Cn in C by exact Lc. apply Nat.eqb_eq in C. now subst.
    + intros v Zv. rewrite (o_load q v D).
      rewrite (rsum_ext n _ (fun c => q * (v (num [S c]) - v (num [c])))).
      * rewrite rsum_scale. pose proof (rsum_tele n (fun c => v (num [c]))) as T. cbv beta in T. rewrite T.
        rewrite (Zv 0%nat) by (try (rewrite Cn by lia; reflexivity); lia). ring.
      * intros c Lc. rewrite <- (F c Lc), Mv by exact Lc. unfold Rdiv. ring.
Qed.

Lemma o_reference : forall q start uh, driven_by_flux I k q -> fine_result I start uh -> forall c, (c < n)%nat ->
  kappa I c / HH * (uh (iv_numf I [(S c * m)%nat]) - uh (iv_numf I [(c * m)%nat])) = q.
Proof.
  intros q start uh (Sz & _ & Nl & Nr & Q & _ & Cf) U c Lc.
  pose proof So as (Ln & Lm & LH & _ & Numf & _ & Me & _).
  assert (B : forall c fs i, In (c, fs) (fine_line I) -> (i < fc_n (list R) c)%nat -> (fc_index (list R) c i < iv_Nf I)%nat) by (apply fine_bounds; auto).
  apply (proj1 (C93_reference_solution_balances _ _ _ _ _ _ _ _ _ _ _ B)) in U. destruct U as (_ & W).
  assert (Fl : forall g, (g < n * m)%nat -> a g * (uh (iv_numf I [S g]) - uh (iv_numf I [g])) / h = q).
  { intros g Lg. destruct (spread (n * m) (iv_numf I) (iv_Nf I) (fun j => if Nat.ltb g j then 1 else 0) Numf) as (V & EV).
    assert (ZV : forall i, (i < iv_Nf I)%nat -> iv_conf I i = true -> V i = 0).
    { intros i Li Ci. destruct (proj2 (proj2 Numf) i Li) as (js & Nj & <-). apply node_line in Nj. destruct Nj as (j & Lj & ->).
      rewrite Cf in Ci by exact Lj. apply Nat.eqb_eq in Ci. subst j. rewrite EV by lia. reflexivity. }
    specialize (W V ZV). 
    assert (E1 : lsum (fine_line I) (fun cf => fine_energy 1 (list R) (iv_diffusion I) (fst cf) (fine_grad (list R) uh (fst cf)) (fine_grad (list R) V (fst cf))) =
      rsum (n * m) (fun j => a j * (V (iv_numf I [S j]) - V (iv_numf I [j])) * (uh (iv_numf I [S j]) - uh (iv_numf I [j])) / h)).
    { unfold fine_line, fine_boxes. rewrite lsum_map, lsum_cells. apply rsum_ext. intros j Lj. cbn [fst nth].
      apply (fine_energy_on n m (iv_Nf I) HH (iv_numf I) (iv_diffusion I) (iv_source I) (iv_global I) a (iv_order I) (iv_rhs_order I) (iv_o I) (iv_fo I)
        (iv_rq I) (iv_rqf I) (iv_left I)); auto. }
    assert (E2 : lsum (fine_line I) (fun cf => fine_load (list R) (iv_source I) (fst cf) (fine_val (list R) V (fst cf))
       + boundary_load (list R) (iv_neumann I) (snd cf) (fine_val (list R) V (fst cf))) = q * V (iv_numf I [(n * m)%nat])).
    { assert (Lnm : (0 < n * m)%nat) by (apply Nat.mul_pos_pos; lia).
      unfold fine_line, fine_boxes. rewrite lsum_map, lsum_cells. cbn [fst snd nth].
      rewrite rsum_plus, rsum_0.
      - rewrite Rplus_0_l.
        etransitivity; [exact (end_loads n m (iv_neumann I) (iv_nl I) (iv_nr I) (iv_left I) (iv_right I) Ln Lm (n * m) (fun g => fine_val (list R) V
          (fem_cell (box_cell [h] (iv_numf I) [g] []) (iv_global I [g]) (volume [h]) (cube_rule 1 (iv_fo I)) (iv_rqf I g))) Lnm)|].
        rewrite Nl, Nr, Q, Rplus_0_l. f_equal. cbv beta.
        etransitivity; [apply (fine_val_on n m (iv_Nf I) HH (iv_numf I) (iv_global I) (iv_fo I) (iv_rqf I)); auto; lia|].
        replace (S (n * m - 1)) with (n * m)%nat by lia. ring.
      - intros j _. unfold fine_load. apply lsum_0. intros p J. rewrite Sz. ring. }
    rewrite E1, E2 in W. rewrite EV in W by lia. destruct (Nat.ltb_spec g (n * m)); [|lia]. rewrite Rmult_1_r in W. rewrite <- W.
    rewrite (rsum_single (n * m) g); [|lia|].
    - rewrite !EV by lia. destruct (Nat.ltb_spec g (S g)); [|lia]. rewrite Nat.ltb_irrefl. pose proof o_h. field. lra.
    - intros j Lj Nj. rewrite !EV by lia. pose proof o_h. destruct (Nat.ltb_spec g (S j)), (Nat.ltb_spec g j); try lia; field; lra. }
  assert (Pc : forall f, (f < m)%nat -> 0 < a (c * m + f)%nat) by (intros f Lf; apply Me; now apply block_lt).
  pose proof (rsum_inverse_pos m _ Lm Pc) as Sp.
  replace (S c * m)%nat with (c * m + m)%nat by (cbn; lia).
  pose proof (rsum_tele m (fun f => uh (iv_numf I [(c * m + f)%nat]))) as T. cbv beta in T. rewrite Nat.add_0_r in T. rewrite <- T.
  rewrite (rsum_ext m _ (fun f => q * h * / a (c * m + f)%nat)).
  - rewrite rsum_scale. unfold kappa, harmonic, iv_h. pose proof o_m. field. repeat split; lra.
  - intros f Lf. rewrite <- (Fl (c * m + f)%nat) by now apply block_lt. rewrite Nat.add_succ_r. pose proof (Pc f Lf). pose proof o_h. field. lra.
Qed.

Lemma o_left : forall q start uh, driven_by_flux I k q -> fine_result I start uh -> uh (iv_numf I [0%nat]) = iv_gf I (iv_numf I [0%nat]).
Proof.
  intros q start uh (_ & _ & _ & _ & _ & _ & Cf) U. pose proof So as (Ln & Lm & LH & _ & Numf & _).
  assert (B : forall c fs i, In (c, fs) (fine_line I) -> (i < fc_n (list R) c)%nat -> (fc_index (list R) c i < iv_Nf I)%nat) by (apply fine_bounds; auto).
  apply (proj1 (C93_reference_solution_balances _ _ _ _ _ _ _ _ _ _ _ B)) in U. apply U.
  - apply Numf. apply node_line. exists 0%nat. split; [lia|reflexivity].
  - rewrite Cf by lia. reflexivity.
Qed.

Lemma o_kappa : forall c, (c < n)%nat -> 0 < kappa I c /\ 0 < kappa_patch I k M c.
Proof.
  intros c Lc. split.
  - unfold kappa, harmonic. apply Rdiv_lt_0_compat; [apply o_m|]. apply rsum_inverse_pos; [apply So|].
    intros f Lf. destruct (o_inside c f Lc Lf) as (A & B). rewrite <- B. now apply o_pos.
  - unfold kappa_patch. apply Rdiv_lt_0_compat; [apply lt_0_INR; now apply o_M|]. apply rsum_inverse_pos; [now apply o_M|].
    intros f Lf. now apply o_pos.
Qed.
End Over.

(** * Patches over the whole interval *)
Lemma whole_patch : forall I k M c, sound_layers I k M -> (c < iv_n I)%nat -> k c = (c * iv_m I)%nat -> M c = (iv_n I * iv_m I)%nat ->
  kappa_patch I k M c = INR (iv_n I) / rsum (iv_n I) (fun j => / kappa I j).
Proof.
  intros I k M c S Lc K Mc. unfold kappa_patch. rewrite K, Mc, Nat.sub_diag.
  pose proof S as (Ln & Lm & _ & _ & _ & _ & Me & _). pose proof (o_m I k M S) as mp.
  rewrite (rsum_ext _ _ (fun f => / iv_a I f)) by reflexivity. rewrite rsum_blocks.
  assert (Ps : 0 < rsum (iv_n I) (fun j => rsum (iv_m I) (fun f => / iv_a I (j * iv_m I + f)%nat))).
  { rewrite <- (rsum_blocks (iv_n I) (iv_m I) (fun f => / iv_a I f)). apply (rsum_inverse_pos (iv_n I * iv_m I) (iv_a I)).
    - apply Nat.mul_pos_pos; lia.
    - intros g Lg. now apply Me. }
  rewrite (rsum_ext (iv_n I) (fun j => / kappa I j) (fun j => / INR (iv_m I) * rsum (iv_m I) (fun f => / iv_a I (j * iv_m I + f)%nat))).
  - rewrite rsum_scale, mult_INR. field. split; lra.
  - intros j Lj. unfold kappa, harmonic.
    assert (0 < rsum (iv_m I) (fun f => / iv_a I (j * iv_m I + f)%nat)).
    { apply (rsum_inverse_pos (iv_m I) (fun f => iv_a I (j * iv_m I + f)%nat) Lm). intros f Lf. apply Me. apply block_lt; auto; lia. }
    field. split; lra.
Qed.

(** Means: [K] harmonic mean of the [b j]. *)
Lemma square_mean : forall n (b : nat -> R), (0 < n)%nat -> (forall j, (j < n)%nat -> 0 < b j) ->
  let K := INR n / rsum n (fun j => / b j) in
  rsum n (fun j => b j / (K * K)) = rsum n (fun j => / b j) + rsum n (fun j => b j * (/ K - / b j) * (/ K - / b j)).
Proof.
  intros n b Ln P K. pose proof (rsum_inverse_pos n b Ln P) as Sp. assert (0 < INR n) by now apply lt_0_INR.
  assert (Kp : 0 < K) by (unfold K; apply Rdiv_lt_0_compat; auto).
  rewrite (rsum_ext n (fun j => b j * (/ K - / b j) * (/ K - / b j)) (fun j => b j / (K * K) + (/ b j + (-2) * / K * 1))).
  - rewrite !rsum_plus, rsum_scale. rewrite rsum_const. set (S := rsum n (fun j => / b j)) in *.
    assert (E : -2 * / K * (INR n * 1) = - 2 * S) by (unfold K; field; lra). rewrite E. ring.
  - intros j Lj. pose proof (P j Lj). field. lra.
Qed.

Lemma rsum_pos_one : forall n f d, (d < n)%nat -> (forall i, (i < n)%nat -> 0 <= f i) -> 0 < f d -> 0 < rsum n f.
Proof.
  induction n as [|n IH]; intros f d Ld N P; [lia|]. cbn [rsum].
  assert (A : 0 <= f n) by (apply N; lia). assert (B : 0 <= rsum n f) by (apply rsum_nonneg; intros; apply N; lia).
  destruct (Nat.eq_dec d n) as [->|E]; [lra|]. enough (0 < rsum n f) by lra. apply (IH f d); auto; lia.
Qed.
