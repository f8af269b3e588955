(** Proofs for C120. *)
From Coq Require Import Reals List Arith Bool Lra Lia Permutation.
From Verif Require Import Util RSum BoundaryModel CoarseModel CoarseSpec CoarseProofs LinModel LinSpec LinProofs.
From Verif Require Import SystemModel SystemSpec SystemProofs FemProofs QuadModel PatchSpec PatchProofs SolveSpec SolveProofs.
From Verif Require Import FemModel FemSpec EnergySpec EnergyProofs LayerSpec LayerProofs MaxSpec MaxProofs BoundsSpec BoundsProofs InexactSpec.
From Verif Require SampleProofs CompareProofs.
Import ListNotations.
Open Scope R_scope.

(** ** Sums of squares *)
Lemma cauchy_sum : forall n f g, rsum n (fun i => f i * g i) * rsum n (fun i => f i * g i) <= squares n f * squares n g.
Proof.
  intros n f g. pose proof (CompareProofs.cauchy nat (seq 0 n) (fun _ => 1) ltac:(intros; lra) f g) as C.
  unfold CompareProofs.ip in C. rewrite !CompareProofs.lsum_seq in C. unfold squares.
  rewrite (rsum_ext n (fun i => f i * g i) (fun i => 1 * (f i * g i))), (rsum_ext n (fun i => f i * f i) (fun i => 1 * (f i * f i))),
    (rsum_ext n (fun i => g i * g i) (fun i => 1 * (g i * g i))) by (intros; ring). exact C.
Qed.
Lemma squares_nonneg : forall n v, 0 <= squares n v.
Proof. intros. apply rsum_nonneg. intros. apply Rle_0_sqr. Qed.

(** What a sum of all differences says about one value. *)
Lemma far_value : forall n f i j, (i <= j <= n)%nat ->
  (f j - f i) * (f j - f i) <= INR n * rsum n (fun c => (f (S c) - f c) * (f (S c) - f c)).
Proof.
  intros n f i j (L & M). set (g := fun c => f (S c) - f c).
  assert (T : forall m, rsum m (fun c => g (i + c)%nat) = f (i + m)%nat - f i).
  { induction m as [|m IH]; cbn [rsum]; [rewrite Nat.add_0_r; ring|]. rewrite IH. unfold g. rewrite Nat.add_succ_r. ring. }
  replace (f j - f i) with (rsum (j - i) (fun c => 1 * g (i + c)%nat)).
  2:{ rewrite (rsum_ext _ _ (fun c => g (i + c)%nat)) by (intros; ring). rewrite T. do 2 f_equal. lia. }
  eapply Rle_trans; [apply (cauchy_sum (j - i) (fun _ => 1) (fun c => g (i + c)%nat))|].
  unfold squares. rewrite (SampleProofs.rsum_const (j - i) (1 * 1)). apply Rmult_le_compat.
  - rewrite Rmult_1_r, Rmult_1_r. apply pos_INR.
  - apply rsum_nonneg. intros. apply Rle_0_sqr.
  - rewrite Rmult_1_r, Rmult_1_r. apply le_INR. lia.
  - replace n with (i + ((j - i) + (n - j)))%nat by lia. rewrite !SampleProofs.rsum_add.
    assert (0 <= rsum i (fun c => g c * g c)) by (apply rsum_nonneg; intros; apply Rle_0_sqr).
    assert (0 <= rsum (n - j) (fun c => g (i + (j - i + c))%nat * g (i + (j - i + c))%nat)) by (apply rsum_nonneg; intros; apply Rle_0_sqr).
    fold (g 0%nat). unfold g in *. lra.
Qed.
Lemma far_values : forall n f e, (e <= n)%nat -> f e = 0 ->
  squares (S n) f <= INR n * INR n * rsum n (fun c => (f (S c) - f c) * (f (S c) - f c)).
Proof.
  intros n f e L Z. unfold squares. rewrite (rsum_skip n e) by auto. rewrite Z, Rmult_0_l, Rplus_0_l.
  rewrite Rmult_assoc, <- (SampleProofs.rsum_const n). apply SampleProofs.rsum_le. intros i Li.
  set (j := skip e i). assert (J : (j <= n)%nat) by (unfold j, skip; destruct (Nat.ltb i e); lia).
  destruct (le_ge_dec e j) as [D|D].
  - pose proof (far_value n f e j ltac:(lia)) as H. rewrite Z in H. rewrite Rminus_0_r in H. exact H.
  - pose proof (far_value n f j e ltac:(lia)) as H. rewrite Z in H. lra.
Qed.

(** ** Sums over the nodes of a grid *)
Definition nsum (ns : list nat) (F : list nat -> R) : R := lsum (all_nodes ns) F.
Lemma nsum_cons : forall n ns F, nsum (n :: ns) F = rsum (S n) (fun j => nsum ns (fun js => F (j :: js))).
Proof.
  intros. unfold nsum. cbn [all_nodes]. rewrite lsum_flat_map.
  rewrite CompareProofs.lsum_seq. apply rsum_ext. intros j _. now rewrite lsum_map.
Qed.
Lemma incl_sum : forall A (l l' : list A) f, NoDup l -> incl l l' -> (forall a, 0 <= f a) -> lsum l f <= lsum l' f.
Proof.
  induction l as [|a l IH]; intros l' f D I P.
  - cbn [lsum]. apply lsum_nonneg. auto.
  - apply NoDup_cons_iff in D. destruct D as (N & D).
    destruct (in_split a l' (I a (or_introl eq_refl))) as (l1 & l2 & ->).
    assert (H : lsum l f <= lsum (l1 ++ l2) f).
    { apply IH; auto. intros b Ib. assert (J : In b (l1 ++ a :: l2)) by (apply I; now right).
      apply in_app_or in J. apply in_or_app. destruct J as [J|[J|J]]; auto. subst. contradiction. }
    rewrite lsum_app in *. cbn [lsum]. lra.
Qed.
Lemma squares_nodes : forall ns num n y, numbering ns num n ->
  squares n y <= nsum ns (fun js => nodal num y js * nodal num y js).
Proof.
  intros ns num n y (_ & _ & On). unfold squares, nsum, nodal.
  rewrite <- (CompareProofs.lsum_seq n (fun i => y i * y i)).
  rewrite <- (lsum_map _ _ num (all_nodes ns) (fun i => y i * y i)).
  apply incl_sum; [apply seq_NoDup| |intros; apply Rle_0_sqr].
  intros i I. apply in_seq in I. destruct (On i ltac:(lia)) as (js & Nj & <-). apply in_map. now apply all_nodes_in.
Qed.

(** ** Multilinear functions *)
Section Mass.
Variable line : list (R * R).
Hypothesis Mo : moments line.
Hypothesis Fw : Forall (fun p => 0 < snd p) line.

Lemma bsum_nonneg : forall ns f, (forall cs xs, 0 <= f cs xs) -> 0 <= bsum ns line f.
Proof.
  intros ns f H. unfold bsum. apply lsum_nonneg. intros cs _. apply lsum_nonneg. intros q Q.
  pose proof (rule_positive _ _ _ Fw Q). apply Rmult_le_pos; [lra|auto].
Qed.

(** In one direction: two functions interpolated between the ends of a box. *)
Lemma mass_step : forall ns n (F : nat -> list nat -> list R -> R), (0 < n)%nat ->
  / 6 * rsum (S n) (fun j => bsum ns line (fun cs xs => F j cs xs * F j cs xs)) <=
  lsum line (fun p => snd p * rsum n (fun c => bsum ns line (fun cs xs =>
    ((1 - fst p) * F c cs xs + fst p * F (S c) cs xs) * ((1 - fst p) * F c cs xs + fst p * F (S c) cs xs)))).
Proof.
  intros ns n F Pn. destruct Mo as (M0 & M2 & M1).
  set (B := fun i j => bsum ns line (fun cs xs => F i cs xs * F j cs xs)).
  assert (E : lsum line (fun p => snd p * rsum n (fun c => bsum ns line (fun cs xs =>
    ((1 - fst p) * F c cs xs + fst p * F (S c) cs xs) * ((1 - fst p) * F c cs xs + fst p * F (S c) cs xs)))) =
    rsum n (fun c => / 3 * (B c c + B c (S c) + B (S c) (S c)))).
  { rewrite (lsum_ext _ line _ (fun p => rsum n (fun c => snd p * B c c + (snd p * fst p) * (2 * B c (S c) - 2 * B c c) +
        (snd p * (fst p * fst p)) * (B c c - 2 * B c (S c) + B (S c) (S c))))).
    - rewrite lsum_rsum. apply rsum_ext. intros c _.
      rewrite (lsum_ext _ line _ (fun p => B c c * snd p + ((2 * B c (S c) - 2 * B c c) * (snd p * fst p) +
        (B c c - 2 * B c (S c) + B (S c) (S c)) * (snd p * (fst p * fst p))))) by (intros; ring).
      rewrite !lsum_plus, !lsum_scale. change (lsum line (fun p => snd p)) with (lsum line snd). rewrite M0, M1, M2. lra.
    - intros p _. rewrite <- rsum_scale. apply rsum_ext. intros c _. unfold B.
      rewrite (bsum_ext ns line _ (fun cs xs => (1 - fst p) * (1 - fst p) * (F c cs xs * F c cs xs) +
         1 * (2 * (fst p * (1 - fst p)) * (F c cs xs * F (S c) cs xs) + fst p * fst p * (F (S c) cs xs * F (S c) cs xs)))) by (intros; ring).
      rewrite !bsum_lin. ring. }
  rewrite E.
  assert (C : forall c, / 6 * (B c c + B (S c) (S c)) <= / 3 * (B c c + B c (S c) + B (S c) (S c))).
  { intros c. assert (P : 0 <= bsum ns line (fun cs xs => (F c cs xs + F (S c) cs xs) * (F c cs xs + F (S c) cs xs))).
    { apply bsum_nonneg. intros. apply Rle_0_sqr. }
    rewrite (bsum_ext ns line _ (fun cs xs => 1 * (F c cs xs * F c cs xs) + 1 * (2 * (F c cs xs * F (S c) cs xs) + 1 * (F (S c) cs xs * F (S c) cs xs)))) in P by (intros; ring).
    rewrite !bsum_lin in P. fold (B c c) (B c (S c)) (B (S c) (S c)) in P. lra. }
  apply Rle_trans with (rsum n (fun c => / 6 * (B c c + B (S c) (S c)))).
  - rewrite rsum_scale. apply Rmult_le_compat_l; [lra|]. rewrite rsum_plus.
    destruct n as [|n]; [lia|]. rewrite (rsum_first n (fun i => B (S i) (S i))).
    change (rsum (S (S n)) (fun j => B j j) <= rsum (S n) (fun i => B i i) + (B 1%nat 1%nat + rsum n (fun k => B (S (S k)) (S (S k))))).
    rewrite <- (rsum_first n (fun k => B (S k) (S k))). cbn [rsum].
    assert (Q : 0 <= rsum n (fun k => B (S k) (S k))).
    { apply rsum_nonneg. intros. apply bsum_nonneg. intros. apply Rle_0_sqr. }
    lra.
  - apply SampleProofs.rsum_le. auto.
Qed.

Lemma value_mass : forall ns v, Forall (fun m => (0 < m)%nat) ns ->
  nsum ns (fun js => v js * v js) <= 6 ^ length ns * bsum ns line (fun cs xs => value v cs xs * value v cs xs).
Proof.
  induction ns as [|n ns IH]; intros v Fn.
  { unfold nsum, bsum. cbn. lra. }
  apply Forall_cons_iff in Fn. destruct Fn as (Pn & Fn). rewrite nsum_cons, bsum_cons. cbn [length pow].
  pose proof (mass_step ns n (fun j cs xs => value (fun js => v (j :: js)) cs xs) Pn) as H. cbv beta in H.
  apply Rle_trans with (6 ^ length ns * rsum (S n) (fun j => bsum ns line (fun cs xs => value (fun js => v (j :: js)) cs xs * value (fun js => v (j :: js)) cs xs))).
  - rewrite <- rsum_scale. apply SampleProofs.rsum_le. intros j _. now apply (IH (fun js => v (j :: js))).
  - assert (0 < 6 ^ length ns) by (apply pow_lt; lra).
    rewrite (Rmult_comm 6), Rmult_assoc. apply Rmult_le_compat_l; [lra|].
    cbn [value]. lra.
Qed.

Lemma layer_mass : forall ns hs a e v, Forall (fun m => (0 < m)%nat) ns -> Forall (Rlt 0) hs -> length hs = length ns ->
  (a < length ns)%nat -> (e <= nth a ns 0)%nat -> (forall js, node ns js -> nth a js 0%nat = e -> v js = 0) ->
  nsum ns (fun js => v js * v js) <=
  (INR (nth a ns 0%nat) * nth a hs 0) * (INR (nth a ns 0%nat) * nth a hs 0) * 6 ^ pred (length ns) *
  bsum ns line (fun cs xs => grad hs v cs xs a * grad hs v cs xs a).
Proof.
  induction ns as [|n ns IH]; intros [|h hs] a e v Fn Fh L La Le Z; try discriminate; [cbn in La; lia|].
  injection L as L. apply Forall_cons_iff in Fn. destruct Fn as (Pn & Fn). apply Forall_cons_iff in Fh. destruct Fh as (Ph & Fh).
  rewrite nsum_cons, bsum_cons. cbn [length pred]. destruct a as [|a].
  - cbn [nth grad].
    set (D := fun c js => v (S c :: js) - v (c :: js)).
    assert (G : lsum line (fun p => snd p * rsum n (fun c => bsum ns line (fun cs xs =>
        (value (fun js => v (S c :: js)) cs xs - value (fun js => v (c :: js)) cs xs) / h *
        ((value (fun js => v (S c :: js)) cs xs - value (fun js => v (c :: js)) cs xs) / h)))) =
        / (h * h) * rsum n (fun c => bsum ns line (fun cs xs => value (D c) cs xs * value (D c) cs xs))).
    { set (X := rsum n (fun c => bsum ns line (fun cs xs =>
        (value (fun js => v (S c :: js)) cs xs - value (fun js => v (c :: js)) cs xs) / h *
        ((value (fun js => v (S c :: js)) cs xs - value (fun js => v (c :: js)) cs xs) / h)))).
      rewrite (lsum_ext _ line _ (fun p => X * snd p)) by (intros; ring). rewrite lsum_scale.
      change (lsum line (fun p => snd p)) with (lsum line snd). rewrite (proj1 Mo), Rmult_1_r. unfold X.
      rewrite <- rsum_scale. apply rsum_ext. intros c _. rewrite <- bsum_scale. apply bsum_ext. intros cs xs _ Lx.
      assert (V : value (D c) cs xs = value (fun js => v (S c :: js)) cs xs - value (fun js => v (c :: js)) cs xs).
      { unfold D. rewrite <- (Rmult_1_l (value (fun js => v (S c :: js)) cs xs)).
        replace (1 * value (fun js => v (S c :: js)) cs xs - value (fun js => v (c :: js)) cs xs) with
          (1 * value (fun js => v (S c :: js)) cs xs + (-1) * value (fun js => v (c :: js)) cs xs) by ring.
        rewrite <- value_lin. apply value_ext; auto. intros. ring. }
      rewrite V. field. lra. }
    rewrite G.
    apply Rle_trans with (INR n * INR n * rsum n (fun c => nsum ns (fun js => D c js * D c js))).
    + unfold nsum. rewrite <- (lsum_rsum _ (all_nodes ns) (S n) (fun js j => v (j :: js) * v (j :: js))).
      rewrite <- (lsum_rsum _ (all_nodes ns) n (fun js c => D c js * D c js)). rewrite <- lsum_scale. apply lsum_le.
      intros js J. apply (far_values n (fun j => v (j :: js)) e Le). apply Z; [|reflexivity].
      constructor; [exact Le|now apply all_nodes_node].
    + replace (INR n * h * (INR n * h) * 6 ^ length ns * (/ (h * h) * rsum n (fun c => bsum ns line (fun cs xs => value (D c) cs xs * value (D c) cs xs))))
        with (INR n * INR n * (6 ^ length ns * rsum n (fun c => bsum ns line (fun cs xs => value (D c) cs xs * value (D c) cs xs)))) by (field; lra).
      apply Rmult_le_compat_l; [apply Rle_0_sqr|]. rewrite <- rsum_scale. apply SampleProofs.rsum_le. intros c _. now apply value_mass.
  - cbn [nth grad]. cbn [length] in La. cbn [nth] in Le.
    pose proof (mass_step ns n (fun j cs xs => grad hs (fun js => v (j :: js)) cs xs a) Pn) as H. cbv beta in H.
    set (K := INR (nth a ns 0%nat) * nth a hs 0 * (INR (nth a ns 0%nat) * nth a hs 0)) in *.
    apply Rle_trans with (K * 6 ^ pred (length ns) * rsum (S n) (fun j => bsum ns line (fun cs xs =>
      grad hs (fun js => v (j :: js)) cs xs a * grad hs (fun js => v (j :: js)) cs xs a))).
    + rewrite <- rsum_scale. apply SampleProofs.rsum_le. intros j Lj. unfold K. apply (IH hs a e); auto; [lia|].
      intros js Nj Ej. apply Z; [constructor; auto; lia|exact Ej].
    + replace (6 ^ length ns) with (6 * 6 ^ pred (length ns)) by (destruct ns; [cbn in La; lia|reflexivity]).
      assert (0 < 6 ^ pred (length ns)) by (apply pow_lt; lra).
      assert (0 <= K) by (unfold K; apply Rle_0_sqr).
      replace (K * (6 * 6 ^ pred (length ns))) with (K * 6 ^ pred (length ns) * 6) by ring. rewrite (Rmult_assoc _ 6).
      apply Rmult_le_compat_l; [apply Rmult_le_pos; lra|]. lra.
Qed.
End Mass.

(** ** Residuals *)
Lemma error_bound : forall n con A c e r, 0 < c ->
  (forall v, vanishes n con v -> c * squares n v <= dot n (mv n A v) v) -> vanishes n con e ->
  (forall i, (i < n)%nat -> con i = false -> mv n A e i = - r i) ->
  c * dot n (mv n A e) e <= squares n r /\ c * c * squares n e <= squares n r.
Proof.
  intros n con A c e r Pc Lo Ve Eq. set (q := dot n (mv n A e) e). set (S := squares n e). set (Q := squares n r).
  assert (H : c * S <= q) by (apply Lo; auto).
  assert (E : q = rsum n (fun i => - r i * e i)).
  { apply rsum_ext. intros i Li. destruct (con i) eqn:C; [rewrite (Ve i Li C); ring|]. now rewrite Eq. }
  assert (CS : q * q <= Q * S).
  { rewrite E. eapply Rle_trans; [apply (cauchy_sum n (fun i => - r i) e)|]. apply Rmult_le_compat_r; [apply squares_nonneg|].
    apply Req_le. apply rsum_ext. intros. ring. }
  assert (PS : 0 <= S) by apply squares_nonneg. assert (PQ : 0 <= Q) by apply squares_nonneg.
  assert (Pq : 0 <= q) by (pose proof (Rmult_le_pos c S); lra).
  assert (B : c * q <= Q).
  { destruct (Req_dec q 0) as [Z|N]; [rewrite Z; lra|]. apply (Rmult_le_reg_r q); [lra|].
    rewrite Rmult_assoc. apply Rle_trans with (c * (Q * S)); [apply Rmult_le_compat_l; lra|].
    replace (c * (Q * S)) with (Q * (c * S)) by ring. apply Rmult_le_compat_l; auto. }
  split; auto. rewrite Rmult_assoc. apply Rle_trans with (c * q); auto. apply Rmult_le_compat_l; lra.
Qed.

Lemma bvp_error : forall n con A b g u w, solves_bvp n con A b g u -> (forall i, (i < n)%nat -> con i = true -> w i = g i) ->
  vanishes n con (fun i => w i - u i) /\
  forall i, (i < n)%nat -> con i = false -> mv n A (fun i => w i - u i) i = - residual n con A b w i.
Proof.
  intros n con A b g u w U W. split.
  - intros i Li C. specialize (U i Li). rewrite C in U. rewrite (W i Li C). lra.
  - intros i Li C. specialize (U i Li). rewrite C in U. unfold residual. rewrite C, <- U. unfold mv.
    rewrite (rsum_ext n _ (fun j => A i j * w j - A i j * u j)) by (intros; ring). rewrite rsum_minus. ring.
Qed.

(** ** Grids of boxes *)
Lemma stiffness_bound_pos : forall ns hs alpha a, Forall (fun m => (0 < m)%nat) ns -> Forall (Rlt 0) hs -> length hs = length ns ->
  (a < length ns)%nat -> 0 < alpha -> 0 < stiffness_bound ns hs alpha a.
Proof.
  intros ns hs alpha a Fn Fh L La Pa. unfold stiffness_bound. rewrite Forall_forall in Fn.
  assert (0 < INR (nth a ns 0%nat)) by (apply lt_0_INR; apply Fn; now apply nth_In).
  assert (0 < nth a hs 0) by (rewrite Forall_forall in Fh; apply Fh; apply nth_In; lia).
  apply Rdiv_lt_0_compat; [apply Rmult_lt_0_compat; auto; now apply volume_pos|].
  repeat apply Rmult_lt_0_compat; auto. apply pow_lt. lra.
Qed.

Lemma box_bound : forall ns hs num n con line D alpha a e y, Forall (fun m => (0 < m)%nat) ns -> Forall (Rlt 0) hs -> length hs = length ns ->
  numbering ns num n -> moments line -> Forall (fun p => 0 < snd p) line -> 0 < alpha ->
  (forall cs xs, at_least (length ns) alpha (D cs xs)) -> layer_constrained ns num con a e -> vanishes n con y ->
  stiffness_bound ns hs alpha a * squares n y <=
  volume hs * bsum ns line (fun cs xs => dot (length ns) (mv (length ns) (D cs xs) (grad hs (nodal num y) cs xs)) (grad hs (nodal num y) cs xs)).
Proof.
  intros ns hs num n con line D alpha a e y Fn Fh L Nu Mo Fw Pa Al (La & Le & Lc) Vy.
  pose proof (squares_nodes ns num n y Nu) as S1.
  pose proof (layer_mass line Mo Fw ns hs a e (nodal num y) Fn Fh L La Le) as S2.
  assert (Z : forall js, node ns js -> nth a js 0%nat = e -> nodal num y js = 0).
  { intros js Nj Ej. apply Vy; auto. now apply Nu. }
  specialize (S2 Z). unfold stiffness_bound.
  set (K := INR (nth a ns 0%nat) * nth a hs 0 * (INR (nth a ns 0%nat) * nth a hs 0) * 6 ^ pred (length ns)) in *.
  assert (PK : 0 < K).
  { unfold K. rewrite Forall_forall in Fn. assert (0 < INR (nth a ns 0%nat)) by (apply lt_0_INR; apply Fn; now apply nth_In).
    assert (0 < nth a hs 0) by (rewrite Forall_forall in Fh; apply Fh; apply nth_In; lia).
    repeat apply Rmult_lt_0_compat; auto. apply pow_lt. lra. }
  pose proof (volume_pos hs Fh) as Pv.
  set (G := bsum ns line (fun cs xs => grad hs (nodal num y) cs xs a * grad hs (nodal num y) cs xs a)) in *.
  apply Rle_trans with (alpha * volume hs * G).
  - unfold Rdiv. rewrite !Rmult_assoc. apply Rmult_le_compat_l; [lra|]. apply Rmult_le_compat_l; [lra|].
    apply (Rmult_le_reg_l K); auto. rewrite <- Rmult_assoc, Rinv_r, Rmult_1_l by lra. lra.
  - rewrite (Rmult_comm alpha), Rmult_assoc. apply Rmult_le_compat_l; [lra|]. unfold G. rewrite <- bsum_scale. apply bsum_le; auto.
    intros cs xs _ _. eapply Rle_trans; [|apply (Al cs xs)]. apply Rmult_le_compat_l; [lra|].
    unfold dot. destruct (length ns) as [|m] eqn:Em; [lia|]. rewrite (rsum_skip m a) by lia.
    assert (0 <= rsum m (fun j => grad hs (nodal num y) cs xs (skip a j) * grad hs (nodal num y) cs xs (skip a j)))
      by (apply rsum_nonneg; intros; apply Rle_0_sqr). lra.
Qed.

Lemma patch_bound : forall d o diffusion p alpha a e y, sound d p -> (2 <= gauss_points o <= 3)%nat -> 0 < alpha ->
  (forall x, at_least d alpha (diffusion x)) -> layer_constrained (pa_cells p) (pa_num p) (pa_con p) a e -> vanishes (pa_n p) (pa_con p) y ->
  stiffness_bound (pa_cells p) (pa_edges p) alpha a * squares (pa_n p) y <=
  LinSpec.energy d (patch_points d o diffusion p) (field_of (pa_n p) y) (field_of (pa_n p) y).
Proof.
  intros d o diffusion p alpha a e y So Oo Pa Al Lc Vy. rewrite patch_energy by auto.
  destruct So as (Ld & Le & Ll & Fc & Fe & Nu). subst d.
  apply (box_bound _ _ _ _ (pa_con p) _ (fun f xs => diffusion (pa_global p f xs)) alpha a e); auto.
  - now apply gauss_moments.
  - now apply gauss_positive.
Qed.

(** ** The reference system *)
Lemma fem_form : forall d P diffusion source neumann (grid : list (fcell P * list (cface P))) N,
  (forall c fs i, In (c, fs) grid -> (i < fc_n P c)%nat -> (fc_index P c i < N)%nat) ->
  forall u v, dot N (mv N (fst (fem_walk d P diffusion source neumann grid)) u) v =
    lsum grid (fun cf => fine_energy d P diffusion (fst cf) (fine_grad P u (fst cf)) (fine_grad P v (fst cf))).
Proof.
  intros d P diffusion source neumann grid N Ix u v.
  assert (W : exists r, walk d P diffusion source neumann (fun _ _ => 0) (fun _ => 0) (bares P grid) = Some r).
  { apply walk_some. intros c fs I. apply bares_in in I. destruct I as (c' & _ & ->). reflexivity. }
  destruct W as ((M, V) & W). destruct (walk_val _ _ _ _ _ _ _ _ _ _ W) as (A' & _).
  destruct (fem_walk_val d P diffusion source neumann grid) as (A & _).
  rewrite (dot_ext N _ (mv N M u) v v); auto.
  2:{ intros i _. unfold mv. apply rsum_ext. intros j _. rewrite A, A'. ring. }
  rewrite (matrix_form d P diffusion (bares P grid) N) with (source := source) (neumann := neumann) (V := V); auto.
  2:{ intros c fs i I. apply bares_in in I. destruct I as (c' & I & ->). now apply (Ix c' fs). }
  rewrite lsum_bares. apply lsum_ext. intros (c, fs) _. cbn [fst covered bare cc_locals filter lc_covered bare_local lsum].
  rewrite Rplus_0_r. change {| lc_covered := true; lc_global := fc_global P c; lc_factor := fc_factor P c; lc_grad := fun _ _ _ => 0; lc_val := fun _ _ => 0; lc_quad := fc_quad P c; lc_rquad := fc_rquad P c |} with (bare_local P c).
  rewrite <- bare_energy. apply energy_ext; intros q k _ _; apply bare_grad.
Qed.

Lemma fine_bound : forall ns hs num n diffusion global line rquad fs con source neumann alpha a e y,
  Forall (fun m => (0 < m)%nat) ns -> Forall (Rlt 0) hs -> length hs = length ns -> numbering ns num n ->
  moments line -> Forall (fun p => 0 < snd p) line -> 0 < alpha -> (forall x, at_least (length ns) alpha (diffusion x)) ->
  layer_constrained ns num con a e -> vanishes n con y ->
  stiffness_bound ns hs alpha a * squares n y <=
  dot n (mv n (fst (fem_walk (length ns) (list R) diffusion source neumann
    (fine_boxes ns hs num global (product_rule line (length ns)) rquad fs))) y) y.
Proof.
  intros ns hs num n diffusion global line rquad fs con source neumann alpha a e y Fn Fh L Nu Mo Fw Pa Al Lc Vy.
  rewrite fem_form by (intros c f i; apply (fine_index ns hs num n global line rquad fs Nu)).
  eapply Rle_trans; [apply (box_bound ns hs num n con line (fun cs xs => diffusion (global cs xs)) alpha a e); auto|].
  apply Req_le. unfold fine_boxes, bsum. rewrite lsum_map, <- lsum_scale. apply lsum_ext. intros cs I. cbn [fst].
  unfold fine_energy. cbn [fem_cell fc_quad fc_factor fc_global]. rewrite <- lsum_scale. apply lsum_ext. intros q Q.
  pose proof (rule_length _ _ _ Q) as Lq. pose proof (cells_length _ _ I) as Li.
  assert (G : forall k, fine_grad (list R) y (fem_cell (box_cell hs num cs []) (global cs) (volume hs) (product_rule line (length ns)) (rquad cs)) (fst q) k =
    grad hs (nodal num y) cs (fst q) k).
  { intros k. apply (box_fine_grad ns hs num n); auto. congruence. }
  rewrite <- Rmult_assoc. f_equal. apply dot_ext; [intros k _; apply mv_ext|]; intros m _; now rewrite G.
Qed.

(** ** Corrected functions *)
Section Gap.
Variables (d : nat) (qs rs : list qpoint) (n : nat) (con : nat -> bool).
Hypothesis Sy : forall q, In q qs -> forall i j, (i < d)%nat -> (j < d)%nat -> q_A q i j = q_A q j i.

Lemma corrector_gap : forall f f' x x' z z', same_products d qs rs n con f -> same_products d qs rs n con f' ->
  corrector d qs rs n con f x -> corrector d qs rs n con f' x' -> vanishes n con z -> vanishes n con z' ->
  LinSpec.energy d qs (plus f (field_of n z)) (plus f' (field_of n z')) =
  LinSpec.energy d qs (plus f (field_of n x)) (plus f' (field_of n x')) +
  LinSpec.energy d qs (field_of n (fun i => z i - x i)) (field_of n (fun i => z' i - x' i)).
Proof.
  intros f f' x x' z z' Sf Sf' C C' Z Z'.
  apply corrector_orthogonal_same in C; auto. apply corrector_orthogonal_same in C'; auto.
  destruct C as (V & O), C' as (V' & O').
  set (e := fun i => z i - x i). set (e' := fun i => z' i - x' i).
  assert (Ve : vanishes n con e) by (intros i Li Ci; unfold e; rewrite (Z i Li Ci), (V i Li Ci); ring).
  assert (Ve' : vanishes n con e') by (intros i Li Ci; unfold e'; rewrite (Z' i Li Ci), (V' i Li Ci); ring).
  rewrite (energy_field_ext d qs (plus f (field_of n z)) (plus (plus f (field_of n x)) (field_of n e))
    (plus f' (field_of n z')) (plus (plus f' (field_of n x')) (field_of n e'))).
  - rewrite LinProofs.energy_plus_l. rewrite (LinProofs.energy_sym_f d qs (plus f (field_of n x))) by auto.
    rewrite (LinProofs.energy_plus_l d qs (plus f' (field_of n x'))).
    rewrite (LinProofs.energy_sym_f d qs (field_of n e) (plus _ (field_of n e'))) by auto. rewrite (LinProofs.energy_plus_l d qs (plus f' (field_of n x')) (field_of n e')).
    rewrite (O' e Ve). rewrite (LinProofs.energy_sym_f d qs (field_of n e') (plus f (field_of n x))) by auto. rewrite (O e' Ve').
    rewrite (LinProofs.energy_sym_f d qs (field_of n e') (field_of n e)) by auto.
    rewrite (LinProofs.energy_sym_f d qs (plus f' (field_of n x')) (plus f (field_of n x))) by auto. ring.
  - intros q k _ _. unfold plus. rewrite Rplus_assoc. rewrite <- field_plus. f_equal. unfold field_of. apply rsum_ext. intros. unfold e. ring.
  - intros q k _ _. unfold plus. rewrite Rplus_assoc. rewrite <- field_plus. f_equal. unfold field_of. apply rsum_ext. intros. unfold e'. ring.
Qed.
End Gap.

Lemma patch_symmetric : forall d o diffusion p, (forall y i j, (i < d)%nat -> (j < d)%nat -> diffusion y i j = diffusion y j i) ->
  forall q, In q (patch_points d o diffusion p) -> forall i j, (i < d)%nat -> (j < d)%nat -> q_A q i j = q_A q j i.
Proof.
  intros d o diffusion p S q I. unfold patch_points, grid_points, varied_elements in I. apply in_flat_map in I. destruct I as (e & Ie & I).
  apply in_map_iff in Ie. destruct Ie as (f & <- & _). apply in_map_iff in I. destruct I as (r & <- & _). cbn [q_A el_A]. apply S.
Qed.

Lemma cell_gap : forall ns hs num n diffusion order rhs_order o p cs x u ss v z,
  length hs = length ns -> Forall (Rlt 0) hs -> length ss = length ns -> numbering ns num n -> In cs (cells ns) -> sound (length ns) p ->
  (2 <= gauss_points order <= 3)%nat -> (forall y i j, (i < length ns)%nat -> (j < length ns)%nat -> diffusion y i j = diffusion y j i) ->
  same_energies (length ns) [order; rhs_order; o] diffusion p ->
  corrected hs num diffusion order rhs_order p cs x -> linear ss v -> (forall js, node ns js -> u (num js) = v js) ->
  vanishes (pa_n p) (pa_con p) z ->
  let d := length ns in
  let g := fun k => nth k ss 0 / nth k hs 1 in
  let e := fun m => z m - rsum (length (corners cs)) (fun i => u (num (nth i (corners cs) [])) * x i m) in
  cell_form d o diffusion g p (nodal (pa_num p) z) = cell_form d o diffusion g p (added_part num p cs x u) +
  LinSpec.energy d (patch_points d order diffusion p) (field_of (pa_n p) e) (field_of (pa_n p) e).
Proof.
  intros ns hs num n diffusion order rhs_order o p cs x u ss v z Lh Fh Ls Nu Ic So Og Sy Se Co Lv Uv Z d g e.
  destruct (cell_split ns hs num n diffusion order rhs_order o p cs x u ss Lh Fh Ls Nu Ic So Og Se Co v Lv Uv) as (t & Ct & Form).
  fold d g in Form. fold d in Ct.
  rewrite (Form z (nodal (pa_num p) z)) by reflexivity.
  rewrite (Form (fun m => rsum (length (corners cs)) (fun i => u (num (nth i (corners cs) [])) * x i m)) (added_part num p cs x u)) by reflexivity.
  apply (corrector_gap d _ (patch_points d rhs_order diffusion p) (pa_n p) (pa_con p)); auto.
  - now apply patch_symmetric.
  - intros m _. apply Se; cbn; auto.
  - intros m _. apply Se; cbn; auto.
Qed.
