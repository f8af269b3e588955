(** Proofs for C135. *)
From Coq Require Import Reals List Arith Bool Lra Lia.
From Verif Require Import Util RSum LinModel LinSpec LinProofs QuadModel CoarseModel CoarseSpec SystemModel SystemSpec SystemProofs.
From Verif Require Import FemModel FemSpec FemProofs EnergySpec EnergyProofs PatchSpec PatchProofs SolveSpec SolveProofs LayerSpec LayerProofs.
From Verif Require Import WholeSpec WholeProofs StrataSpec StrataProofs CrossSpec.
From Verif Require MaxProofs.
Import ListNotations.
Open Scope R_scope.

(** * Faces *)
(** Local functions vanish at constrained nodes. *)
Lemma local_zero : forall d pts n con b x m, local_problem d pts n con b x -> (m < n)%nat -> con m = true -> x m = 0.
Proof.
  intros d pts n con b x m P L C. specialize (P m L). unfold constrain_matrix, constrain_vector in P. rewrite C in P.
  unfold mv in P. rewrite (rsum_single n m) in P; auto.
  - rewrite C, Nat.eqb_refl in P. lra.
  - intros j Lj N. rewrite C, (proj2 (Nat.eqb_neq m j)) by congruence. ring.
Qed.

(** A multilinear function is linear along the axes. *)
Lemma value_line : forall cs v k xs ys zs, beside k xs ys -> beside k ys zs -> length xs = length cs -> length ys = length cs -> length zs = length cs ->
  nth k xs 0 + nth k zs 0 = 2 * nth k ys 0 -> value v cs xs + value v cs zs = 2 * value v cs ys.
Proof.
  induction cs as [|c cs IH]; intros v k xs ys zs B1 B2 L1 L2 L3 E.
  { destruct xs, ys, zs; try discriminate. cbn. ring. }
  destruct xs as [|x xs], ys as [|y ys], zs as [|z zs]; try discriminate. cbn [value].
  destruct k as [|k].
  - assert (T : forall a b : list R, length a = length b -> (forall m, nth_error a m = nth_error b m) -> a = b).
    { clear. induction a as [|p a IH]; intros [|q b] L N; try discriminate; auto. f_equal.
      - specialize (N 0%nat). cbn in N. now injection N.
      - apply IH; [now injection L|]. intros m. exact (N (S m)). }
    injection L1 as L1. injection L2 as L2. injection L3 as L3.
    assert (xs = ys) by (apply T; [lia|]; intros m; exact (B1 (S m) ltac:(lia))).
    assert (ys = zs) by (apply T; [lia|]; intros m; exact (B2 (S m) ltac:(lia))).
    subst. cbn [nth] in E. replace z with (2 * y - x) by lra. ring.
  - assert (x = y) by (specialize (B1 0%nat ltac:(lia)); cbn in B1; now injection B1).
    assert (y = z) by (specialize (B2 0%nat ltac:(lia)); cbn in B2; now injection B2). subst.
    assert (S1 : beside k xs ys) by (intros m N; exact (B1 (S m) ltac:(lia))).
    assert (S2 : beside k ys zs) by (intros m N; exact (B2 (S m) ltac:(lia))).
    cbn [nth] in E. injection L1 as L1. injection L2 as L2. injection L3 as L3.
    pose proof (IH (fun js => v (c :: js)) k xs ys zs S1 S2 L1 L2 L3 E) as P.
    pose proof (IH (fun js => v (S c :: js)) k xs ys zs S1 S2 L1 L2 L3 E) as Q.
    replace (2 * ((1 - z) * value (fun js => v (c :: js)) cs ys + z * value (fun js => v (S c :: js)) cs ys))
      with ((1 - z) * (2 * value (fun js => v (c :: js)) cs ys) + z * (2 * value (fun js => v (S c :: js)) cs ys)) by ring.
    rewrite <- P, <- Q. ring.
Qed.

Lemma nth_error_same : forall X (a b : list X) m e, nth_error a m = nth_error b m -> nth m a e = nth m b e.
Proof. intros X a b m e H. rewrite <- !nth_default_eq. unfold nth_default. now rewrite H. Qed.
Lemma nth_map0 : forall (fs : list nat) k, nth k (map (fun _ => 0) fs) 0 = 0.
Proof. induction fs as [|f fs IH]; intros [|k]; cbn; auto. Qed.
Lemma nth_place : forall os gs hs fs k, length gs = length os -> length hs = length os -> length fs = length os -> (k < length os)%nat ->
  nth k (place os gs hs fs (map (fun _ => 0) fs)) 0 = nth k os 0 + INR (nth k fs 0%nat) * (nth k gs 0 / nth k hs 0).
Proof.
  induction os as [|o os IH]; intros gs hs fs k L1 L2 L3 Lk; [cbn in Lk; lia|].
  destruct gs as [|g gs], hs as [|h hs], fs as [|f fs]; try discriminate. cbn [map place].
  destruct k as [|k]; cbn [nth]; [ring|]. apply IH; cbn in *; lia.
Qed.
Lemma place_size : forall os gs hs fs, length gs = length os -> length hs = length os -> length fs = length os ->
  length (place os gs hs fs (map (fun _ => 0) fs)) = length os.
Proof.
  induction os as [|o os IH]; intros gs hs fs L1 L2 L3; auto.
  destruct gs as [|g gs], hs as [|h hs], fs as [|f fs]; try discriminate. cbn. f_equal. apply IH; cbn in *; lia.
Qed.
Lemma place_beside : forall os gs hs fs fs' k, length gs = length os -> length hs = length os -> length fs = length os -> length fs' = length os ->
  beside k fs fs' -> beside k (place os gs hs fs (map (fun _ => 0) fs)) (place os gs hs fs' (map (fun _ => 0) fs')).
Proof.
  intros os gs hs fs fs' k L1 L2 L3 L4 B m N.
  destruct (lt_dec m (length os)) as [L|L].
  - rewrite !(nth_error_nth' _ 0) by (rewrite place_size; auto). f_equal. rewrite !nth_place by auto.
    now rewrite (nth_error_same _ fs fs' m 0%nat) by auto.
  - rewrite !(proj2 (nth_error_None _ _)); auto; rewrite place_size; auto; lia.
Qed.

(** Three values on a straight line are somewhere off by a quarter of the second
    difference. *)
Lemma off_line : forall p q r x y z, p + r = 2 * q -> Rabs (x - 2 * y + z) / 4 <= worst (p - x) (q - y) (r - z).
Proof.
  intros p q r x y z E. unfold worst.
  pose proof (Rmax_l (Rabs (p - x)) (Rmax (Rabs (q - y)) (Rabs (r - z)))).
  pose proof (Rmax_r (Rabs (p - x)) (Rmax (Rabs (q - y)) (Rabs (r - z)))).
  pose proof (Rmax_l (Rabs (q - y)) (Rabs (r - z))). pose proof (Rmax_r (Rabs (q - y)) (Rabs (r - z))).
  set (M := Rmax _ _) in *.
  assert (Rabs (x - 2 * y + z) <= Rabs (p - x) + 2 * Rabs (q - y) + Rabs (r - z)).
  { replace (x - 2 * y + z) with (- (p - x) + 2 * (q - y) + - (r - z)) by lra.
    eapply Rle_trans; [apply Rabs_triang|]. eapply Rle_trans; [apply Rplus_le_compat_r, Rabs_triang|].
    rewrite !Rabs_Ropp, Rabs_mult, (Rabs_right 2) by lra. lra. }
  lra.
Qed.

Section Result.
Variables (ns : list nat) (hs : list R) (num : list nat -> nat) (n : nat).
Hypothesis Lh : length hs = length ns.
Hypothesis Nu : numbering ns num n.
Hypothesis Ne : ns <> [].

(** At constrained nodes the multiscale function is the coarse function. *)
Lemma uncorrected_node : forall con pa diffusion order rhs_order line rquad extra fs source neumann g x u cs js,
  (2 <= gauss_points order <= 3)%nat -> In cs (cells ns) -> sound (length ns) (pa cs) ->
  result ns hs num n con pa diffusion order rhs_order line rquad extra fs source neumann g x u ->
  node (pa_cells (pa cs)) js -> pa_con (pa cs) (pa_num (pa cs) js) = true ->
  multiscale_node hs num (pa cs) cs (x cs) u js = restricted hs (pa cs) (nodal num u) cs js.
Proof.
  intros con pa diffusion order rhs_order line rquad extra fs source neumann g x u cs js Or I Sn (C & _) N Cj.
  destruct (C cs I) as (C1 & C2). pose proof Sn as (Lc & Le & Ll & Fc & Fe & Np).
  assert (Lm : (pa_num (pa cs) js < pa_n (pa cs))%nat) by now apply Np.
  assert (L0 : (0 < length ns)%nat) by (destruct ns; [congruence|cbn; lia]).
  unfold multiscale_node.
  rewrite (local_zero _ _ _ _ _ _ _ (C2 (length (corners cs) + 1)%nat ltac:(lia)) Lm Cj).
  rewrite (local_zero _ _ _ _ _ _ _ (C2 (length (corners cs)) ltac:(lia)) Lm Cj).
  rewrite (rsum_ext _ _ (fun i => u (num (nth i (corners cs) [])) * restricted hs (pa cs) (one_at num (num (nth i (corners cs) []))) cs js)).
  - rewrite (restricted_sum hs num ns n order 0 true (pa cs) cs Lh Nu I L0 Sn Or u js N). ring.
  - intros i Li. destruct (C1 i Li) as (y & _ & P). unfold corrector in P.
    rewrite (local_zero _ _ _ _ _ _ _ P Lm Cj). ring.
Qed.

Lemma restricted_line : forall p v cs k m js1 js2 js3, sound (length ns) p -> In cs (cells ns) -> (k < length ns)%nat ->
  length js1 = length ns -> ahead k m js1 js2 -> ahead k m js2 js3 ->
  restricted hs p v cs js1 + restricted hs p v cs js3 = 2 * restricted hs p v cs js2.
Proof.
  intros p v cs k m js1 js2 js3 (Lc & Le & Ll & _) I Lk L1 (L2 & B2 & E2) (L3 & B3 & E3).
  pose proof (cells_length _ _ I). unfold restricted. apply (value_line cs v k).
  - apply place_beside; auto; lia.
  - apply place_beside; auto; lia.
  - rewrite place_size; lia.
  - rewrite place_size; lia.
  - rewrite place_size; lia.
  - rewrite !nth_place by lia. rewrite E3, E2, !plus_INR. ring.
Qed.
End Result.

(** * The reference solution across layers *)
Lemma layer_grad : forall hs cs xs k (w : nat -> R) m, length hs = length cs -> length xs = length cs -> (k < length cs)%nat -> (m < length cs)%nat ->
  grad hs (fun js => w (nth k js 0%nat)) cs xs m =
  if Nat.eqb m k then (w (S (nth k cs 0%nat)) - w (nth k cs 0%nat)) / nth k hs 1 else 0.
Proof.
  induction hs as [|h hs IH]; intros cs xs k w m L1 L2 Lk Lm; destruct cs as [|c cs]; try (cbn in Lk; lia); try discriminate.
  destruct xs as [|x xs]; [discriminate|]. injection L1 as L1. injection L2 as L2. cbn [grad].
  destruct m as [|m], k as [|k]; cbn [nth Nat.eqb].
  - now rewrite !value_const.
  - unfold Rdiv. ring.
  - rewrite !grad_const. ring.
  - cbn in Lk, Lm. rewrite IH by lia. destruct (Nat.eqb m k); ring.
Qed.

Lemma cells_bound : forall ns cs k, In cs (cells ns) -> (k < length ns)%nat -> (nth k cs 0 < nth k ns 0)%nat.
Proof.
  induction ns as [|n ns IH]; intros cs k I L; [cbn in L; lia|]. cbn [cells] in I. apply in_flat_map in I. destruct I as (c & Ic & I).
  apply in_map_iff in I. destruct I as (cs' & <- & I). apply in_seq in Ic. destruct k as [|k]; cbn [nth]; [lia|]. apply IH; cbn in L; auto; lia.
Qed.

(** The flux of a function of the number of the layer is constant. *)
Lemma across_reference : forall ns hs num n con diffusion global line rquad fs source neumann g start k a q w u,
  length hs = length ns -> numbering ns num n -> outer_constrained ns num con ->
  Forall (fun p => 0 < fst p < 1) line -> (k < length ns)%nat -> layers ns global diffusion k a ->
  (forall c, (c < nth k ns 0)%nat -> a c * (w (S c) - w c) = q) -> (forall y, source y = 0) ->
  (forall cs f, In cs (cells ns) -> In f (fs cs) -> cf_neumann _ f = false) ->
  (forall js, node ns js -> outer_node ns js = true -> g (num js) = w (nth k js 0%nat)) ->
  (forall js, node ns js -> u (num js) = w (nth k js 0%nat)) ->
  fem_solution (length ns) (list R) diffusion source neumann n con g start
    (fine_boxes ns hs num global (product_rule line (length ns)) rquad fs) u.
Proof.
  intros ns hs num n con diffusion global line rquad fs source neumann g start k a q w u Lh Nu Con Op Lk La Fl So Nf Gv U.
  apply fem_weak_form.
  { intros c f i I L. apply in_map_iff in I. destruct I as (cs & E & I). injection E as <- <-. cbn in L |- *.
    apply (proj1 Nu). apply (corner_node ns cs); auto. now apply nth_In. }
  split.
  { intros i L C. destruct (proj2 (proj2 Nu) i L) as (js & N & <-). rewrite Con in C by auto. rewrite U, Gv; auto. }
  intros t T. assert (Vt : vanishing ns (nodal num t)).
  { intros js N O. apply T; [now apply Nu|]. now rewrite Con. }
  transitivity 0.
  2:{ symmetry. unfold fine_boxes. rewrite lsum_map. apply lsum_0. intros cs I. cbn [fst snd]. unfold fine_load, boundary_load.
    rewrite lsum_0 by (intros; rewrite So; ring).
    assert (F : filter (cf_neumann (list R)) (fs cs) = []).
    { specialize (fun f => Nf cs f I). induction (fs cs) as [|f r IH]; auto. cbn [filter]. rewrite Nf by now left.
      apply IH. intros f' I'. apply Nf. now right. }
    rewrite F. cbn. ring. }
  transitivity (volume hs * bsum ns line (fun cs xs => q / nth k hs 1 * grad hs (nodal num t) cs xs k)).
  2:{ rewrite (column ns hs line k (nodal num t) (fun _ _ => q / nth k hs 1)); auto. ring. }
  unfold fine_boxes, bsum. rewrite lsum_map, <- lsum_scale. apply lsum_ext. intros cs I. cbn [fst]. unfold fine_energy.
  cbn [fem_cell fc_quad fc_factor fc_global]. rewrite <- lsum_scale. apply lsum_ext. intros p P.
  pose proof (cells_length _ _ I) as Lc. pose proof (rule_length _ _ _ P) as Lp.
  pose proof (MaxProofs.rule_inside line Op _ _ P) as Ip.
  assert (L : length (fst p) = length cs) by lia.
  rewrite <- Rmult_assoc. f_equal. unfold dot. rewrite (rsum_single (length ns) k); auto.
  - f_equal.
    + unfold mv. rewrite (rsum_single (length ns) k); auto.
      * rewrite La, Nat.eqb_refl by auto. etransitivity; [apply f_equal|].
        { etransitivity; [apply (box_fine_grad ns hs num n u cs [] (global cs) (volume hs) (product_rule line (length ns)) (rquad cs) (fst p) k Nu I L)|].
          etransitivity; [apply (grad_ext hs cs (fst p) k (nodal num u) (fun js => w (nth k js 0%nat))); auto|apply layer_grad; lia].
          intros js J. unfold nodal. apply U. now apply (corner_node ns cs). }
        rewrite Nat.eqb_refl. rewrite <- (Fl (nth k cs 0%nat)); [unfold Rdiv; ring|].
        apply cells_bound; auto.
      * intros j Lj N. etransitivity; [apply f_equal|].
        { etransitivity; [apply (box_fine_grad ns hs num n u cs [] (global cs) (volume hs) (product_rule line (length ns)) (rquad cs) (fst p) j Nu I L)|].
          etransitivity; [apply (grad_ext hs cs (fst p) j (nodal num u) (fun js => w (nth k js 0%nat))); auto|apply layer_grad; lia].
          intros js J. unfold nodal. apply U. now apply (corner_node ns cs). }
        rewrite (proj2 (Nat.eqb_neq j k)) by auto. ring.
    + now apply (box_fine_grad ns hs num n t cs [] (global cs) (volume hs) (product_rule line (length ns)) (rquad cs) (fst p) k).
  - intros i Li N.
    assert (Z : mv (length ns) (diffusion (global cs (fst p))) (fine_grad (list R) u (fem_cell (box_cell hs num cs []) (global cs) (volume hs) (product_rule line (length ns)) (rquad cs)) (fst p)) i = 0).
    { unfold mv. apply rsum_0. intros j Lj. destruct (Nat.eq_dec j k) as [->|Nj].
      - rewrite La by auto. rewrite (proj2 (Nat.eqb_neq i k)) by auto. ring.
      - etransitivity; [apply f_equal|].
        { etransitivity; [apply (box_fine_grad ns hs num n u cs [] (global cs) (volume hs) (product_rule line (length ns)) (rquad cs) (fst p) j Nu I L)|].
          etransitivity; [apply (grad_ext hs cs (fst p) j (nodal num u) (fun js => w (nth k js 0%nat))); auto|apply layer_grad; lia].
          intros js J. unfold nodal. apply U. now apply (corner_node ns cs). }
        rewrite (proj2 (Nat.eqb_neq j k)) by auto. ring. }
    etransitivity; [apply f_equal2; [exact Z|reflexivity]|ring].
Qed.

(** * Both *)
Lemma drop : forall a q w m c, (forall i, (i < m)%nat -> a (c + i)%nat <> 0 /\ a (c + i)%nat * (w (S (c + i)) - w (c + i)%nat) = q) ->
  w (c + m)%nat - w c = q * resistance a c m.
Proof.
  induction m as [|m IH]; intros c F; unfold resistance in *; cbn [rsum].
  - rewrite Nat.add_0_r. ring.
  - rewrite Rmult_plus_distr_l, <- IH by (intros i L; apply F; lia). destruct (F m ltac:(lia)) as (N & E).
    rewrite <- E. replace (c + S m)%nat with (S (c + m)) by lia. field. auto.
Qed.
Lemma fine_node_nth : forall ms cs js k, length cs = length ms -> length js = length ms -> (k < length ms)%nat ->
  nth k (fine_node ms cs js) 0%nat = (nth k cs 0 * nth k ms 0 + nth k js 0)%nat.
Proof.
  induction ms as [|m ms IH]; intros cs js k L1 L2 Lk; [cbn in Lk; lia|].
  destruct cs as [|c cs], js as [|j js]; try discriminate. destruct k as [|k]; cbn [fine_node nth]; auto. apply IH; cbn in *; lia.
Qed.
Lemma fine_node_node : forall ns ms cs js, In cs (cells ns) -> length ms = length ns -> node ms js ->
  node (map (fun p => fst p * snd p)%nat (combine ns ms)) (fine_node ms cs js).
Proof.
  induction ns as [|n ns IH]; intros ms cs js I L N; destruct ms as [|m ms]; try discriminate.
  - destruct I as [<-|[]]. constructor.
  - cbn [cells] in I. apply in_flat_map in I. destruct I as (c & Ic & I). apply in_map_iff in I. destruct I as (cs' & <- & I).
    apply in_seq in Ic. inversion N; subst. cbn. constructor; [|apply IH; auto]. nia.
Qed.
