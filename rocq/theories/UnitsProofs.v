(** Proofs for C113. *)
From Coq Require Import Reals List Arith Bool Lra Lia.
From Verif Require Import Util RSum LinModel LinSpec LinProofs QuadModel CoarseModel CoarseSpec SystemModel SystemSpec SystemProofs.
From Verif Require Import FemModel FemSpec FemProofs FluxModel FluxSpec FluxProofs EnergySpec EnergyProofs PatchSpec PatchProofs SolveSpec SolveProofs.
From Verif Require Import LayerSpec LayerProofs WholeSpec UnitsSpec.
Import ListNotations.
Open Scope R_scope.

Section Units.
Variable L : R.
Hypothesis L0 : L <> 0.

Lemma longer_volume : forall hs, volume (longer L hs) = L ^ length hs * volume hs.
Proof. induction hs as [|h hs IH]; cbn [longer map volume fold_right length pow]; [ring|]. unfold volume, longer in IH. rewrite IH. ring. Qed.

Lemma longer_grad : forall hs v cs xs k, grad (longer L hs) v cs xs k = grad hs v cs xs k / L.
Proof.
  induction hs as [|h hs IH]; intros v cs xs k; [cbn [longer map grad]; unfold Rdiv; ring|].
  destruct cs as [|c cs]; [cbn [longer map grad]; unfold Rdiv; ring|].
  destruct xs as [|x xs]; [cbn [longer map grad]; unfold Rdiv; ring|].
  destruct k as [|k]; cbn [longer map grad].
  - unfold Rdiv. rewrite Rinv_mult. ring.
  - change (map (Rmult L) hs) with (longer L hs). rewrite !IH. unfold Rdiv. ring.
Qed.

Lemma longer_place : forall os gs hs fs xs, place os (longer L gs) (longer L hs) fs xs = place os gs hs fs xs.
Proof.
  induction os as [|o os IH]; intros gs hs fs xs; [reflexivity|].
  destruct gs as [|g gs]; [reflexivity|]. destruct hs as [|h hs]; [reflexivity|].
  destruct fs as [|f fs]; [reflexivity|]. destruct xs as [|x xs]; [reflexivity|].
  cbn [longer map place]. f_equal; [|apply IH].
  f_equal. f_equal. unfold Rdiv. rewrite Rinv_mult.
  transitivity (L * / L * (g * / h)); [ring|]. rewrite Rinv_r by auto. ring.
Qed.

Lemma dot_times : forall d a b u v, dot d (fun k => a * u k) (fun k => b * v k) = a * b * dot d u v.
Proof. intros. unfold dot. rewrite <- rsum_scale. apply rsum_ext. intros. ring. Qed.
Lemma dot_ext2 : forall d u v u' v', (forall k, (k < d)%nat -> u k = u' k) -> (forall k, (k < d)%nat -> v k = v' k) -> dot d u v = dot d u' v'.
Proof. intros d u v u' v' A B. unfold dot. apply rsum_ext. intros k K. now rewrite A, B. Qed.

(** One term of an energy product. *)
Lemma energy_term : forall d s a b A A' u u' v v',
  (forall i j, A' i j = s * A i j) -> (forall k : nat, (k < d)%nat -> u' k = a * u k) -> (forall k : nat, (k < d)%nat -> v' k = b * v k) ->
  dot d (mv d A' u') v' = s * a * b * dot d (mv d A u) v.
Proof.
  intros d s a b A A' u u' v v' HA Hu Hv. rewrite <- dot_times. apply dot_ext2; auto.
  intros k K. unfold mv. rewrite <- rsum_scale. apply rsum_ext. intros j J. rewrite HA, Hu by auto. ring.
Qed.

(** ** Local problems *)
Section Local.
Variables (d order : nat) (s : R) (diffusion diffusion' : list R -> nat -> nat -> R) (p : patch).
Hypothesis Ds : forall y i j, diffusion' (longer L y) i j = s * diffusion y i j.
Hypothesis Le : length (pa_edges p) = d.

Let point (q : qpoint) : qpoint := {| q_w := L ^ d * q_w q; q_A := fun i j => s * q_A q i j; q_grad := fun i k => q_grad q i k / L |}.

Lemma longer_points : forall o, Forall2 (fun q' q => q_w q' = L ^ d * q_w q /\ (forall i j, q_A q' i j = s * q_A q i j) /\
    (forall i k, q_grad q' i k = q_grad q i k / L))
  (patch_points d o diffusion' (longer_patch L p)) (patch_points d o diffusion p).
Proof.
  intros o. unfold patch_points, grid_points, varied_elements. cbn [longer_patch pa_cells pa_edges pa_num pa_global].
  rewrite !flat_map_concat_map, !map_map. cbn [el_factor el_A el_grad].
  induction (cells (pa_cells p)) as [|c cs IH]; cbn [map concat]; [constructor|].
  apply Forall2_app; [|exact IH]. clear IH.
  induction (cube_rule d o) as [|q qs IH]; cbn [map]; constructor; auto. cbn [q_w q_A q_grad].
  split; [|split].
  - rewrite longer_volume, Le. ring.
  - intros. apply Ds.
  - intros. apply longer_grad.
Qed.

Lemma lsum_forall2 : forall (A B : Type) (Q : A -> B -> Prop) l l' (f : A -> R) (g : B -> R) (c : R), Forall2 Q l l' ->
  (forall a b, Q a b -> f a = c * g b) -> lsum l f = c * lsum l' g.
Proof. intros A B Q l l' f g c F H. induction F; cbn [lsum]; [ring|]. rewrite IHF, (H _ _ H0). ring. Qed.

Let k := s * L ^ d / (L * L).

Lemma longer_stiffness : forall i j,
  stiffness d (patch_points d order diffusion' (longer_patch L p)) i j = k * stiffness d (patch_points d order diffusion p) i j.
Proof.
  intros i j. unfold stiffness. eapply lsum_forall2; [apply longer_points|].
  intros q' q (W & A & G). cbn beta. rewrite W.
  rewrite (energy_term d s (/ L) (/ L) (q_A q) (q_A q') (q_grad q j) (q_grad q' j) (q_grad q i) (q_grad q' i)).
  - unfold k, Rdiv. rewrite Rinv_mult. ring.
  - auto.
  - intros m _. rewrite G. unfold Rdiv. ring.
  - intros m _. rewrite G. unfold Rdiv. ring.
Qed.

Lemma longer_rhs : forall o t n y i,
  local_rhs d (patch_points d o diffusion' (longer_patch L p)) (field_of n (fun m => t * y m)) i =
  k * t * local_rhs d (patch_points d o diffusion p) (field_of n y) i.
Proof.
  intros o t n y i. unfold local_rhs. eapply lsum_forall2; [apply longer_points|].
  intros q' q (W & A & G). cbn beta. rewrite W. unfold evaluate_product.
  rewrite (energy_term d s (t / L) (/ L) (q_A q) (q_A q') (field_of n y q) (field_of n (fun m => t * y m) q') (q_grad q i) (q_grad q' i)).
  - unfold k, Rdiv. rewrite Rinv_mult. ring.
  - auto.
  - intros m _. unfold field_of. rewrite <- rsum_scale. apply rsum_ext. intros. rewrite G. unfold Rdiv. ring.
  - intros m _. rewrite G. unfold Rdiv. ring.
Qed.

Hypothesis s0 : s <> 0.
Lemma k0 : k <> 0.
Proof. unfold k, Rdiv. repeat apply Rmult_integral_contrapositive_currified; auto. now apply pow_nonzero. apply Rinv_neq_0_compat. now apply Rmult_integral_contrapositive_currified. Qed.

Lemma longer_problem : forall t n con b b' x x', t <> 0 -> (forall i, (i < n)%nat -> b' i = k * t * b i) -> (forall i, (i < n)%nat -> x' i = t * x i) ->
  (local_problem d (patch_points d order diffusion' (longer_patch L p)) n con b' x' <->
   local_problem d (patch_points d order diffusion p) n con b x).
Proof.
  intros t n con b b' x x' T B X. unfold local_problem, solves.
  assert (E : forall i, (i < n)%nat ->
    (mv n (constrain_matrix con (stiffness d (patch_points d order diffusion' (longer_patch L p)))) x' i = constrain_vector con b' i <->
     mv n (constrain_matrix con (stiffness d (patch_points d order diffusion p))) x i = constrain_vector con b i)).
  { intros i Li. unfold mv, constrain_matrix, constrain_vector. destruct (con i).
    - rewrite (rsum_ext n _ (fun j => t * ((if Nat.eqb i j then 1 else 0) * x j))) by (intros; rewrite X by auto; ring).
      rewrite rsum_scale. split; intros H.
      + apply Rmult_integral in H. tauto.
      + rewrite H. ring.
    - rewrite (rsum_ext n _ (fun j => (k * t) * (stiffness d (patch_points d order diffusion p) i j * x j)))
        by (intros; rewrite X, longer_stiffness by auto; ring).
      rewrite rsum_scale, B by auto. split; intros H; [|now rewrite H].
      apply Rmult_eq_reg_l in H; auto. apply Rmult_integral_contrapositive_currified; auto. exact k0. }
  split; intros H i Li; apply E; auto.
Qed.
End Local.

(** ** Coarse system *)
Section Coarse.
Variables (s t : R) (diffusion diffusion' : list R -> nat -> nat -> R) (source source' neumann neumann' : list R -> R).
Hypothesis s0 : s <> 0.
Hypothesis t0 : t <> 0.
Hypothesis Un : other_units L s t diffusion diffusion' source source' neumann neumann'.
Variables (ns : list nat) (hs : list R) (num : list nat -> nat) (n : nat) (con : nat -> bool) (pa : list nat -> patch).
Variable line : list (R * R).
Variable rquad : list nat -> list nat -> list (list R * R).
Variable fs : list nat -> list (cface (list R)).
Hypothesis Nu : numbering ns num n.

Let d := length ns.
Let k := s * L ^ d / (L * L).

Lemma boundary_longer : forall f (w w' : list R -> R), (forall x, w' x = w x) ->
  boundary_load _ neumann' (map (longer_face d L) f) w' = k * t * boundary_load _ neumann f w.
Proof.
  intros f w w' W. destruct Un as (_ & _ & N). unfold boundary_load.
  induction f as [|a f IH]; cbn [map filter longer_face cf_neumann]; [cbn; ring|].
  destruct (cf_neumann _ a); auto. cbn [lsum]. rewrite IH. cbn [longer_face cf_quad]. rewrite lsum_map. cbn [fst snd].
  rewrite Rmult_plus_distr_l. f_equal. rewrite <- lsum_scale. apply lsum_ext. intros q _. rewrite N, W.
  unfold k, Rdiv. rewrite Rinv_mult. ring.
Qed.

Section Result.
Hypothesis Le : forall cs, In cs (cells ns) -> length (pa_edges (pa cs)) = d.

Let el (p : list nat -> patch) (y : list nat -> nat -> nat -> R) cs f : local_cell (list R) :=
  {| lc_covered := pa_inside (p cs) f; lc_global := pa_global (p cs) f; lc_factor := fun _ => volume (pa_edges (p cs));
     lc_grad := fun i xs => grad (pa_edges (p cs)) (fun js => y cs i (pa_num (p cs) js)) f xs;
     lc_val := fun i xs => value (fun js => y cs i (pa_num (p cs) js)) f xs;
     lc_quad := product_rule line (length (pa_cells (p cs))); lc_rquad := rquad cs f |}.
Let pa' cs := longer_patch L (pa cs).
Let cell h (p : list nat -> patch) (y : list nat -> nat -> nat -> R) cs := box_cell h num cs (patch_elements (p cs) line (rquad cs) (y cs)).
Let fs' cs := map (longer_face d L) (fs cs).

Variables x : list nat -> nat -> nat -> R.
Let x' := other_locals t x.

Lemma units_covered : forall h p y cs (F : local_cell (list R) -> R),
  lsum (covered _ (cell h p y cs)) F = lsum (cells (pa_cells (p cs))) (fun f => if pa_inside (p cs) f then F (el p y cs f) else 0).
Proof.
  intros h p y cs F. unfold covered, cell. cbn [box_cell cc_locals]. rewrite lsum_filter. unfold patch_elements. rewrite lsum_map.
  apply lsum_ext. intros f _. reflexivity.
Qed.

Lemma value_times : forall a v cs xs, value (fun js => a * v js) cs xs = a * value v cs xs.
Proof.
  intros a v cs. revert v. induction cs as [|c cs IH]; intros v xs; [reflexivity|]. destruct xs as [|y xs]; [reflexivity|].
  cbn [value]. rewrite (IH (fun js => v (c :: js))), (IH (fun js => v (S c :: js))). ring.
Qed.
Lemma grad_times : forall a h v cs xs j, grad h (fun js => a * v js) cs xs j = a * grad h v cs xs j.
Proof.
  intros a h. induction h as [|b h IH]; intros v cs xs j; [cbn [grad]; ring|]. destruct cs as [|c cs]; [cbn [grad]; ring|].
  destruct xs as [|y xs]; [cbn [grad]; ring|]. destruct j as [|j]; cbn [grad].
  - rewrite (value_times a (fun js => v (S c :: js))), (value_times a (fun js => v (c :: js))). unfold Rdiv. ring.
  - rewrite (IH (fun js => v (c :: js))), (IH (fun js => v (S c :: js))). ring.
Qed.

Lemma units_test : forall a v cs f xs j,
  test_grad _ (fun i => a * v i) (cell (longer L hs) pa' x' cs) (el pa' x' cs f) xs j =
  a / L * test_grad _ v (cell hs pa x cs) (el pa x cs f) xs j.
Proof.
  intros a v cs f xs j. unfold test_grad, used_grad. cbn [cell box_cell cc_n cc_index cc_grad el lc_grad pa' longer_patch pa_edges pa_num].
  rewrite <- rsum_scale. apply rsum_ext. intros i Li. rewrite !longer_grad. unfold x', other_locals.
  destruct (Nat.ltb_spec i (length (corners cs))); [|lia]. unfold Rdiv. ring.
Qed.
Lemma units_test_val : forall v cs f xs,
  test_val _ v (cell (longer L hs) pa' x' cs) (el pa' x' cs f) xs = test_val _ v (cell hs pa x cs) (el pa x cs f) xs.
Proof.
  intros v cs f xs. unfold test_val, used_val. cbn [cell box_cell cc_n cc_index cc_val el lc_val pa' longer_patch pa_edges pa_num].
  apply rsum_ext. intros i Li. unfold x', other_locals. destruct (Nat.ltb_spec i (length (corners cs))); [reflexivity|lia].
Qed.
Lemma units_boundary : forall cs f xs j,
  boundary_grad _ (cell (longer L hs) pa' x' cs) (el pa' x' cs f) xs j = t / L * boundary_grad _ (cell hs pa x cs) (el pa x cs f) xs j.
Proof.
  intros cs f xs j. unfold boundary_grad. cbn [cell box_cell cc_n el lc_grad pa' longer_patch pa_edges pa_num].
  rewrite !longer_grad. unfold x', other_locals.
  destruct (Nat.ltb_spec (length (corners cs) + 1) (length (corners cs))); [lia|].
  destruct (Nat.ltb_spec (length (corners cs)) (length (corners cs))); [lia|].
  rewrite !grad_times. unfold Rdiv. ring.
Qed.

Lemma units_energy : forall cs f u v, In cs (cells ns) ->
  ms_energy d _ diffusion' (fun i => t * u i) (cell (longer L hs) pa' x' cs) (el pa' x' cs f)
    (test_grad _ v (cell (longer L hs) pa' x' cs) (el pa' x' cs f)) =
  k * t * ms_energy d _ diffusion u (cell hs pa x cs) (el pa x cs f) (test_grad _ v (cell hs pa x cs) (el pa x cs f)).
Proof.
  intros cs f u v I. destruct Un as (A & _ & _). unfold ms_energy. rewrite Rmult_plus_distr_l.
  assert (V : forall xs j, test_grad _ v (cell (longer L hs) pa' x' cs) (el pa' x' cs f) xs j = / L * test_grad _ v (cell hs pa x cs) (el pa x cs f) xs j).
  { intros xs j. transitivity (test_grad _ (fun i => 1 * v i) (cell (longer L hs) pa' x' cs) (el pa' x' cs f) xs j).
    - unfold test_grad. apply rsum_ext. intros. ring.
    - rewrite units_test. unfold Rdiv. ring. }
  f_equal; [unfold CoarseSpec.energy|unfold rhs_energy]; rewrite <- lsum_scale.
  - unfold el at 1. cbn [lc_quad]. apply lsum_ext. intros q _.
    rewrite (energy_term d s (t / L) (/ L) (diffusion (lc_global _ (el pa x cs f) (fst q))) _
      (test_grad _ u (cell hs pa x cs) (el pa x cs f) (fst q)) _ (test_grad _ v (cell hs pa x cs) (el pa x cs f) (fst q)) _).
    + cbn [el lc_factor pa' longer_patch pa_edges]. rewrite longer_volume, Le by auto. unfold k, Rdiv. rewrite Rinv_mult. ring.
    + intros i j. cbn [el lc_global pa' longer_patch pa_global]. apply A.
    + intros j _. apply units_test.
    + intros j _. apply V.
  - unfold el at 1. cbn [lc_rquad]. apply lsum_ext. intros q _.
    rewrite (energy_term d s (t / L) (/ L) (diffusion (lc_global _ (el pa x cs f) (fst q))) _
      (boundary_grad _ (cell hs pa x cs) (el pa x cs f) (fst q)) _ (test_grad _ v (cell hs pa x cs) (el pa x cs f) (fst q)) _).
    + cbn [el lc_factor pa' longer_patch pa_edges]. rewrite longer_volume, Le by auto. unfold k, Rdiv. rewrite Rinv_mult. ring.
    + intros i j. cbn [el lc_global pa' longer_patch pa_global]. apply A.
    + intros j _. apply units_boundary.
    + intros j _. apply V.
Qed.
Lemma units_load : forall cs f v, In cs (cells ns) ->
  load _ source' (el pa' x' cs f) (test_val _ v (cell (longer L hs) pa' x' cs) (el pa' x' cs f)) =
  k * t * load _ source (el pa x cs f) (test_val _ v (cell hs pa x cs) (el pa x cs f)).
Proof.
  intros cs f v I. destruct Un as (_ & S & _). unfold load. rewrite <- lsum_scale. unfold el at 1. cbn [lc_rquad]. apply lsum_ext. intros q _.
  rewrite units_test_val. cbn [el lc_factor lc_global pa' longer_patch pa_edges pa_global]. rewrite S, longer_volume, Le by auto.
  unfold k, Rdiv. rewrite Rinv_mult. ring.
Qed.

Lemma k1 : k <> 0.
Proof. unfold k, Rdiv. repeat apply Rmult_integral_contrapositive_currified; auto. now apply pow_nonzero. apply Rinv_neq_0_compat. now apply Rmult_integral_contrapositive_currified. Qed.

Lemma units_coarse : forall g u,
  coarse_solution d _ diffusion' source' neumann' n con (fun i => t * g i) (patched ns (longer L hs) num pa' line rquad x' fs') (fun i => t * u i) <->
  coarse_solution d _ diffusion source neumann n con g (patched ns hs num pa line rquad x fs) u.
Proof.
  intros g u.
  assert (W : forall h p y D S N F, exists r, walk d _ D S N (fun _ _ => 0) (fun _ => 0) (patched ns h num p line rquad y F) = Some r).
  { intros. apply walk_some. intros c a I. destruct (patched_in _ _ _ _ _ _ _ _ _ _ I) as (cs & _ & -> & _). reflexivity. }
  rewrite !weak_form by (auto; eapply patched_index; eauto).
  assert (P : forall h p y F G, lsum (patched ns h num p line rquad y F) G = lsum (cells ns) (fun cs => G (cell h p y cs, F cs))).
  { intros. unfold patched. now rewrite lsum_map. }
  assert (E : forall v, lsum (patched ns (longer L hs) num pa' line rquad x' fs') (fun cf => lsum (covered _ (fst cf)) (fun l =>
      ms_energy d _ diffusion' (fun i => t * u i) (fst cf) l (test_grad _ v (fst cf) l))) =
    k * t * lsum (patched ns hs num pa line rquad x fs) (fun cf => lsum (covered _ (fst cf)) (fun l =>
      ms_energy d _ diffusion u (fst cf) l (test_grad _ v (fst cf) l)))).
  { intros v. rewrite !P, <- lsum_scale. apply lsum_ext. intros cs I. cbn [fst]. rewrite !units_covered, <- lsum_scale. cbn [pa' longer_patch pa_cells pa_inside].
    apply lsum_ext. intros f _. destruct (pa_inside (pa cs) f); [now apply units_energy|ring]. }
  assert (E' : forall v, lsum (patched ns (longer L hs) num pa' line rquad x' fs') (fun cf => lsum (covered _ (fst cf)) (fun l =>
      load _ source' l (test_val _ v (fst cf) l)) + boundary_load _ neumann' (snd cf) (test_coarse _ v (fst cf))) =
    k * t * lsum (patched ns hs num pa line rquad x fs) (fun cf => lsum (covered _ (fst cf)) (fun l =>
      load _ source l (test_val _ v (fst cf) l)) + boundary_load _ neumann (snd cf) (test_coarse _ v (fst cf)))).
  { intros v. rewrite !P, <- lsum_scale. apply lsum_ext. intros cs I. cbn [fst snd]. rewrite !units_covered, Rmult_plus_distr_l, <- lsum_scale.
    cbn [pa' longer_patch pa_cells pa_inside]. f_equal.
    - apply lsum_ext. intros f _. destruct (pa_inside (pa cs) f); [now apply units_load|ring].
    - apply boundary_longer. reflexivity. }
  assert (K : k * t <> 0) by (apply Rmult_integral_contrapositive_currified; auto; exact k1).
  split; intros (B & H); split.
  - intros i Li Ci. apply Rmult_eq_reg_l with t; auto.
  - intros v V. specialize (H v V). rewrite E, E' in H. now apply Rmult_eq_reg_l in H.
  - intros i Li Ci. now rewrite (B i Li Ci).
  - intros v V. rewrite E, E'. now rewrite (H v V).
Qed.
End Result.

(** ** Reference solver *)
Section Fine.
Hypothesis Lh : length hs = d.
Variable global : list nat -> list R -> list R.
Variable quad : list (list R * R).
Variable rq : list nat -> list (list R * R).

Let fs' cs := map (longer_face d L) (fs cs).
Let grid := fine_boxes ns hs num global quad rq fs.
Let grid' := fine_boxes ns (longer L hs) num (fun cs x => longer L (global cs x)) quad rq fs'.

Lemma boxes_index : forall h G F c f i, In (c, f) (fine_boxes ns h num G quad rq F) -> (i < fc_n _ c)%nat -> (fc_index _ c i < n)%nat.
Proof.
  intros h G F c f i I Li. unfold fine_boxes in I. apply in_map_iff in I. destruct I as (cs & E & I). injection E as <- <-.
  cbn [fem_cell box_cell fc_n fc_index cc_n cc_index] in *. destruct Nu as (N & _). apply N. apply (corner_node _ cs); auto.
  now apply nth_In.
Qed.

Lemma units_fine : forall g start start' u,
  fem_solution d _ diffusion' source' neumann' n con (fun i => t * g i) start' grid' (fun i => t * u i) <->
  fem_solution d _ diffusion source neumann n con g start grid u.
Proof.
  intros g start start' u. destruct Un as (A & S & _).
  rewrite !fem_weak_form by (intros; eapply boxes_index; eauto).
  assert (E : forall v, lsum grid' (fun cf => fine_energy d _ diffusion' (fst cf) (fine_grad _ (fun i => t * u i) (fst cf)) (fine_grad _ v (fst cf))) =
    k * t * lsum grid (fun cf => fine_energy d _ diffusion (fst cf) (fine_grad _ u (fst cf)) (fine_grad _ v (fst cf)))).
  { intros v. unfold grid, grid', fine_boxes. rewrite !lsum_map, <- lsum_scale. apply lsum_ext. intros cs _. cbn [fst].
    unfold fine_energy. set (C := fem_cell (box_cell hs num cs []) _ _ _ _). set (C' := fem_cell (box_cell (longer L hs) num cs []) _ _ _ _).
    change (fc_quad _ C) with quad. change (fc_quad _ C') with quad. rewrite <- lsum_scale. apply lsum_ext. intros q _.
    rewrite (energy_term d s (t / L) (/ L) (diffusion (fc_global _ C (fst q))) _ (fine_grad _ u C (fst q)) _ (fine_grad _ v C (fst q)) _).
    - change (fc_factor _ C' (fst q)) with (volume (longer L hs)). change (fc_factor _ C (fst q)) with (volume hs).
      rewrite longer_volume, Lh. unfold k, Rdiv. rewrite Rinv_mult. ring.
    - intros i j. apply A.
    - intros j _. unfold fine_grad. cbn [C C' fem_cell fc_n fc_index fc_grad cc_n box_cell cc_index cc_grad]. rewrite <- rsum_scale. apply rsum_ext. intros i _.
      rewrite longer_grad. unfold Rdiv. ring.
    - intros j _. unfold fine_grad. cbn [C C' fem_cell fc_n fc_index fc_grad cc_n box_cell cc_index cc_grad]. rewrite <- rsum_scale. apply rsum_ext. intros i _.
      rewrite longer_grad. unfold Rdiv. ring. }
  assert (E' : forall v, lsum grid' (fun cf => fine_load _ source' (fst cf) (fine_val _ v (fst cf)) + boundary_load _ neumann' (snd cf) (fine_val _ v (fst cf))) =
    k * t * lsum grid (fun cf => fine_load _ source (fst cf) (fine_val _ v (fst cf)) + boundary_load _ neumann (snd cf) (fine_val _ v (fst cf)))).
  { intros v. unfold grid, grid', fine_boxes. rewrite !lsum_map, <- lsum_scale. apply lsum_ext. intros cs _. cbn [fst snd].
    rewrite Rmult_plus_distr_l. f_equal.
    - unfold fine_load. set (C := fem_cell (box_cell hs num cs []) _ _ _ _). set (C' := fem_cell (box_cell (longer L hs) num cs []) _ _ _ _).
      change (fc_rquad _ C) with (rq cs). change (fc_rquad _ C') with (rq cs). rewrite <- lsum_scale. apply lsum_ext. intros q _.
      change (fc_factor _ C' (fst q)) with (volume (longer L hs)). change (fc_factor _ C (fst q)) with (volume hs).
      change (fc_global _ C' (fst q)) with (longer L (fc_global _ C (fst q))).
      change (fine_val _ v C' (fst q)) with (fine_val _ v C (fst q)).
      rewrite longer_volume, Lh, S. unfold k, Rdiv. rewrite Rinv_mult. ring.
    - apply boundary_longer. reflexivity. }
  assert (K : k * t <> 0) by (apply Rmult_integral_contrapositive_currified; auto; exact k1).
  split; intros (B & H); split.
  - intros i Li Ci. apply Rmult_eq_reg_l with t; auto.
  - intros v V. specialize (H v V). rewrite E, E' in H. now apply Rmult_eq_reg_l in H.
  - intros i Li Ci. now rewrite (B i Li Ci).
  - intros v V. rewrite E, E'. now rewrite (H v V).
Qed.

Lemma units_flux : forall a, local_flux _ neumann' grid' a = k * t * local_flux _ neumann grid a.
Proof.
  intros a. destruct Un as (_ & _ & N). rewrite !local_flux_val. unfold sides, grid, grid', fine_boxes.
  rewrite !lsum_flat_map, !lsum_map, <- lsum_scale. apply lsum_ext. intros cs _.
  cbn [fst snd]. unfold fs'. rewrite map_map, !lsum_map, <- lsum_scale. apply lsum_ext. intros f _. cbn [fst snd].
  cbn [fem_cell fc_n cc_n box_cell fc_val cc_val longer_face cf_quad]. rewrite <- rsum_scale. apply rsum_ext. intros i _.
  rewrite lsum_map. cbn [fst snd]. 
  match goal with |- ?A * ?B = _ * (?A' * ?C) => change A' with A; transitivity (A * (k * t * C)); [|ring] end.
  f_equal. rewrite <- lsum_scale. apply lsum_ext. intros q _. rewrite N. unfold k, Rdiv. rewrite Rinv_mult. ring.
Qed.
End Fine.
End Coarse.
End Units.
