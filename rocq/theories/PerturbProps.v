(** Theorems about changes of the data: C121. *)
From Coq Require Import Reals List Arith Bool Lra Lia.
From Verif Require Import Util RSum BoundaryModel CoarseModel CoarseSpec LinModel LinSpec LinProofs.
From Verif Require Import SystemModel SystemSpec SystemProofs FemProofs QuadModel PatchSpec PatchProofs PatchProps SolveSpec SolveProofs SolveProps.
From Verif Require Import FemModel FemSpec EnergySpec EnergyProofs LayerSpec LayerProofs LayerProps WholeProps MaxSpec MaxProofs MaxProps.
From Verif Require Import BoundsSpec BoundsProofs BoundsProps InexactSpec InexactProofs InexactProps PerturbSpec PerturbProofs.
Import ListNotations.
Open Scope R_scope.

(** Reference solution on any grid: if the energies of the two diffusions differ
    by a fraction [delta], the solutions differ by no more than that fraction. *)
Theorem C121_reference_solution :
  forall d P delta diffusion diffusion' source neumann g start start' (grid : list (fcell P * list (cface P))) N con u u',
  (forall c fs i, In (c, fs) grid -> (i < fc_n P c)%nat -> (fc_index P c i < N)%nat) ->
  (forall c fs q, In (c, fs) grid -> In q (fc_quad P c) -> 0 <= fc_factor P c (fst q) * snd q) ->
  (forall y, near d delta (diffusion y) (diffusion' y)) -> 0 < delta ->
  fem_solution d P diffusion source neumann N con g start grid u ->
  fem_solution d P diffusion' source neumann N con g start' grid u' ->
  let energy := fun v => lsum grid (fun cf => fine_energy d P diffusion (fst cf) (fine_grad P v (fst cf)) (fine_grad P v (fst cf))) in
  energy (fun i => u i - u' i) <= delta * delta * energy u'.
Proof.
  intros d P delta diffusion diffusion' source neumann g start start' grid N con u u' Ix Po Ne Pd U U' energy.
  unfold energy. rewrite <- !(fem_form d P diffusion source neumann grid N) by auto.
  unfold fem_solution in U, U'. apply fem_bvp in U. apply fem_bvp in U'.
  apply (bvp_near N con delta _ (fst (fem_walk d P diffusion' source neumann grid)) (snd (fem_walk d P diffusion source neumann grid)) g); auto.
  - now apply fem_near.
  - intros i Li. specialize (U' i Li). destruct (con i); auto. rewrite U'.
    destruct (fem_walk_val d P diffusion source neumann grid) as (_ & B). destruct (fem_walk_val d P diffusion' source neumann grid) as (_ & B').
    rewrite B, B'. rewrite !lsum_bares. apply lsum_ext. intros (c, fs) _. apply rsum_ext. intros k _. f_equal. f_equal.
    apply lsum_ext. intros l Il. f_equal. destruct Il as [<-|[]].
    assert (Z : forall D f, rhs_energy d P D (bare_local P c) (fun x k => 0 - 0) f = 0).
    { intros D f. apply lsum_0. intros q _. unfold dot. rewrite rsum_0; [ring|]. intros k' _. unfold mv. rewrite rsum_0; [ring|]. intros; ring. }
    transitivity 0; [apply Z|symmetry; apply Z].
Qed.
Print Assumptions C121_reference_solution.

(** The corrections of a local problem on grids of boxes, whatever nodes are
    constrained; [y]: node values of the function to be corrected. *)
Theorem C121_corrections : forall d order rhs_order delta diffusion diffusion' p y x x',
  sound d p -> (2 <= gauss_points order <= 3)%nat ->
  (forall z, near d delta (diffusion z) (diffusion' z)) -> 0 < delta ->
  same_energies d [order; rhs_order] diffusion p -> same_energies d [order; rhs_order] diffusion' p ->
  corrector d (patch_points d order diffusion p) (patch_points d rhs_order diffusion p) (pa_n p) (pa_con p) (field_of (pa_n p) y) x ->
  corrector d (patch_points d order diffusion' p) (patch_points d rhs_order diffusion' p) (pa_n p) (pa_con p) (field_of (pa_n p) y) x' ->
  let energy := fun v => LinSpec.energy d (patch_points d order diffusion p) (field_of (pa_n p) v) (field_of (pa_n p) v) in
  energy (fun i => x i - x' i) <= delta * delta * energy (fun i => y i + x' i).
Proof.
  intros d order rhs_order delta diffusion diffusion' p y x x' So Oo Ne Pd Se Se' C C' energy.
  apply corrected_bvp in C; [|intros m _; apply Se; cbn; auto]. apply corrected_bvp in C'; [|intros m _; apply Se'; cbn; auto].
  pose proof (bvp_near (pa_n p) (pa_con p) delta _ _ _ _ _ _ (patch_near d order delta diffusion diffusion' p So Oo Ne Pd) Pd C C') as H.
  rewrite !stiffness_energy in H. unfold energy. eapply Rle_trans; [apply Req_le|exact H].
  apply energy_field_ext; intros q k _ _; unfold field_of; apply rsum_ext; intros; ring.
Qed.
Print Assumptions C121_corrections.

(** The coarse matrix without oversampling on linear functions. *)
Theorem C121_coarse_matrix :
  forall ns hs num n delta diffusion diffusion' order rhs_order o pa rquad x x' fs source neumann M V M' V' ss v u,
  length hs = length ns -> Forall (Rlt 0) hs -> length ss = length ns -> numbering ns num n ->
  (forall y, near (length ns) delta (diffusion y) (diffusion' y)) -> 0 < delta <= 1 ->
  (2 <= gauss_points order <= 3)%nat -> (2 <= gauss_points o <= 3)%nat ->
  (forall cs, In cs (cells ns) -> sound (length ns) (pa cs) /\ (forall f, pa_inside (pa cs) f = true) /\
     same_energies (length ns) [order; rhs_order; o] diffusion (pa cs) /\
     same_energies (length ns) [order; rhs_order; o] diffusion' (pa cs) /\
     corrected hs num diffusion order rhs_order (pa cs) cs (x cs) /\
     corrected hs num diffusion' order rhs_order (pa cs) cs (x' cs)) ->
  linear ss v -> (forall js, node ns js -> u (num js) = v js) ->
  walk (length ns) (list R) diffusion source neumann (fun _ _ => 0) (fun _ => 0)
    (patched ns hs num pa (line_rule (gauss_points o)) rquad x fs) = Some (M, V) ->
  walk (length ns) (list R) diffusion' source neumann (fun _ _ => 0) (fun _ => 0)
    (patched ns hs num pa (line_rule (gauss_points o)) rquad x' fs) = Some (M', V') ->
  (1 - delta) * qform n M u <= qform n M' u <= (1 + delta) * qform n M u.
Proof.
  intros ns hs num n delta diffusion diffusion' order rhs_order o pa rquad x x' fs source neumann M V M' V' ss v u Lh Fh Ls Nu Ne Pd Og Oo H Lv Uv W W'.
  assert (Hp : forall cs, In cs (cells ns) -> sound (length ns) (pa cs) /\ forall f, pa_inside (pa cs) f = true).
  { intros cs I. destruct (H cs I) as (So & In_ & _). auto. }
  assert (Sn : forall y, symmetric_nonnegative (length ns) (diffusion y)).
  { intros y. split; [apply (Ne y)|]. intros z. now apply (near_nonneg _ delta _ (diffusion' y)). }
  assert (Sn' : forall y, symmetric_nonnegative (length ns) (diffusion' y)).
  { intros y. split; [apply (Ne y)|]. intros z. pose proof (near_range _ _ _ _ z (Ne y)) as (R1 & _).
    pose proof (proj2 (Sn y) z) as Pz. pose proof (Rmult_le_pos (1 - delta) _ ltac:(lra) Pz). lra. }
  rewrite (coarse_form ns hs num n diffusion o pa rquad x fs source neumann M V ss v u) by auto.
  rewrite (coarse_form ns hs num n diffusion' o pa rquad x' fs source neumann M' V' ss v u) by auto.
  rewrite <- !lsum_scale.
  set (g := fun k => nth k ss 0 / nth k hs 1).
  assert (Cf : forall cs X, In cs (cells ns) ->
    (1 - delta) * cell_form (length ns) o diffusion g (pa cs) X <= cell_form (length ns) o diffusion' g (pa cs) X <=
    (1 + delta) * cell_form (length ns) o diffusion g (pa cs) X).
  { intros cs X I. destruct (Hp cs I) as (So & _). destruct So as (_ & _ & _ & _ & Fe & _). pose proof (volume_pos _ Fe) as Pv.
    unfold cell_form. set (F := fun D : list R -> nat -> nat -> R => bsum (pa_cells (pa cs)) (line_rule (gauss_points o)) (fun f xs =>
      dot (length ns) (mv (length ns) (D (pa_global (pa cs) f xs)) (sloped (length ns) g (pa cs) X f xs)) (sloped (length ns) g (pa cs) X f xs))).
    assert (B : (1 - delta) * F diffusion <= F diffusion' <= (1 + delta) * F diffusion).
    { unfold F. rewrite <- !bsum_scale. split; apply bsum_le; try (now apply gauss_positive); intros; apply (near_range _ delta); auto. }
    change ((1 - delta) * (volume (pa_edges (pa cs)) * F diffusion) <= volume (pa_edges (pa cs)) * F diffusion' <= (1 + delta) * (volume (pa_edges (pa cs)) * F diffusion)).
    nra. }
  split; apply lsum_le; intros cs I; destruct (H cs I) as (So & In_ & Se & Se' & Co & Co').
  - eapply Rle_trans; [|apply (Cf cs _ I)]. apply Rmult_le_compat_l; [lra|].
    set (z := fun i => rsum (length (corners cs)) (fun m => u (num (nth m (corners cs) [])) * x' cs m i)).
    change (added_part num (pa cs) cs (x' cs) u) with (nodal (pa_num (pa cs)) z).
    apply (cell_minimal ns hs num n diffusion order rhs_order o (pa cs) cs (x cs) u ss) with (v := v) (z := z); auto.
    intros i Li Ci. apply (added_vanishes hs num diffusion' order rhs_order (pa cs)); auto.
  - eapply Rle_trans; [|apply (Cf cs _ I)].
    set (z := fun i => rsum (length (corners cs)) (fun m => u (num (nth m (corners cs) [])) * x cs m i)).
    change (added_part num (pa cs) cs (x cs) u) with (nodal (pa_num (pa cs)) z).
    apply (cell_minimal ns hs num n diffusion' order rhs_order o (pa cs) cs (x' cs) u ss) with (v := v) (z := z); auto.
    intros i Li Ci. apply (added_vanishes hs num diffusion order rhs_order (pa cs)); auto.
Qed.
Print Assumptions C121_coarse_matrix.

(** Change of source and prescribed flux: the reference solution on a grid of
    boxes. *)
Theorem C121_source : forall ns hs num n diffusion global order rquad fs con source source' neumann neumann' g start start' alpha a e u u',
  length hs = length ns -> Forall (fun m => (0 < m)%nat) ns -> Forall (Rlt 0) hs -> numbering ns num n ->
  (2 <= gauss_points order <= 3)%nat -> 0 < alpha -> (forall x, at_least (length ns) alpha (diffusion x)) ->
  layer_constrained ns num con a e ->
  let grid := fine_boxes ns hs num global (cube_rule (length ns) order) rquad fs in
  fem_solution (length ns) (list R) diffusion source neumann n con g start grid u ->
  fem_solution (length ns) (list R) diffusion source' neumann' n con g start' grid u' ->
  let b := snd (fem_walk (length ns) (list R) diffusion source neumann grid) in
  let b' := snd (fem_walk (length ns) (list R) diffusion source' neumann' grid) in
  let c := stiffness_bound ns hs alpha a in
  squares n (fun i => u' i - u i) <= squares n (fun i => b' i - b i) / (c * c).
Proof.
  intros ns hs num n diffusion global order rquad fs con source source' neumann neumann' g start start' alpha a e u u' Lh Fn Fh Nu Oo Pa Al Lc grid U U' b b' c.
  unfold fem_solution in U'. apply fem_bvp in U'. fold b' in U'.
  eapply Rle_trans; [apply (C120_reference_residual ns hs num n diffusion global order rquad fs con source neumann g start alpha a e u u'); auto|].
  - intros i Li Ci. specialize (U' i Li). now rewrite Ci in U'.
  - fold grid. fold b. fold c. assert (Pc : 0 < c) by (apply stiffness_bound_pos; auto; apply Lc).
    assert (0 < c * c) by now apply Rmult_lt_0_compat. unfold Rdiv. apply Rmult_le_compat_r; [left; now apply Rinv_0_lt_compat|].
    apply SampleProofs.rsum_le. intros i Li. specialize (U' i Li). unfold residual. destruct (con i).
    + rewrite Rmult_0_l. apply Rle_0_sqr.
    + assert (E : rsum n (fun j => fst (fem_walk (length ns) (list R) diffusion source neumann grid) i j * u' j) = b' i).
      { rewrite <- U'. apply rsum_ext. intros j _. f_equal. rewrite !(proj1 (fem_walk_val _ _ _ _ _ _)). reflexivity. }
      rewrite E. right. ring.
Qed.
Print Assumptions C121_source.

(** With boundary values zero: a larger diffusion gives a smaller response (the
    load applied to the solution), however much larger. *)
Theorem C121_larger_diffusion_smaller_response :
  forall d P diffusion diffusion' source neumann g start start' (grid : list (fcell P * list (cface P))) N con u u',
  (forall c fs i, In (c, fs) grid -> (i < fc_n P c)%nat -> (fc_index P c i < N)%nat) ->
  (forall c fs q, In (c, fs) grid -> In q (fc_quad P c) -> 0 <= fc_factor P c (fst q) * snd q) ->
  (forall y, symmetric_nonnegative d (diffusion y)) ->
  (forall y z, dot d (mv d (diffusion y) z) z <= dot d (mv d (diffusion' y) z) z) ->
  (forall i, (i < N)%nat -> con i = true -> g i = 0) ->
  fem_solution d P diffusion source neumann N con g start grid u ->
  fem_solution d P diffusion' source neumann N con g start' grid u' ->
  let response := fun v => lsum grid (fun cf => fine_load P source (fst cf) (fine_val P v (fst cf)) + boundary_load P neumann (snd cf) (fine_val P v (fst cf))) in
  response u' <= response u.
Proof.
  intros d P diffusion diffusion' source neumann g start start' grid N con u u' Ix Po Sn Le G U U' response.
  apply fem_weak_form in U; auto. apply fem_weak_form in U'; auto. destruct U as (Bu & Wu). destruct U' as (Bu' & Wu').
  assert (Zu : forall i, (i < N)%nat -> con i = true -> u i = 0) by (intros; rewrite Bu; auto).
  assert (Zu' : forall i, (i < N)%nat -> con i = true -> u' i = 0) by (intros; rewrite Bu'; auto).
  pose proof (Wu u Zu) as E1. pose proof (Wu u' Zu') as E2. pose proof (Wu' u' Zu') as E3. fold (response u) in E1. fold (response u') in E2, E3.
  assert (E4 : lsum grid (fun cf => fine_energy d P diffusion (fst cf) (fine_grad P u' (fst cf)) (fine_grad P u' (fst cf))) <= response u').
  { rewrite <- E3. apply lsum_le. intros (c, fs) I. cbn [fst]. apply lsum_le. intros q Q. apply Rmult_le_compat_l; eauto. }
  assert (S : forall v w, lsum grid (fun cf => fine_energy d P diffusion (fst cf) (fine_grad P v (fst cf)) (fine_grad P w (fst cf))) =
    dot N (mv N (fst (fem_walk d P diffusion source neumann grid)) v) w) by (intros; symmetry; now apply fem_form).
  rewrite S in E1, E2, E4.
  assert (Sy : symmetric N (fst (fem_walk d P diffusion source neumann grid))).
  { apply form_symmetric. intros v w. rewrite <- !S. apply lsum_ext. intros cf _. apply lsum_ext. intros q _. f_equal. apply dot_sym_mv. apply Sn. }
  pose proof (form_square N _ u u' (-1) Sy) as F. rewrite <- S in F.
  assert (0 <= lsum grid (fun cf => fine_energy d P diffusion (fst cf) (fine_grad P (fun i => u i + -1 * u' i) (fst cf)) (fine_grad P (fun i => u i + -1 * u' i) (fst cf)))).
  { apply lsum_nonneg. intros (c, fs) I. cbn [fst]. apply lsum_nonneg. intros q Q. apply Rmult_le_pos; [eauto|apply Sn]. }
  lra.
Qed.
Print Assumptions C121_larger_diffusion_smaller_response.

(** The stripes of C119, one tenth more in the first direction and one tenth
    less in the second one. *)
Definition skewed (x : list R) : nat -> nat -> R := crossed (fun k => (if Nat.eqb k 0 then 11/10 else 9/10) * stripes x k k).
Lemma skewed_near : forall y, near 2 (1/10) (stripes y) (skewed y).
Proof.
  intros y. unfold near. split; [|split].
  - intros i j _ _. unfold stripes, crossed. rewrite (Nat.eqb_sym j i). destruct (Nat.eqb_spec i j); auto; subst.
  - intros i j _ _. unfold skewed, crossed. rewrite (Nat.eqb_sym j i). destruct (Nat.eqb_spec i j); auto; now subst.
  - intros z. assert (S : 0 < match y with t :: _ => stripe t | [] => 1 end) by (destruct y; [lra|apply stripe_positive]).
    unfold skewed, stripes, dot, mv, crossed. cbn [rsum Nat.eqb]. set (s := match y with t :: _ => stripe t | [] => 1 end) in *.
    pose proof (Rle_0_sqr (z 0%nat)). pose proof (Rle_0_sqr (z 1%nat)). unfold Rsqr in *. apply Rabs_le. nra.
Qed.
Lemma skewed_positive : forall x, positive 2 (skewed x).
Proof.
  intros x. apply crossed_positive. intros k _. assert (S : 0 < stripes x k k).
  { unfold stripes, crossed. rewrite Nat.eqb_refl. destruct x; [lra|apply stripe_positive]. }
  destruct (Nat.eqb k 0); nra.
Qed.
Lemma stripes_agree : forall cs, In cs (cells [2; 2]%nat) -> same_energies 2 [2; 3; 4]%nat stripes (exact_patch outer9 cs).
Proof.
  intros cs I. apply C119_quadratures_agree. left. exists (fun f => crossed (fun _ => halves f)). split; [apply exact_sound|]. split.
  - intros f xs i j If L F Li Lj. unfold crossed. destruct (Nat.eqb_spec i j) as [->|N].
    + now apply stripes_halves.
    + unfold stripes, crossed. destruct (Nat.eqb_spec i j); [congruence|reflexivity].
  - intros o [<-|[<-|[<-|[]]]]; lia.
Qed.
Lemma skewed_agree : forall cs, In cs (cells [2; 2]%nat) -> same_energies 2 [2; 3; 4]%nat skewed (exact_patch outer9 cs).
Proof.
  intros cs I. apply C119_quadratures_agree. left. exists (fun f => crossed (fun k => (if Nat.eqb k 0 then 11/10 else 9/10) * halves f)). split; [apply exact_sound|]. split.
  - intros f xs i j If L F Li Lj. unfold skewed, crossed. destruct (Nat.eqb_spec i j) as [->|N]; [|reflexivity].
    f_equal. now apply stripes_halves.
  - intros o [<-|[<-|[<-|[]]]]; lia.
Qed.

Example C121_case : exists x x' M V M' V',
  (forall cs, In cs (cells [2; 2]%nat) -> corrected half num3 stripes 2 3 (exact_patch outer9 cs) cs (x cs) /\
     corrected half num3 skewed 2 3 (exact_patch outer9 cs) cs (x' cs)) /\
  walk 2 (list R) stripes (fun _ => 0) (fun _ => 0) (fun _ _ => 0) (fun _ => 0)
    (patched [2; 2]%nat half num3 (exact_patch outer9) (line_rule 3) (fun _ _ => []) x (fun _ => [])) = Some (M, V) /\
  walk 2 (list R) skewed (fun _ => 0) (fun _ => 0) (fun _ _ => 0) (fun _ => 0)
    (patched [2; 2]%nat half num3 (exact_patch outer9) (line_rule 3) (fun _ _ => []) x' (fun _ => [])) = Some (M', V') /\
  27/20 <= qform 9 M' (fun i => INR (i mod 3) / 2) <= 11/5.
Proof.
  destruct C119_case as (x & M & V & X & W & B).
  assert (E : exists x, forall cs, In cs (cells [2; 2]%nat) -> corrected half num3 skewed 2 3 (exact_patch outer9 cs) cs (x cs)).
  { apply (choose_cells [2; 2]%nat (fun cs x => corrected half num3 skewed 2 3 (exact_patch outer9 cs) cs x)). intros cs I. apply patch_corrected; auto using exact_sound, skewed_positive; cbn; lia. }
  destruct E as (x' & X').
  assert (W' : exists r, walk 2 (list R) skewed (fun _ => 0) (fun _ => 0) (fun _ _ => 0) (fun _ => 0)
    (patched [2; 2]%nat half num3 (exact_patch outer9) (line_rule 3) (fun _ _ => []) x' (fun _ => [])) = Some r).
  { apply walk_some. intros c f I. destruct (patched_in _ _ _ _ _ _ _ _ _ _ I) as (cs & J & -> & _). reflexivity. }
  destruct W' as ((M', V') & W'). exists x, x', M, V, M', V'. split; [auto|]. split; [exact W|]. split; [exact W'|].
  pose proof (C121_coarse_matrix [2; 2]%nat half num3 9 (1/10) stripes skewed 2 3 4 (exact_patch outer9) (fun _ _ => []) x x' (fun _ => [])
    (fun _ => 0) (fun _ => 0) M V M' V' [1/2; 0] (fun js => INR (nth 0 js 0%nat) / 2) (fun i => INR (i mod 3) / 2)) as T.
  enough ((1 - 1/10) * qform 9 M (fun i => INR (i mod 3) / 2) <= qform 9 M' (fun i => INR (i mod 3) / 2) <= (1 + 1/10) * qform 9 M (fun i => INR (i mod 3) / 2)) by lra.
  apply T; auto using half_pos, num3_numbering, skewed_near; try (cbn; lia); try lra.
  - intros cs I. split; [apply exact_sound|]. split; [reflexivity|]. split; [now apply stripes_agree|]. split; [now apply skewed_agree|]. auto.
  - cbn [linear]. split; [split; [exact I|]|]; intros; cbn [nth]; [cbn; lra|]. cbn [INR]. lra.
  - intros js Nj. inversion Nj as [|a ? ? ? La T2]; subst. inversion T2 as [|b ? ? ? Lb T']; subst. inversion T'; subst.
    cbn [num3 nth]. f_equal. f_equal. rewrite (Nat.mul_comm 3). rewrite Nat.mod_add by lia. apply Nat.mod_small. lia.
Qed.

(** Reference solutions for both diffusions, and for another source. *)
Example C121_reference_case : exists u u' w,
  let grid := fine_boxes [2; 2]%nat half num3 (fun _ x => x) (cube_rule 2 2) (fun _ => cube_rule 2 2) (fun _ => []) in
  fem_solution 2 (list R) stripes (fun _ => 1) (fun _ => 0) 9 outer9 (fun _ => 0) (fun _ => 0) grid u /\
  fem_solution 2 (list R) skewed (fun _ => 1) (fun _ => 0) 9 outer9 (fun _ => 0) (fun _ => 0) grid u' /\
  fem_solution 2 (list R) stripes (fun _ => 2) (fun _ => 0) 9 outer9 (fun _ => 0) (fun _ => 0) grid w /\
  (let energy := fun v => lsum grid (fun cf => fine_energy 2 (list R) stripes (fst cf) (fine_grad (list R) v (fst cf)) (fine_grad (list R) v (fst cf))) in
   energy (fun i => u i - u' i) <= / 100 * energy u') /\
  squares 9 (fun i => w i - u i) <= 576 * squares 9 (fun i => snd (fem_walk 2 (list R) stripes (fun _ => 2) (fun _ => 0) grid) i - snd (fem_walk 2 (list R) stripes (fun _ => 1) (fun _ => 0) grid) i).
Proof.
  pose proof half_pos as Fh. pose proof twos as Fn. pose proof num3_numbering as Nu.
  assert (C : exists i, (i < 9)%nat /\ outer9 i = true) by (exists 0%nat; split; [lia|reflexivity]).
  assert (T : two_points (line_rule 2)) by apply two_gauss.
  destruct (C110_reference_solution_exists_once [2; 2]%nat half num3 9 stripes (fun _ x => x) (line_rule 2) (fun _ => cube_rule 2 2) (fun _ => []) outer9 (fun _ => 1) (fun _ => 0) (fun _ => 0) (fun _ => 0)) as ((u & U) & _); auto using stripes_positive.
  destruct (C110_reference_solution_exists_once [2; 2]%nat half num3 9 skewed (fun _ x => x) (line_rule 2) (fun _ => cube_rule 2 2) (fun _ => []) outer9 (fun _ => 1) (fun _ => 0) (fun _ => 0) (fun _ => 0)) as ((u' & U') & _); auto using skewed_positive.
  destruct (C110_reference_solution_exists_once [2; 2]%nat half num3 9 stripes (fun _ x => x) (line_rule 2) (fun _ => cube_rule 2 2) (fun _ => []) outer9 (fun _ => 2) (fun _ => 0) (fun _ => 0) (fun _ => 0)) as ((w & Uw) & _); auto using stripes_positive.
  exists u, u', w. intros grid. split; [exact U|]. split; [exact U'|]. split; [exact Uw|]. split.
  - intros energy. pose proof (C121_reference_solution 2 (list R) (1/10) stripes skewed (fun _ => 1) (fun _ => 0) (fun _ => 0) (fun _ => 0) (fun _ => 0) grid 9 outer9 u u') as H.
    replace (/ 100) with (1/10 * (1/10)) by lra. apply H; auto using skewed_near; try lra.
    + intros c f i I L. apply (fine_index [2; 2]%nat half num3 9 (fun _ x => x) (line_rule 2) (fun _ => cube_rule 2 2) (fun _ => []) Nu c f i I L).
    + intros c f q I Q. apply in_map_iff in I. destruct I as (cs & E & I). injection E as <- <-. cbn [fem_cell fc_quad fc_factor] in *.
      apply Rmult_le_pos; [lra|]. left. apply (rule_positive (line_rule 2) 2); [apply T|exact Q].
  - pose proof (C121_source [2; 2]%nat half num3 9 stripes (fun _ x => x) 2 (fun _ => cube_rule 2 2) (fun _ => []) outer9 (fun _ => 1) (fun _ => 2) (fun _ => 0) (fun _ => 0) (fun _ => 0) (fun _ => 0) (fun _ => 0) 1 0 2 u w) as H.
    cbv zeta in H. change (length [2; 2]%nat) with 2%nat in H. fold grid in H.
    replace (stiffness_bound [2; 2]%nat half 1 0) with (/ 24) in H by (unfold stiffness_bound, half; cbn; field).
    replace 576 with (/ (/ 24 * / 24)) by lra. rewrite Rmult_comm. apply H; auto using stripes_at_least; try (cbn; lia); try lra.
    apply (outer9_layer [0; 0]%nat).
Qed.
