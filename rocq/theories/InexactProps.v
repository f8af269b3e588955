(** Theorems about linear systems that are not solved exactly: C120. *)
From Coq Require Import Reals List Arith Bool Lra Lia.
From Verif Require Import Util RSum BoundaryModel CoarseModel CoarseSpec LinModel LinSpec LinProofs.
From Verif Require Import SystemModel SystemSpec SystemProofs QuadModel PatchSpec PatchProofs PatchProps SolveSpec SolveProofs SolveProps.
From Verif Require Import FemModel EnergySpec EnergyProofs LayerSpec LayerProofs LayerProps WholeProps MaxSpec MaxProofs MaxProps.
From Verif Require Import BoundsSpec BoundsProofs BoundsProps InexactSpec InexactProofs.
Import ListNotations.
Open Scope R_scope.

(** Reference and coarse system: [w] takes the boundary values, but leaves a
    residual in the other equations. *)
Theorem C120_residual_bounds_the_error : forall n con A c b g start u w, 0 < c ->
  (forall v, vanishes n con v -> c * squares n v <= rsum n (fun i => rsum n (fun j => A i j * v j * v i))) ->
  fem_apply n con A b g start u \/ coarse_apply n con A b g u ->
  (forall i, (i < n)%nat -> con i = true -> w i = g i) ->
  let e := fun i => w i - u i in
  let r := residual n con A b w in
  c * rsum n (fun i => rsum n (fun j => A i j * e j * e i)) <= squares n r /\ c * c * squares n e <= squares n r.
Proof.
  intros n con A c b g start u w Pc Lo U W e r.
  assert (B : solves_bvp n con A b g u) by (destruct U as [U|U]; [now apply fem_bvp in U|now apply coarse_bvp in U]).
  destruct (bvp_error n con A b g u w B W) as (Ve & Eq). rewrite quad_dot. apply (error_bound n con); auto.
  intros v V. rewrite <- quad_dot. auto.
Qed.
Print Assumptions C120_residual_bounds_the_error.

(** On a grid of boxes with all nodes of one layer constrained, the energy
    bounds the node values; the constant is explicit. *)
Theorem C120_energy_bounds_node_values : forall d order diffusion p alpha a e y,
  sound d p -> (2 <= gauss_points order <= 3)%nat -> 0 < alpha -> (forall x, at_least d alpha (diffusion x)) ->
  layer_constrained (pa_cells p) (pa_num p) (pa_con p) a e -> vanishes (pa_n p) (pa_con p) y ->
  0 < stiffness_bound (pa_cells p) (pa_edges p) alpha a /\
  stiffness_bound (pa_cells p) (pa_edges p) alpha a * squares (pa_n p) y <=
  LinSpec.energy d (patch_points d order diffusion p) (field_of (pa_n p) y) (field_of (pa_n p) y).
Proof.
  intros d order diffusion p alpha a e y So Oo Pa Al Lc Vy. split; [|now apply (patch_bound d order diffusion p alpha a e)].
  destruct So as (Ld & Le & Ll & Fc & Fe & Nu). apply stiffness_bound_pos; auto; [congruence|apply Lc].
Qed.
Print Assumptions C120_energy_bounds_node_values.

(** The reference system on a grid of boxes. *)
Theorem C120_reference_residual :
  forall ns hs num n diffusion global order rquad fs con source neumann g start alpha a e u w,
  length hs = length ns -> Forall (fun m => (0 < m)%nat) ns -> Forall (Rlt 0) hs -> numbering ns num n ->
  (2 <= gauss_points order <= 3)%nat -> 0 < alpha -> (forall x, at_least (length ns) alpha (diffusion x)) ->
  layer_constrained ns num con a e ->
  let grid := fine_boxes ns hs num global (cube_rule (length ns) order) rquad fs in
  fem_solution (length ns) (list R) diffusion source neumann n con g start grid u ->
  (forall i, (i < n)%nat -> con i = true -> w i = g i) ->
  let A := fst (fem_walk (length ns) (list R) diffusion source neumann grid) in
  let b := snd (fem_walk (length ns) (list R) diffusion source neumann grid) in
  let c := stiffness_bound ns hs alpha a in
  squares n (fun i => w i - u i) <= squares n (residual n con A b w) / (c * c).
Proof.
  intros ns hs num n diffusion global order rquad fs con source neumann g start alpha a e u w Lh Fn Fh Nu Oo Pa Al Lc grid U W A b c.
  assert (Pc : 0 < c) by (apply stiffness_bound_pos; auto; apply Lc).
  destruct (C120_residual_bounds_the_error n con A c b g start u w Pc) as (_ & H); auto.
  - intros v V. rewrite quad_dot. apply (fine_bound ns hs num n diffusion global (line_rule (gauss_points order)) rquad fs con source neumann alpha a e); auto using gauss_moments, gauss_positive.
  - cbv zeta in H. assert (0 < c * c) by now apply Rmult_lt_0_compat.
    apply (Rmult_le_reg_l (c * c)); auto. replace (c * c * (squares n (residual n con A b w) / (c * c))) with (squares n (residual n con A b w)) by (field; lra).
    exact H.
Qed.
Print Assumptions C120_reference_residual.

(** A local problem, whatever its right hand side. *)
Theorem C120_local_residual : forall d order diffusion p alpha a e b x w,
  sound d p -> (2 <= gauss_points order <= 3)%nat -> 0 < alpha -> (forall x, at_least d alpha (diffusion x)) ->
  layer_constrained (pa_cells p) (pa_num p) (pa_con p) a e ->
  let qs := patch_points d order diffusion p in
  local_problem d qs (pa_n p) (pa_con p) b x -> vanishes (pa_n p) (pa_con p) w ->
  let r := residual (pa_n p) (pa_con p) (stiffness d qs) b w in
  let c := stiffness_bound (pa_cells p) (pa_edges p) alpha a in
  let difference := field_of (pa_n p) (fun i => w i - x i) in
  LinSpec.energy d qs difference difference <= squares (pa_n p) r / c /\
  squares (pa_n p) (fun i => w i - x i) <= squares (pa_n p) r / (c * c).
Proof.
  intros d order diffusion p alpha a e b x w So Oo Pa Al Lc qs X W r c difference.
  assert (Pc : 0 < c).
  { apply (C120_energy_bounds_node_values d order diffusion p alpha a e (fun _ => 0)); auto. intros i _ _. reflexivity. }
  apply corrector_bvp in X. destruct (bvp_error _ _ _ _ _ _ w X) as (Ve & Eq).
  { intros i Li Ci. apply (W i Li Ci). }
  destruct (error_bound (pa_n p) (pa_con p) (stiffness d qs) c (fun i => w i - x i) r) as (H1 & H2); auto.
  { intros v V. rewrite stiffness_energy. now apply (patch_bound d order diffusion p alpha a e). }
  rewrite stiffness_energy in H1. fold difference in H1. assert (0 < c * c) by now apply Rmult_lt_0_compat. split.
  - apply (Rmult_le_reg_l c); auto. replace (c * (squares (pa_n p) r / c)) with (squares (pa_n p) r) by (field; lra). exact H1.
  - apply (Rmult_le_reg_l (c * c)); auto. replace (c * c * (squares (pa_n p) r / (c * c))) with (squares (pa_n p) r) by (field; lra). exact H2.
Qed.
Print Assumptions C120_local_residual.

(** Products of inexactly corrected functions: the error is the product of the
    two errors, so of second order. *)
Theorem C120_errors_enter_squared : forall d qs rs n con f f' x x' z z',
  (forall q, In q qs -> forall i j, (i < d)%nat -> (j < d)%nat -> q_A q i j = q_A q j i) ->
  same_products d qs rs n con f -> same_products d qs rs n con f' ->
  corrector d qs rs n con f x -> corrector d qs rs n con f' x' -> vanishes n con z -> vanishes n con z' ->
  LinSpec.energy d qs (plus f (field_of n z)) (plus f' (field_of n z')) =
  LinSpec.energy d qs (plus f (field_of n x)) (plus f' (field_of n x')) +
  LinSpec.energy d qs (field_of n (fun i => z i - x i)) (field_of n (fun i => z' i - x' i)).
Proof. intros. now apply (corrector_gap d qs rs n con). Qed.
Print Assumptions C120_errors_enter_squared.

(** The coarse matrix assembled from inexact local solutions, on linear
    functions: never too small, and too large by no more than the squares of the
    residuals. *)
Theorem C120_coarse_matrix_error :
  forall ns hs num n diffusion order rhs_order o pa rquad x x' r fs source neumann M V M' V' ss v u alpha a e,
  length hs = length ns -> Forall (Rlt 0) hs -> length ss = length ns -> numbering ns num n -> 0 < alpha ->
  (forall y, at_least (length ns) alpha (diffusion y)) ->
  (forall y i j, (i < length ns)%nat -> (j < length ns)%nat -> diffusion y i j = diffusion y j i) ->
  (2 <= gauss_points order <= 3)%nat ->
  (forall cs, In cs (cells ns) -> sound (length ns) (pa cs) /\ (forall f, pa_inside (pa cs) f = true) /\
     same_energies (length ns) [order; rhs_order; o] diffusion (pa cs) /\
     layer_constrained (pa_cells (pa cs)) (pa_num (pa cs)) (pa_con (pa cs)) (a cs) (e cs) /\
     corrected hs num diffusion order rhs_order (pa cs) cs (x cs) /\
     nearly_corrected hs num diffusion order rhs_order (pa cs) cs (x' cs) (r cs)) ->
  linear ss v -> (forall js, node ns js -> u (num js) = v js) ->
  walk (length ns) (list R) diffusion source neumann (fun _ _ => 0) (fun _ => 0)
    (patched ns hs num pa (line_rule (gauss_points o)) rquad x fs) = Some (M, V) ->
  walk (length ns) (list R) diffusion source neumann (fun _ _ => 0) (fun _ => 0)
    (patched ns hs num pa (line_rule (gauss_points o)) rquad x' fs) = Some (M', V') ->
  qform n M u <= qform n M' u <=
  qform n M u + lsum (cells ns) (fun cs =>
    squares (pa_n (pa cs)) (fun m => rsum (length (corners cs)) (fun i => u (num (nth i (corners cs) [])) * r cs i m)) /
    stiffness_bound (pa_cells (pa cs)) (pa_edges (pa cs)) alpha (a cs)).
Proof.
  intros ns hs num n diffusion order rhs_order o pa rquad x x' r fs source neumann M V M' V' ss v u alpha a e Lh Fh Ls Nu Pa Al Sy Og H Lv Uv W W'.
  assert (Hp : forall cs, In cs (cells ns) -> sound (length ns) (pa cs) /\ forall f, pa_inside (pa cs) f = true).
  { intros cs I. destruct (H cs I) as (So & In_ & _). auto. }
  rewrite (coarse_form ns hs num n diffusion o pa rquad x fs source neumann M V ss v u) by auto.
  rewrite (coarse_form ns hs num n diffusion o pa rquad x' fs source neumann M' V' ss v u) by auto.
  enough (G : forall cs, In cs (cells ns) -> exists t, 0 <= t <= 
      squares (pa_n (pa cs)) (fun m => rsum (length (corners cs)) (fun i => u (num (nth i (corners cs) [])) * r cs i m)) /
      stiffness_bound (pa_cells (pa cs)) (pa_edges (pa cs)) alpha (a cs) /\
      cell_form (length ns) o diffusion (fun k => nth k ss 0 / nth k hs 1) (pa cs) (added_part num (pa cs) cs (x' cs) u) =
      cell_form (length ns) o diffusion (fun k => nth k ss 0 / nth k hs 1) (pa cs) (added_part num (pa cs) cs (x cs) u) + t).
  { rewrite <- lsum_plus. split; apply lsum_le; intros cs I; destruct (G cs I) as (t & B & E); lra. }
  intros cs I. destruct (H cs I) as (So & In_ & Se & Lc & Co & Ne).
  set (w := fun i => u (num (nth i (corners cs) []))). set (k := length (corners cs)).
  set (z := fun m => rsum k (fun i => w i * x' cs i m)).
  set (er := fun m => z m - rsum k (fun i => w i * x cs i m)).
  assert (Vz : vanishes (pa_n (pa cs)) (pa_con (pa cs)) z).
  { intros m Lm Cm. apply rsum_0. intros i Li. destruct (Ne i Li) as (Vx & _). rewrite (Vx m Lm Cm). ring. }
  exists (LinSpec.energy (length ns) (patch_points (length ns) order diffusion (pa cs)) (field_of (pa_n (pa cs)) er) (field_of (pa_n (pa cs)) er)).
  assert (E := cell_gap ns hs num n diffusion order rhs_order o (pa cs) cs (x cs) u ss v z Lh Fh Ls Nu I So Og Sy Se Co Lv Uv Vz).
  cbv zeta in E. split; [|exact E].
  assert (Ver : vanishes (pa_n (pa cs)) (pa_con (pa cs)) er).
  { intros m Lm Cm. unfold er. rewrite (Vz m Lm Cm). pose proof (added_vanishes hs num diffusion order rhs_order (pa cs) cs (x cs) u Co m Lm Cm) as A0.
    unfold k, w. rewrite A0. ring. }
  set (c := stiffness_bound (pa_cells (pa cs)) (pa_edges (pa cs)) alpha (a cs)).
  pose proof (C120_energy_bounds_node_values (length ns) order diffusion (pa cs) alpha (a cs) (e cs) er So Og Pa Al Lc Ver) as (Pc & Bc).
  fold c in Pc, Bc.
  destruct (error_bound (pa_n (pa cs)) (pa_con (pa cs)) (stiffness (length ns) (patch_points (length ns) order diffusion (pa cs))) c er
    (fun m => rsum k (fun i => w i * r cs i m))) as (H1 & _); auto.
  - intros y Vy. rewrite stiffness_energy. now apply (patch_bound (length ns) order diffusion (pa cs) alpha (a cs) (e cs)).
  - intros m Lm Cm. set (S := stiffness (length ns) (patch_points (length ns) order diffusion (pa cs))).
    assert (Er : forall j, er j = rsum k (fun i => w i * (x' cs i j - x cs i j))).
    { intros j. unfold er, z. rewrite <- rsum_minus. apply rsum_ext. intros. ring. }
    unfold mv. rewrite (rsum_ext (pa_n (pa cs)) _ (fun j => rsum k (fun i => w i * (S m j * (x' cs i j - x cs i j))))).
    2:{ intros j _. rewrite Er, <- rsum_scale. apply rsum_ext. intros. ring. }
    rewrite rsum_swap, <- rsum_opp. apply rsum_ext. intros i Li. rewrite rsum_scale.
    destruct (Co i Li) as (y & Y & C). destruct (Ne i Li) as (Vx & y' & Y' & R'). rewrite R' by auto. rewrite Lh in *.
    apply corrector_bvp in C. pose proof So as (_ & _ & _ & _ & _ & Np).
    assert (Ey : forall j, (j < pa_n (pa cs))%nat -> y j = y' j).
    { intros j Lj. destruct (proj2 (proj2 Np) j Lj) as (js & Nj & <-). now rewrite Y, Y'. }
    assert (Eb : local_rhs (length ns) (patch_points (length ns) rhs_order diffusion (pa cs)) (field_of (pa_n (pa cs)) y') m =
      local_rhs (length ns) (patch_points (length ns) rhs_order diffusion (pa cs)) (field_of (pa_n (pa cs)) y) m).
    { unfold local_rhs. apply lsum_ext. intros q _. f_equal. unfold evaluate_product. f_equal. apply dot_ext; auto. intros kk _. apply mv_ext.
      intros l _. unfold field_of. apply rsum_ext. intros j Lj. now rewrite Ey. }
    specialize (C m Lm). rewrite Cm in C. unfold residual. rewrite Cm, Eb, <- C. fold S.
    rewrite (rsum_ext _ (fun j => S m j * (x' cs i j - x cs i j)) (fun j => S m j * x' cs i j - S m j * x cs i j)) by (intros; ring).
    rewrite rsum_minus. ring.
  - rewrite stiffness_energy in H1. split.
    + apply Rle_trans with (c * squares (pa_n (pa cs)) er); auto. apply Rmult_le_pos; [lra|apply squares_nonneg].
    + apply (Rmult_le_reg_l c); auto.
      match goal with |- _ <= c * (?t / c) => replace (c * (t / c)) with t by (field; lra) end.
      exact H1.
Qed.
Print Assumptions C120_coarse_matrix_error.

(** 2 x 2 coarse cells, each divided into 2 x 2 boxes, diffusion 1 or 3; the
    solver of the local problems gives up and returns zero. *)
Lemma stripes_at_least : forall y, at_least 2 1 (stripes y).
Proof.
  intros y z. assert (S : 1 <= match y with t :: _ => stripe t | [] => 1 end).
  { destruct y as [|t y]; [lra|]. unfold stripe. repeat destruct (Rlt_dec _ _); lra. }
  unfold stripes, dot, mv, crossed. cbn [rsum Nat.eqb]. set (s := match y with t :: _ => stripe t | [] => 1 end) in *.
  pose proof (Rle_0_sqr (z 0%nat)). pose proof (Rle_0_sqr (z 1%nat)). unfold Rsqr in *. nra.
Qed.
Lemma outer9_layer : forall cs, layer_constrained (pa_cells (exact_patch outer9 cs)) (pa_num (exact_patch outer9 cs)) (pa_con (exact_patch outer9 cs)) 0 2.
Proof.
  intros cs. split; [cbn; lia|]. split; [cbn; lia|]. intros js Nj E.
  inversion Nj as [|a ? ? ? La T]; subst. inversion T as [|b ? ? ? Lb T']; subst. inversion T'; subst. cbn in E. subst a.
  cbn [exact_patch pa_num pa_con]. destruct b as [|[|[|b]]]; [| | |lia]; reflexivity.
Qed.
Example C120_case : exists x x' r M V M' V',
  (forall cs, In cs (cells [2; 2]%nat) -> corrected half num3 stripes 2 3 (exact_patch outer9 cs) cs (x cs) /\
     nearly_corrected half num3 stripes 2 3 (exact_patch outer9 cs) cs (x' cs) (r cs) /\ forall i m, x' cs i m = 0) /\
  walk 2 (list R) stripes (fun _ => 0) (fun _ => 0) (fun _ _ => 0) (fun _ => 0)
    (patched [2; 2]%nat half num3 (exact_patch outer9) (line_rule 3) (fun _ _ => []) x (fun _ => [])) = Some (M, V) /\
  walk 2 (list R) stripes (fun _ => 0) (fun _ => 0) (fun _ _ => 0) (fun _ => 0)
    (patched [2; 2]%nat half num3 (exact_patch outer9) (line_rule 3) (fun _ _ => []) x' (fun _ => [])) = Some (M', V') /\
  stiffness_bound [2; 2]%nat [1/4; 1/4] 1 0 = / 24 /\
  let u := fun i => INR (i mod 3) / 2 in
  qform 9 M u <= qform 9 M' u <= qform 9 M u + lsum (cells [2; 2]%nat) (fun cs =>
    24 * squares 9 (fun m => rsum 4 (fun i => u (num3 (nth i (corners cs) [])) * r cs i m))).
Proof.
  assert (E : exists x, forall cs, In cs (cells [2; 2]%nat) -> corrected half num3 stripes 2 3 (exact_patch outer9 cs) cs (x cs)).
  { apply (choose_cells [2; 2]%nat (fun cs x => corrected half num3 stripes 2 3 (exact_patch outer9 cs) cs x)). intros cs I. apply patch_corrected; auto using exact_sound, stripes_positive; cbn; lia. }
  destruct E as (x & X).
  assert (E : exists r, forall cs, In cs (cells [2; 2]%nat) -> nearly_corrected half num3 stripes 2 3 (exact_patch outer9 cs) cs (fun _ _ => 0) (r cs)).
  { apply (choose_cells [2; 2]%nat (fun cs r => nearly_corrected half num3 stripes 2 3 (exact_patch outer9 cs) cs (fun _ _ => 0) r)). intros cs I.
    destruct (choose (length (corners cs)) (fun i y => (forall js, node (pa_cells (exact_patch outer9 cs)) js ->
      y (pa_num (exact_patch outer9 cs) js) = restricted half (exact_patch outer9 cs) (one_at num3 (num3 (nth i (corners cs) []))) cs js))) as (y & Y).
    { intros i Li. destruct (X cs I i Li) as (y & Y & _). eauto. }
    exists (fun i => residual 9 outer9 (stiffness 2 (patch_points 2 2 stripes (exact_patch outer9 cs)))
      (local_rhs 2 (patch_points 2 3 stripes (exact_patch outer9 cs)) (field_of 9 (y i))) (fun _ => 0)).
    intros i Li. split; [intros ? _ _; reflexivity|]. exists (y i). split; [now apply Y|]. reflexivity. }
  destruct E as (r & Hr).
  assert (W : forall x, exists r, walk 2 (list R) stripes (fun _ => 0) (fun _ => 0) (fun _ _ => 0) (fun _ => 0)
    (patched [2; 2]%nat half num3 (exact_patch outer9) (line_rule 3) (fun _ _ => []) x (fun _ => [])) = Some r).
  { intros x0. apply walk_some. intros c f I. destruct (patched_in _ _ _ _ _ _ _ _ _ _ I) as (cs & J & -> & _). reflexivity. }
  destruct (W x) as ((M, V) & WM). destruct (W (fun _ _ _ => 0)) as ((M', V') & WM').
  exists x, (fun _ _ _ => 0), r, M, V, M', V'. split; [auto|]. split; [exact WM|]. split; [exact WM'|].
  assert (B : stiffness_bound [2; 2]%nat [1/4; 1/4] 1 0 = / 24) by (unfold stiffness_bound; cbn; field). split; [exact B|].
  intros u.
  pose proof (C120_coarse_matrix_error [2; 2]%nat half num3 9 stripes 2 3 4 (exact_patch outer9) (fun _ _ => []) x (fun _ _ _ => 0) r (fun _ => [])
    (fun _ => 0) (fun _ => 0) M V M' V' [1/2; 0] (fun js => INR (nth 0 js 0%nat) / 2) u 1 (fun _ => 0%nat) (fun _ => 2%nat)) as T.
  rewrite (lsum_ext _ (cells [2; 2]%nat) (fun cs => _ / _) (fun cs =>
    24 * squares 9 (fun m => rsum 4 (fun i => u (num3 (nth i (corners cs) [])) * r cs i m)))) in T.
  2:{ intros cs I. cbv beta. cbn [exact_patch pa_cells pa_edges pa_n]. rewrite B.
      replace (length (corners cs)) with 4%nat by (cbn in I; repeat (destruct I as [<-|I]; [reflexivity|]); destruct I).
      unfold Rdiv. rewrite Rinv_inv. ring. }
  apply T; auto using half_pos, num3_numbering, stripes_at_least; try (cbn; lia); try lra.
  - intros y i j _ _. unfold stripes, crossed. rewrite (Nat.eqb_sym j i). destruct (Nat.eqb_spec i j); auto; subst.
  - intros cs I. split; [apply exact_sound|]. split; [reflexivity|]. split; [|split; [apply outer9_layer|auto]].
    apply C119_quadratures_agree. left. exists (fun f => crossed (fun _ => halves f)). split; [apply exact_sound|]. split.
    + intros f xs i j If L F Li Lj. unfold crossed. destruct (Nat.eqb_spec i j) as [->|N].
      * now apply stripes_halves.
      * unfold stripes, crossed. destruct (Nat.eqb_spec i j); [congruence|reflexivity].
    + intros o [<-|[<-|[<-|[]]]]; lia.
  - cbn [linear]. split; [split; [exact I|]|]; intros; cbn [nth]; [cbn; lra|]. cbn [INR]. lra.
  - intros js Nj. inversion Nj as [|a ? ? ? La T2]; subst. inversion T2 as [|b ? ? ? Lb T']; subst. inversion T'; subst.
    cbn [num3 nth]. unfold u. f_equal. f_equal. rewrite (Nat.mul_comm 3). rewrite Nat.mod_add by lia. apply Nat.mod_small. lia.
Qed.
