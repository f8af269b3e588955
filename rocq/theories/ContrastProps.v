(** Theorems about the coarse matrix and the matrix of the Laplacian: C136. *)
From Coq Require Import Reals List Arith Bool Lra Lia.
From Verif Require Import Util RSum BoundaryModel CoarseModel CoarseSpec LinModel LinSpec LinProofs.
From Verif Require Import SystemModel SystemSpec SystemProofs QuadModel PatchSpec PatchProofs PatchProps SolveSpec SolveProofs SolveProps.
From Verif Require Import FemModel EnergySpec EnergyProofs LayerSpec LayerProofs LayerProps WholeProps MaxSpec MaxProofs MaxProps.
From Verif Require Import BoundsSpec BoundsProofs BoundsProps InexactSpec InexactProofs InexactProps ContrastSpec ContrastProofs.
From Verif Require Import CoarseProofs QuadProofs FemSpec FemProofs.
From Verif Require PerturbProps.
Import ListNotations.
Open Scope R_scope.

(** The matrix of the reference discretisation on the coarse grid for diffusion
    one: its energy is the sum of the integrals of the squares of the gradient. *)
Theorem C136_matrix_of_the_laplacian : forall ns hs num n global order rquad fs source neumann u,
  length hs = length ns -> Forall (Rlt 0) hs -> numbering ns num n -> (2 <= gauss_points order <= 3)%nat ->
  qform n (fst (fem_walk (length ns) (list R) (fun _ i j => if Nat.eqb i j then 1 else 0) source neumann
    (fine_boxes ns hs num global (product_rule (line_rule (gauss_points order)) (length ns)) rquad fs))) u =
  lsum (cells ns) (gradient_square hs num u).
Proof.
  intros ns hs num n global order rquad fs source neumann u L Fh Nu Oo. set (line := line_rule (gauss_points order)).
  assert (Mo : moments line) by now apply gauss_moments.
  set (Id := fun (_ : list R) (i j : nat) => if Nat.eqb i j then 1 else 0).
  assert (M : forall d y z k, (k < d)%nat -> mv d (Id y) z k = z k).
  { intros d y z k Lk. unfold mv, Id. rewrite (rsum_single d k); auto; [rewrite Nat.eqb_refl; ring|].
    intros j Lj N. destruct (Nat.eqb_spec k j); [congruence|ring]. }
  set (A := fst (fem_walk _ _ _ _ _ _)).
  transitivity (dot n (mv n A u) u).
  { unfold qform, dot, mv. apply rsum_ext. intros i _. rewrite <- rsum_scale_r. apply rsum_ext. intros. ring. }
  unfold A. rewrite fem_form by (intros c f i; apply (fine_index ns hs num n global line rquad fs Nu)).
  unfold fine_boxes. rewrite lsum_map. apply lsum_ext. intros cs I. cbn [fst]. pose proof (cells_length _ _ I) as Li.
  rewrite (gradient_pairing hs num u cs line) by (auto; lia). unfold pairing. rewrite Li, <- lsum_scale.
  unfold fine_energy. cbn [fem_cell fc_quad fc_factor fc_global]. apply lsum_ext. intros q Q. pose proof (rule_length _ _ _ Q) as Lq.
  set (c := fem_cell _ _ _ _ _).
  assert (G : forall k, fine_grad (list R) u c (fst q) k = grad hs (nodal num u) cs (fst q) k)
    by (intros k; apply (box_fine_grad ns hs num n); auto; congruence).
  rewrite (dot_ext (length ns) _ (grad hs (nodal num u) cs (fst q)) _ (grad hs (nodal num u) cs (fst q))).
  - unfold dot. rewrite (rsum_ext (length ns) (fun k => 1 * _) (fun k => grad hs (nodal num u) cs (fst q) k * grad hs (nodal num u) cs (fst q) k))
      by (intros; ring). ring.
  - intros k Lk. fold (Id (global cs (fst q))). rewrite (M (length ns) (global cs (fst q)) _ k Lk). apply G.
  - intros k _. apply G.
Qed.
Print Assumptions C136_matrix_of_the_laplacian.

(** Lower bound: whatever the stored functions are, if they vanish at the outer
    nodes of the local grids, and whatever the diffusion does inside the coarse
    cells. *)
Theorem C136_at_least_the_smallest_diffusion :
  forall ns hs num n diffusion o pa rquad x fs source neumann M V (alpha : list nat -> R) u,
  length hs = length ns -> Forall (Rlt 0) hs -> numbering ns num n -> (2 <= gauss_points o <= 3)%nat ->
  (forall cs, In cs (cells ns) -> no_oversampling hs (pa cs) /\ clamped (pa cs) cs (x cs) /\
     0 <= alpha cs /\ throughout (pa cs) (fun y => at_least (length ns) (alpha cs) (diffusion y))) ->
  walk (length ns) (list R) diffusion source neumann (fun _ _ => 0) (fun _ => 0)
    (patched ns hs num pa (line_rule (gauss_points o)) rquad x fs) = Some (M, V) ->
  lsum (cells ns) (fun cs => alpha cs * gradient_square hs num u cs) <= qform n M u.
Proof.
  intros ns hs num n diffusion o pa rquad x fs source neumann M V alpha u Lh Fh Nu Oo H W.
  rewrite (coarse_form_all ns hs num n diffusion o pa rquad x fs source neumann M V u); auto.
  2:{ intros cs I. destruct (H cs I) as ((So & _ & In_ & _) & _). rewrite Lh in So. auto. }
  apply lsum_le. intros cs I. destruct (H cs I) as ((So & Fi & In_ & Oc) & Cl & Pa & Al). rewrite <- Lh in Al.
  apply whole_lower; auto; [rewrite Lh; symmetry; now apply cells_length|].
  intros js Nj Ou. apply rsum_0. intros i Li. rewrite (Cl i js Li Nj Ou). ring.
Qed.
Print Assumptions C136_at_least_the_smallest_diffusion.

(** Upper bound, for exactly solved local problems. *)
Theorem C136_at_most_four_times_the_largest_diffusion :
  forall ns hs num n diffusion order rhs_order o pa rquad x fs source neumann M V (beta : list nat -> R) u,
  length hs = length ns -> Forall (Rlt 0) hs -> numbering ns num n ->
  (forall y, symmetric_nonnegative (length ns) (diffusion y)) ->
  (2 <= gauss_points order <= 3)%nat -> (2 <= gauss_points o <= 3)%nat ->
  (forall cs, In cs (cells ns) -> no_oversampling hs (pa cs) /\ throughout (pa cs) (fun y => at_most (length ns) (beta cs) (diffusion y)) /\
     same_energies (length ns) [order; rhs_order; o] diffusion (pa cs) /\
     corrected hs num diffusion order rhs_order (pa cs) cs (x cs)) ->
  walk (length ns) (list R) diffusion source neumann (fun _ _ => 0) (fun _ => 0)
    (patched ns hs num pa (line_rule (gauss_points o)) rquad x fs) = Some (M, V) ->
  qform n M u <= 4 * lsum (cells ns) (fun cs => beta cs * gradient_square hs num u cs).
Proof.
  intros ns hs num n diffusion order rhs_order o pa rquad x fs source neumann M V beta u Lh Fh Nu Sn Og Oo H W.
  rewrite (coarse_form_all ns hs num n diffusion o pa rquad x fs source neumann M V u); auto.
  2:{ intros cs I. destruct (H cs I) as ((So & _ & In_ & _) & _). rewrite Lh in So. auto. }
  rewrite <- lsum_scale. apply lsum_le. intros cs I. destruct (H cs I) as ((So & Fi & In_ & Oc) & Be & Se & Co). rewrite <- Lh in Be, Se, Sn.
  now apply (whole_upper ns hs num n diffusion order rhs_order o (pa cs) cs (x cs) u (beta cs)).
Qed.
Print Assumptions C136_at_most_four_times_the_largest_diffusion.

(** Bounds for the eigenvalues in terms of the grid and the diffusion only: no
    constant depends on how fast the diffusion oscillates or on the size of the
    fine cells. *)
Theorem C136_eigenvalues : forall ns hs num n con diffusion order rhs_order o pa rquad x fs source neumann M V alpha beta a e,
  length hs = length ns -> Forall (fun m => (0 < m)%nat) ns -> Forall (Rlt 0) hs -> numbering ns num n ->
  (forall y, symmetric_nonnegative (length ns) (diffusion y)) ->
  (2 <= gauss_points order <= 3)%nat -> (2 <= gauss_points o <= 3)%nat -> 0 < alpha -> 0 <= beta ->
  (forall cs, In cs (cells ns) -> no_oversampling hs (pa cs) /\
     throughout (pa cs) (fun y => at_least (length ns) alpha (diffusion y) /\ at_most (length ns) beta (diffusion y)) /\
     same_energies (length ns) [order; rhs_order; o] diffusion (pa cs) /\
     corrected hs num diffusion order rhs_order (pa cs) cs (x cs)) ->
  layer_constrained ns num con a e ->
  walk (length ns) (list R) diffusion source neumann (fun _ _ => 0) (fun _ => 0)
    (patched ns hs num pa (line_rule (gauss_points o)) rquad x fs) = Some (M, V) ->
  0 < stiffness_bound ns hs alpha a /\
  (forall u, vanishes n con u -> stiffness_bound ns hs alpha a * squares n u <= qform n M u) /\
  (forall u, qform n M u <= 16 * beta * volume hs * inverse_squares hs * squares n u).
Proof.
  intros ns hs num n con diffusion order rhs_order o pa rquad x fs source neumann M V alpha beta a e Lh Fn Fh Nu Sn Og Oo Pa Pb H La W.
  split; [apply stiffness_bound_pos; auto; apply La|]. split.
  - intros u Vu. apply Rle_trans with (alpha * lsum (cells ns) (gradient_square hs num u)).
    + pose proof (laplace_lower ns hs num n con u a e Lh Fn Fh Nu La Vu) as B.
      apply (Rmult_le_compat_l alpha) in B; [|lra]. replace (stiffness_bound ns hs alpha a) with (alpha * stiffness_bound ns hs 1 a); [lra|].
      unfold stiffness_bound, Rdiv. ring.
    + rewrite <- lsum_scale. apply (C136_at_least_the_smallest_diffusion ns hs num n diffusion o pa rquad x fs source neumann M V (fun _ => alpha) u); auto.
      intros cs I. destruct (H cs I) as (No & Th & _ & Co). split; auto. split; [|split; [lra|intros f xs If L F; now apply (Th f xs)]].
      intros i js Li Nj Ou. destruct No as ((_ & _ & _ & _ & _ & Nup) & _ & _ & Oc). destruct (Co i Li) as (y & _ & C). apply corrector_orthogonal in C.
      apply (proj1 C); [now apply Nup|]. rewrite Oc by auto. exact Ou.
  - intros u. eapply Rle_trans; [apply (C136_at_most_four_times_the_largest_diffusion ns hs num n diffusion order rhs_order o pa rquad x fs source neumann M V (fun _ => beta) u); auto|].
    + intros cs I. destruct (H cs I) as (No & Th & Se & Co). split; [exact No|]. split; [intros f xs If L F; now apply (Th f xs)|]. split; auto.
    + rewrite lsum_scale. pose proof (laplace_upper ns hs num n u Lh Fh Nu) as B. apply (Rmult_le_compat_l (4 * beta)) in B; lra.
Qed.
Print Assumptions C136_eigenvalues.

(** Hence the residual of the coarse system bounds the error of an inexact
    coarse solution, even if the local problems are not solved exactly. *)
Theorem C136_coarse_residual : forall ns hs num n con diffusion o pa rquad x fs source neumann M V alpha a e b g u w,
  length hs = length ns -> Forall (fun m => (0 < m)%nat) ns -> Forall (Rlt 0) hs -> numbering ns num n ->
  (2 <= gauss_points o <= 3)%nat -> 0 < alpha ->
  (forall cs, In cs (cells ns) -> no_oversampling hs (pa cs) /\ clamped (pa cs) cs (x cs) /\
     throughout (pa cs) (fun y => at_least (length ns) alpha (diffusion y))) ->
  layer_constrained ns num con a e ->
  walk (length ns) (list R) diffusion source neumann (fun _ _ => 0) (fun _ => 0)
    (patched ns hs num pa (line_rule (gauss_points o)) rquad x fs) = Some (M, V) ->
  coarse_apply n con M b g u -> (forall i, (i < n)%nat -> con i = true -> w i = g i) ->
  squares n (fun i => w i - u i) <= squares n (residual n con M b w) / (stiffness_bound ns hs alpha a * stiffness_bound ns hs alpha a).
Proof.
  intros ns hs num n con diffusion o pa rquad x fs source neumann M V alpha a e b g u w Lh Fn Fh Nu Oo Pa H La W U Bw.
  set (c := stiffness_bound ns hs alpha a). assert (Pc : 0 < c) by (apply stiffness_bound_pos; auto; apply La).
  destruct (C120_residual_bounds_the_error n con M c b g (fun _ => 0) u w Pc) as (_ & R); auto.
  - intros v Vv. apply Rle_trans with (qform n M v).
    2:{ apply Req_le. unfold qform. apply rsum_ext. intros i _. apply rsum_ext. intros. ring. }
    apply Rle_trans with (alpha * lsum (cells ns) (gradient_square hs num v)).
    + pose proof (laplace_lower ns hs num n con v a e Lh Fn Fh Nu La Vv) as B.
      apply (Rmult_le_compat_l alpha) in B; [|lra]. replace c with (alpha * stiffness_bound ns hs 1 a); [lra|].
      unfold c, stiffness_bound, Rdiv. ring.
    + rewrite <- lsum_scale. apply (C136_at_least_the_smallest_diffusion ns hs num n diffusion o pa rquad x fs source neumann M V (fun _ => alpha) v); auto.
      intros cs I. destruct (H cs I) as (No & Cl & Th). split; [exact No|]. split; [exact Cl|]. split; [lra|exact Th].
  - cbv zeta in R. assert (0 < c * c) by now apply Rmult_lt_0_compat.
    apply (Rmult_le_reg_l (c * c)); auto. replace (c * c * (squares n (residual n con M b w) / (c * c))) with (squares n (residual n con M b w)) by (field; lra).
    exact R.
Qed.
Print Assumptions C136_coarse_residual.

(** 2 x 2 coarse cells of 2 x 2 boxes, the diffusion 1 in the left and 3 in the
    right half of every coarse cell: the energy is between that of the
    Laplacian and twelve times that, for every function; with the nodes of the
    right side constrained, between 1/24 and 96 times the squares. *)
Definition right9 (i : nat) : bool := Nat.eqb (i mod 3) 2.
Lemma stripes_between : forall y, at_least 2 1 (stripes y) /\ at_most 2 3 (stripes y) /\ symmetric_nonnegative 2 (stripes y).
Proof.
  intros y. set (s := match y with t :: _ => stripe t | [] => 1 end).
  assert (S1 : 1 <= s <= 3) by (unfold s, stripe; destruct y; [lra|repeat destruct (Rlt_dec _ _); lra]).
  assert (E : forall z, dot 2 (mv 2 (stripes y) z) z = s * (z 0%nat * z 0%nat) + s * (z 1%nat * z 1%nat)) by (intros z; unfold dot, mv, stripes, crossed; cbn; fold s; ring).
  repeat split.
  - intros z. rewrite E. unfold dot. cbn. pose proof (Rle_0_sqr (z 0%nat)) as A. pose proof (Rle_0_sqr (z 1%nat)) as B. unfold Rsqr in *. nra.
  - intros z. rewrite E. unfold dot. cbn. pose proof (Rle_0_sqr (z 0%nat)) as A. pose proof (Rle_0_sqr (z 1%nat)) as B. unfold Rsqr in *. nra.
  - intros i j _ _. unfold stripes, crossed. rewrite (Nat.eqb_sym i j). destruct (Nat.eqb_spec j i); [subst|]; reflexivity.
  - intros z. rewrite E. pose proof (Rle_0_sqr (z 0%nat)) as A. pose proof (Rle_0_sqr (z 1%nat)) as B. unfold Rsqr in *. nra.
Qed.
Example C136_case : exists x M V,
  (forall cs, In cs (cells [2; 2]%nat) -> corrected half num3 stripes 2 3 (exact_patch outer9 cs) cs (x cs)) /\
  walk 2 (list R) stripes (fun _ => 0) (fun _ => 0) (fun _ _ => 0) (fun _ => 0)
    (patched [2; 2]%nat half num3 (exact_patch outer9) (line_rule 3) (fun _ _ => []) x (fun _ => [])) = Some (M, V) /\
  (forall u, let k := lsum (cells [2; 2]%nat) (gradient_square half num3 u) in k <= qform 9 M u <= 12 * k) /\
  (forall u, vanishes 9 right9 u -> 1/24 * squares 9 u <= qform 9 M u <= 96 * squares 9 u).
Proof.
  assert (E : exists x, forall cs, In cs (cells [2; 2]%nat) -> corrected half num3 stripes 2 3 (exact_patch outer9 cs) cs (x cs)).
  { apply (choose_cells [2; 2]%nat (fun cs x => corrected half num3 stripes 2 3 (exact_patch outer9 cs) cs x)). intros cs I. apply patch_corrected; auto using exact_sound, stripes_positive; cbn; lia. }
  destruct E as (x & X).
  assert (W : exists r, walk 2 (list R) stripes (fun _ => 0) (fun _ => 0) (fun _ _ => 0) (fun _ => 0)
    (patched [2; 2]%nat half num3 (exact_patch outer9) (line_rule 3) (fun _ _ => []) x (fun _ => [])) = Some r).
  { apply walk_some. intros c f I. destruct (patched_in _ _ _ _ _ _ _ _ _ _ I) as (cs & J & -> & _). reflexivity. }
  destruct W as ((M, V) & W). exists x, M, V. split; [exact X|split; [exact W|]].
  assert (No : forall cs, no_oversampling half (exact_patch outer9 cs)).
  { intros cs. split; [apply exact_sound|]. split; [|split; [reflexivity|apply outer9_constrained]].
    intros k L. destruct k as [|[|k]]; [| |cbn in L; lia]; cbn; lra. }
  assert (Sn : forall y, symmetric_nonnegative 2 (stripes y)) by (intros y; apply stripes_between).
  assert (Cl : forall cs, In cs (cells [2; 2]%nat) -> clamped (exact_patch outer9 cs) cs (x cs)).
  { intros cs I i js Li Nj Ou. destruct (X cs I i Li) as (y & _ & C). apply corrector_orthogonal in C.
    apply (proj1 C); [now apply num3_numbering|]. rewrite outer9_constrained by auto. exact Ou. }
  assert (Lay : layer_constrained [2; 2]%nat num3 right9 0 2).
  { split; [cbn; lia|split; [cbn; lia|]]. intros js Nj. inversion Nj as [|a ? ? ? La T]; subst. inversion T as [|b ? ? ? Lb T']; subst. inversion T'; subst.
    cbn [nth]. intros ->. unfold right9. destruct b as [|[|[|b]]]; [| | |lia]; reflexivity. }
  split.
  - intros u k. split.
    + pose proof (C136_at_least_the_smallest_diffusion [2; 2]%nat half num3 9 stripes 4 (exact_patch outer9) (fun _ _ => []) x (fun _ => [])
        (fun _ => 0) (fun _ => 0) M V (fun _ => 1) u eq_refl half_pos num3_numbering ltac:(cbn; lia)) as B.
      cbv beta in B. rewrite lsum_scale, Rmult_1_l in B. apply B; auto. intros cs I. split; [apply No|]. split; [now apply Cl|]. split; [lra|].
      intros f xs _ _ _. apply stripes_between.
    + pose proof (C136_at_most_four_times_the_largest_diffusion [2; 2]%nat half num3 9 stripes 2 3 4 (exact_patch outer9) (fun _ _ => []) x (fun _ => [])
        (fun _ => 0) (fun _ => 0) M V (fun _ => 3) u eq_refl half_pos num3_numbering Sn ltac:(cbn; lia) ltac:(cbn; lia)) as B.
      cbv beta in B. rewrite lsum_scale in B. fold k in B. apply Rle_trans with (4 * (3 * k)); [|lra]. apply B; auto. intros cs I. split; [apply No|].
      split; [intros f xs _ _ _; apply stripes_between|]. split; [now apply PerturbProps.stripes_agree|now apply X].
  - intros u Vu.
    destruct (C136_eigenvalues [2; 2]%nat half num3 9 right9 stripes 2 3 4 (exact_patch outer9) (fun _ _ => []) x (fun _ => [])
        (fun _ => 0) (fun _ => 0) M V 1 3 0 2) as (_ & B1 & B2); auto using half_pos, num3_numbering; try (cbn; lia); try lra.
    + intros cs I. split; [apply No|]. split; [intros f xs _ _ _; split; apply stripes_between|]. split; [now apply PerturbProps.stripes_agree|now apply X].
    + specialize (B1 u Vu). specialize (B2 u). pose proof (squares_nonneg 9 u) as P.
      unfold stiffness_bound, inverse_squares, half in B1, B2. cbn [nth volume fold_right length pred pow INR] in B1, B2. split; lra.
Qed.
