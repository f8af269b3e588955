(** Theorems about the variational side of the solvers: C82-C84. *)
From Coq Require Import Reals List Arith Bool Lra Lia.
From Verif Require Import RSum CoarseModel CoarseSpec CoarseProofs LinModel LinSpec LinProofs LinProps
  EnergySpec EnergyProofs.
Import ListNotations.
Open Scope R_scope.

(** * C82: the computed solutions are the energy minimisers *)
Theorem C82_reference_solution_minimises_energy : forall n constrained A b g start u,
  symmetric n A -> semidefinite n constrained A ->
  (fem_apply n constrained A b g start u <-> minimises n constrained A b g u).
Proof.
  intros n constrained A b g start u Sy Se. rewrite fem_bvp. apply bvp_minimises; auto.
Qed.
Print Assumptions C82_reference_solution_minimises_energy.

(** The assembled multiscale matrix qualifies, for all Dirichlet sets. *)
Theorem C82_coarse_solution_minimises_energy : forall d P diffusion cs M N constrained b g u,
  (forall y, sym d (diffusion y)) -> (forall y, psd d (diffusion y)) ->
  (forall c, In c cs -> weights_ok P c) ->
  (forall c i, In c cs -> (i < cc_n P c)%nat -> (cc_index P c i < N)%nat) ->
  assemble_matrix d P diffusion (fun _ _ => 0) cs = Some M ->
  (coarse_apply N constrained M b g u <-> minimises N constrained M b g u).
Proof.
  intros d P diffusion cs M N constrained b g u H1 H2 H3 H4 H5.
  destruct (global_sym_psd d P diffusion cs M N H1 H2 H3 H4 H5) as (Sy & Ps).
  rewrite coarse_bvp. apply bvp_minimises.
  - intros i j _ _. apply Sy.
  - intros v _. replace (rsum N _) with (qform N M v); [apply Ps|].
    apply rsum_ext. intros i _. apply rsum_ext. intros j _. ring.
Qed.
Print Assumptions C82_coarse_solution_minimises_energy.

(** Every other admissible vector is worse by half the energy of the difference. *)
Theorem C82_energy_gap : forall n constrained A b g start u v,
  symmetric n A -> fem_apply n constrained A b g start u -> admissible n constrained g v ->
  potential n A b v = potential n A b u +
    / 2 * rsum n (fun i => rsum n (fun j => A i j * (v j - u j) * (v i - u i))).
Proof.
  intros n constrained A b g start u v Sy U V. apply fem_bvp in U.
  rewrite (bvp_gap n constrained A b g u v Sy U V). f_equal. f_equal.
  symmetry. apply (quad_dot n A (fun i => v i - u i)).
Qed.
Print Assumptions C82_energy_gap.

Lemma line_symmetric : symmetric 3 line.
Proof. intros i j Li Lj. destruct i as [|[|[|i]]]; destruct j as [|[|[|j]]]; try lia; reflexivity. Qed.
Lemma line_semidefinite : semidefinite 3 outer line.
Proof. intros v _. unfold line. simpl.
  pose proof (Rle_0_sqr (v 0%nat - v 1%nat)). pose proof (Rle_0_sqr (v 1%nat - v 2%nat)).
  unfold Rsqr in *. lra. Qed.

Example C82_line : symmetric 3 line /\ semidefinite 3 outer line /\
  (forall start, fem_apply 3 outer line (fun _ => 0) ends start line_u) /\
  potential 3 line (fun _ => 0) line_u = 1 /\
  admissible 3 outer ends ends /\ potential 3 line (fun _ => 0) ends = 2.
Proof.
  split; [exact line_symmetric|]. split; [exact line_semidefinite|]. split; [exact C40_line|].
  split; [unfold potential, line, line_u; simpl; lra|].
  split; [intros i _ _; reflexivity|unfold potential, line, ends; simpl; lra].
Qed.

(** Without symmetry the equivalence fails: the solver still solves the
    boundary value problem, but not the minimisation. *)
Example C82_symmetry_needed : exists A b u,
  semidefinite 2 (fun _ => false) A /\
  fem_apply 2 (fun _ => false) A b (fun _ => 0) (fun _ => 0) u /\
  ~ minimises 2 (fun _ => false) A b (fun _ => 0) u.
Proof.
  exists (fun i j => match i, j with O, O => 1 | O, S O => 1 | S O, O => -1 | S O, S O => 1 | _, _ => 0 end),
    (fun _ => 1), (fun i => match i with O => 0 | _ => 1 end). split; [|split].
  - intros v _. simpl. pose proof (Rle_0_sqr (v 0%nat)). pose proof (Rle_0_sqr (v 1%nat)).
    unfold Rsqr in *. lra.
  - apply fem_bvp. intros i L. destruct i as [|[|i]]; simpl; try lra; lia.
  - intros (_ & Mi). specialize (Mi (fun _ => 1) ltac:(intros i L C; discriminate)).
    unfold potential in Mi. simpl in Mi. lra.
Qed.

(** * C83: superposition *)
Theorem C83_reference_solutions_superpose : forall n constrained A a c b1 b2 g1 g2 s1 s2 s3 u1 u2 u3,
  unique n constrained A ->
  fem_apply n constrained A b1 g1 s1 u1 -> fem_apply n constrained A b2 g2 s2 u2 ->
  fem_apply n constrained A (combine2 a c b1 b2) (combine2 a c g1 g2) s3 u3 ->
  forall i, (i < n)%nat -> u3 i = a * u1 i + c * u2 i.
Proof.
  intros n constrained A a c b1 b2 g1 g2 s1 s2 s3 u1 u2 u3 Un H1 H2 H3.
  apply fem_bvp in H1. apply fem_bvp in H2. apply fem_bvp in H3.
  apply (unique_solution n constrained A _ _ u3 (combine2 a c u1 u2) Un H3).
  apply bvp_combine; auto.
Qed.
Print Assumptions C83_reference_solutions_superpose.

Theorem C83_coarse_solutions_superpose : forall n constrained A a c b1 b2 g1 g2 u1 u2 u3,
  unique n constrained A ->
  coarse_apply n constrained A b1 g1 u1 -> coarse_apply n constrained A b2 g2 u2 ->
  coarse_apply n constrained A (combine2 a c b1 b2) (combine2 a c g1 g2) u3 ->
  forall i, (i < n)%nat -> u3 i = a * u1 i + c * u2 i.
Proof.
  intros n constrained A a c b1 b2 g1 g2 u1 u2 u3 Un H1 H2 H3.
  apply coarse_bvp in H1. apply coarse_bvp in H2. apply coarse_bvp in H3.
  apply (unique_solution n constrained A _ _ u3 (combine2 a c u1 u2) Un H3).
  apply bvp_combine; auto.
Qed.
Print Assumptions C83_coarse_solutions_superpose.

(** The corrector of a combination of coarse functions is the combination of
    the correctors: correcting the basis functions corrects every coarse
    function. *)
Theorem C83_correctors_superpose : forall d qs rs n constrained a c f1 f2 x1 x2 x3,
  coercive d qs n constrained ->
  corrector d qs rs n constrained f1 x1 -> corrector d qs rs n constrained f2 x2 ->
  corrector d qs rs n constrained (combine_fields a c f1 f2) x3 ->
  forall i, (i < n)%nat -> x3 i = a * x1 i + c * x2 i.
Proof.
  intros d qs rs n constrained a c f1 f2 x1 x2 x3 Co H1 H2 H3.
  apply (corrector_unique d qs rs n constrained (combine_fields a c f1 f2) x3 (combine2 a c x1 x2)); auto.
  apply corrector_combine; auto.
Qed.
Print Assumptions C83_correctors_superpose.

Lemma two_cells_coercive : coercive 1 two_cells 3 outer.
Proof.
  intros y Y E. assert (Y0 : y 0%nat = 0) by (apply Y; auto). assert (Y2 : y 2%nat = 0) by (apply Y; auto).
  unfold energy, field_of, two_cells, dot, mv, cell_grad in E. simpl in E. rewrite Y0, Y2 in E.
  intros i L. destruct i as [|[|[|i]]]; auto; try lia; nra.
Qed.

Example C83_case : coercive 1 two_cells 3 outer /\ unique 3 outer line /\
  corrector 1 two_cells (four_points 1) 3 outer (combine_fields 2 3 (fun _ _ => 1) (fun _ _ => 1)) (combine2 2 3 quarter quarter).
Proof.
  split; [exact two_cells_coercive|]. split; [exact line_unique|].
  apply corrector_combine; apply C18_two_cells.
Qed.

(** * C84: nothing to correct *)
Theorem C84_no_correction_iff_flux_balanced : forall d qs rs n constrained field x,
  coercive d qs n constrained -> corrector d qs rs n constrained field x ->
  ((forall i, (i < n)%nat -> x i = 0) <-> balanced d rs n constrained field).
Proof. exact corrector_zero. Qed.
Print Assumptions C84_no_correction_iff_flux_balanced.

(** Zero is then a corrector, on degenerate local grids as well. *)
Theorem C84_zero_is_a_corrector_iff : forall d qs rs n constrained field,
  corrector d qs rs n constrained field (fun _ => 0) <-> balanced d rs n constrained field.
Proof. intros. symmetry. apply corrector_zero_always. Qed.
Print Assumptions C84_zero_is_a_corrector_iff.

(** With the same diffusion in both cells a constant gradient needs no
    correction; with diffusion 1 and 3 it does. *)
Definition same_cells : list qpoint :=
  [{| q_w := 1/2; q_A := fun _ _ => 3; q_grad := cell_grad true |};
   {| q_w := 1/2; q_A := fun _ _ => 3; q_grad := cell_grad false |}].

Example C84_case :
  coercive 1 same_cells 3 outer /\ balanced 1 same_cells 3 outer (fun _ _ => 1) /\
  ~ balanced 1 two_cells 3 outer (fun _ _ => 1).
Proof.
  split; [|split].
  - intros y Y E. assert (Y0 : y 0%nat = 0) by (apply Y; auto). assert (Y2 : y 2%nat = 0) by (apply Y; auto).
    unfold energy, field_of, same_cells, dot, mv, cell_grad in E. simpl in E. rewrite Y0, Y2 in E.
    intros i L. destruct i as [|[|[|i]]]; auto; try lia; nra.
  - intros y Y. assert (Y0 : y 0%nat = 0) by (apply Y; auto). assert (Y2 : y 2%nat = 0) by (apply Y; auto).
    unfold energy, field_of, same_cells, dot, mv, cell_grad. simpl. rewrite Y0, Y2. lra.
  - intros B. specialize (B (fun i => match i with S O => 1 | _ => 0 end)).
    assert (V : vanishes 3 outer (fun i => match i with S O => 1 | _ => 0 end)).
    { intros i L C. destruct i as [|[|i]]; auto; discriminate. }
    specialize (B V). unfold energy, field_of, two_cells, dot, mv, cell_grad in B. simpl in B. lra.
Qed.
