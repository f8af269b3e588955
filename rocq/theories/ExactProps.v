(** Theorems about the problems with known solution: C46-C49, C69, C70. *)
From Coq Require Import Reals Arith Bool Lra Lia.
From Verif Require Import Calc ExactModel ExactSpec ExactProofs.
Open Scope R_scope.

(** ** C46: minus the divergence of the flux of the exact solution's gradient
    is the source.  [g] is any gradient of the exact solution, [e0] and [f0]
    are the contents of the output arguments before the calls. *)
Theorem C46_synthetic_source_is_minus_divergence : forall eps g e0 f0 x,
  eps <> 0 -> gradient 2 (syn_exact eps) g ->
  exists s, divergence 2 (fun y => syn_flux eps (e0 y) y (g y) (f0 y)) x s /\
            syn_source eps x = - s.
Proof.
  intros eps g e0 f0 x N G. exists (- syn_source eps x). split; [|ring].
  apply syn_source_div; auto.
Qed.
Print Assumptions C46_synthetic_source_is_minus_divergence.

(** The same in three dimensions, when the caller's third component of the flux,
    which is not written (C69), is zero. *)
Theorem C46_synthetic_source_in_three_dimensions : forall eps g e0 f0 x,
  eps <> 0 -> gradient 3 (syn_exact eps) g -> (forall y, f0 y 2%nat = 0) ->
  exists s, divergence 3 (fun y => syn_flux eps (e0 y) y (g y) (f0 y)) x s /\
            syn_source eps x = - s.
Proof.
  intros eps g e0 f0 x N G Z.
  destruct (C46_synthetic_source_is_minus_divergence eps g e0 f0 x N) as (s & D & E); [intros y k L; apply G; lia|].
  exists s. split; [|exact E]. exists s, 0. split; [exact D|split; [|ring]].
  unfold partial. apply derivable_pt_lim_ext with (f := fun _ => 0); [intros t; symmetry; exact (Z _)|apply derivable_pt_lim_const].
Qed.
Print Assumptions C46_synthetic_source_in_three_dimensions.

(** A value of the source. *)
Example C46_value : syn_source 1 (fun _ => 1/4) = 9 / 8.
Proof.
  unfold syn_source. rewrite TP.
  replace (2 * PI * (1 / 4)) with (PI / 2) by field.
  replace (2 * PI * (1 / 4 / 1)) with (PI / 2) by field.
  rewrite sin_PI2, cos_PI2. rewrite Rpower_m2 by lra. field. apply PI_neq.
Qed.

(** ** C47: gradient, flux and boundary data. *)
Theorem C47_synthetic_jacobian_is_the_gradient : forall eps g0,
  eps <> 0 -> gradient 2 (syn_exact eps) (fun x => syn_jacobian eps x (g0 x)).
Proof. intros eps g0 N. exact (syn_gradient eps N g0). Qed.
Print Assumptions C47_synthetic_jacobian_is_the_gradient.

Theorem C47_synthetic_flux_applies_the_tensor : forall eps e0 r0 x direction f0 k,
  (k < 2)%nat ->
  r0 0%nat 1%nat = 0 -> r0 1%nat 0%nat = 0 ->
  syn_flux eps e0 x direction f0 k =
  syn_diffusion eps x r0 k 0%nat * direction 0%nat + syn_diffusion eps x r0 k 1%nat * direction 1%nat.
Proof.
  intros eps e0 r0 x direction f0 k L Z1 Z2. destruct k as [|[|k]]; [| |lia];
    unfold syn_flux, syn_diffusion, set1, set2; cbn [Nat.eqb andb]; rewrite ?Z1, ?Z2; ring.
Qed.
Print Assumptions C47_synthetic_flux_applies_the_tensor.

Theorem C47_synthetic_dirichlet_data_are_the_solution : forall eps g0,
  eps <> 0 ->
  (forall x, syn_dirichlet eps x = syn_exact eps x) /\
  gradient 2 (syn_dirichlet eps) (fun x => syn_dirichlet_jacobian eps x (g0 x)).
Proof. intros eps g0 N. split; [reflexivity|]. exact (syn_gradient eps N g0). Qed.
Print Assumptions C47_synthetic_dirichlet_data_are_the_solution.

(** In three dimensions the solution's derivative in the third direction, the
    outer flux on the Neumann boundary, is the Neumann value. *)
Theorem C47_synthetic_neumann_data : forall eps x axis,
  eps <> 0 -> syn_is_neumann 3 axis = true -> partial axis (syn_exact eps) x (syn_neumann x).
Proof.
  intros eps x axis N H. unfold syn_is_neumann in H. apply andb_prop in H. destruct H as (_ & H).
  apply Nat.eqb_eq in H. subst axis. exact (syn_gradient_sg eps N x 2).
Qed.
Print Assumptions C47_synthetic_neumann_data.

(** So the solution has a gradient in three dimensions, as C46 needs it. *)
Example C46_three_case : forall e0 x,
  exists g s, gradient 3 (syn_exact 1) g /\
    divergence 3 (fun y => syn_flux 1 (e0 y) y (g y) (fun _ => 0)) x s /\ syn_source 1 x = - s.
Proof.
  intros e0 x. set (g := fun y k => if Nat.eqb k 2 then syn_neumann y else syn_jacobian 1 y (fun _ => 0) k).
  assert (G : gradient 3 (syn_exact 1) g).
  { intros y k L. unfold g. destruct (Nat.eqb_spec k 2) as [->|D].
    - apply C47_synthetic_neumann_data; [lra|reflexivity].
    - apply (C47_synthetic_jacobian_is_the_gradient 1 (fun _ _ => 0)); [lra|lia]. }
  destruct (C46_synthetic_source_in_three_dimensions 1 g e0 (fun _ _ => 0) x ltac:(lra) G) as (s & D & E); [reflexivity|].
  exists g, s. auto.
Qed.

(** There is a Neumann boundary in three dimensions only, where the outer
    normal is plus or minus the third unit vector. *)
Theorem C47_synthetic_kinds_of_boundary : forall dim axis,
  syn_is_neumann dim axis = true <-> dim = 3%nat /\ axis = 2%nat.
Proof. intros. unfold syn_is_neumann. rewrite andb_true_iff, !Nat.eqb_eq. reflexivity. Qed.
Print Assumptions C47_synthetic_kinds_of_boundary.

Example C47_value : syn_jacobian 1 (fun _ => 0) (fun _ => 7) 0%nat = 0 /\
  syn_jacobian 1 (fun k => match k with O => 0 | _ => 1/4 end) (fun _ => 7) 0%nat = 3 * PI /\
  syn_is_neumann 3 2 = true /\ syn_is_neumann 2 1 = false.
Proof.
  unfold syn_jacobian, set1. cbn [Nat.eqb]. rewrite TP.
  replace (2 * PI * 0) with 0 by ring. replace (2 * PI * (0 / 1)) with 0 by field.
  replace (2 * PI * (1 / 4)) with (PI / 2) by field.
  rewrite sin_0, cos_0, sin_PI2. repeat split; ring.
Qed.

(** ** C48: uniform ellipticity. *)
Theorem C48_synthetic_diffusion_bounds : forall eps x r, eps <> 0 ->
  1 / (12 * (PI * PI)) <= syn_diffusion eps x r 0%nat 0%nat <= 1 / (4 * (PI * PI)) /\
  1 / (16 * (PI * PI)) <= syn_diffusion eps x r 1%nat 1%nat <= 3 / (16 * (PI * PI)).
Proof. intros eps x r _. apply syn_diag. Qed.
Print Assumptions C48_synthetic_diffusion_bounds.

Theorem C48_synthetic_diffusion_is_uniformly_elliptic : forall eps e0 f0 x xi, eps <> 0 ->
  let flux := syn_flux eps e0 x xi f0 in
  1 / (16 * (PI * PI)) * (xi 0%nat * xi 0%nat + xi 1%nat * xi 1%nat)
    <= flux 0%nat * xi 0%nat + flux 1%nat * xi 1%nat
    <= 1 / (4 * (PI * PI)) * (xi 0%nat * xi 0%nat + xi 1%nat * xi 1%nat).
Proof.
  intros eps e0 f0 x xi _. cbv zeta. destruct (syn_diag eps x e0) as ((A & B) & (C & D)).
  unfold syn_flux, set1. cbn [Nat.eqb]. 
  set (a := syn_diffusion eps x e0 0%nat 0%nat) in *. set (b := syn_diffusion eps x e0 1%nat 1%nat) in *.
  assert (P : 0 < PI * PI) by (pose proof PI_RGT_0; nra).
  assert (I : 0 < / (PI * PI)) by (apply Rinv_0_lt_compat; auto).
  replace (1 / (12 * (PI * PI))) with (/ 12 * / (PI * PI)) in A by (field; apply PI_neq).
  replace (1 / (4 * (PI * PI))) with (/ 4 * / (PI * PI)) in * by (field; apply PI_neq).
  replace (1 / (16 * (PI * PI))) with (/ 16 * / (PI * PI)) in * by (field; apply PI_neq).
  replace (3 / (16 * (PI * PI))) with (3 / 16 * / (PI * PI)) in D by (field; apply PI_neq).
  set (w := / (PI * PI)) in *.
  pose proof (Rle_0_sqr (xi 0%nat)) as S0. pose proof (Rle_0_sqr (xi 1%nat)) as S1. unfold Rsqr in *.
  replace (a * xi 0%nat * xi 0%nat) with (a * (xi 0%nat * xi 0%nat)) by ring.
  replace (b * xi 1%nat * xi 1%nat) with (b * (xi 1%nat * xi 1%nat)) by ring.
  set (s := xi 0%nat * xi 0%nat) in *. set (t := xi 1%nat * xi 1%nat) in *.
  split.
  - assert (/ 16 * w * s <= a * s) by (apply Rmult_le_compat_r; lra).
    assert (/ 16 * w * t <= b * t) by (apply Rmult_le_compat_r; lra). lra.
  - assert (a * s <= / 4 * w * s) by (apply Rmult_le_compat_r; lra).
    assert (b * t <= / 4 * w * t) by (apply Rmult_le_compat_r; lra). lra.
Qed.
Print Assumptions C48_synthetic_diffusion_is_uniformly_elliptic.

(** The bounds are attained. *)
Example C48_attained :
  syn_diffusion 1 (fun _ => 0) (fun _ _ => 0) 0%nat 0%nat = 1 / (12 * (PI * PI)) /\
  syn_diffusion 1 (fun _ => 1/2) (fun _ _ => 0) 0%nat 0%nat = 1 / (4 * (PI * PI)) /\
  syn_diffusion 1 (fun _ => 1/2) (fun _ _ => 0) 1%nat 1%nat = 1 / (16 * (PI * PI)).
Proof.
  unfold syn_diffusion, set2. cbn [Nat.eqb andb]. rewrite TP.
  replace (2 * PI * (0 / 1)) with 0 by field. replace (2 * PI * (1 / 2 / 1)) with PI by field.
  rewrite cos_0, cos_PI. pose proof PI_neq. repeat split; field; auto.
Qed.

(** ** C49: ER2007. *)
Theorem C49_er2007_source_is_minus_laplacian : forall g f0 x,
  gradient 2 er_exact g ->
  exists s, divergence 2 (fun y => er_flux y (g y) (f0 y)) x s /\ er_source x = - s.
Proof.
  intros g f0 x G. exists (- er_source x). split; [|ring]. apply er_source_div; auto.
Qed.
Print Assumptions C49_er2007_source_is_minus_laplacian.

Theorem C49_er2007_solution_and_boundary_data :
  gradient 2 er_exact er_exact_jacobian /\
  (forall x, er_dirichlet x = er_exact x) /\ gradient 2 er_dirichlet er_dirichlet_jacobian.
Proof. repeat split; exact er_gradient. Qed.
Print Assumptions C49_er2007_solution_and_boundary_data.

Theorem C49_er2007_flux_applies_the_tensor : forall r0 x direction f0 k,
  (k < 2)%nat -> r0 0%nat 1%nat = 0 -> r0 1%nat 0%nat = 0 ->
  er_flux x direction f0 k =
  er_diffusion x r0 k 0%nat * direction 0%nat + er_diffusion x r0 k 1%nat * direction 1%nat.
Proof.
  intros r0 x direction f0 k L Z1 Z2. destruct k as [|[|k]]; [| |lia];
    unfold er_flux, er_diffusion, set1, set2; cbn [Nat.eqb andb]; rewrite ?Z1, ?Z2; ring.
Qed.
Print Assumptions C49_er2007_flux_applies_the_tensor.

(** The derivative attached to the source is right only where it vanishes. *)
Theorem C49_er2007_source_derivative : forall x k, (k < 2)%nat ->
  (partial k er_source x (er_source_jacobian x k) <-> sin (8 * PI * x k) = 0).
Proof. exact er_source_deriv_wrong. Qed.
Print Assumptions C49_er2007_source_derivative.

Example C49_wrong_point : ~ partial 0 er_source (fun _ => 1/16) (er_source_jacobian (fun _ => 1/16) 0).
Proof.
  intros H. apply C49_er2007_source_derivative in H; [|lia].
  replace (8 * PI * (1/16)) with (PI / 2) in H by field. rewrite sin_PI2 in H. lra.
Qed.
Example C49_gradient_exists : gradient 2 er_exact exact_deriv.
Proof. exact er_gradient. Qed.

(** ** C69: only the first two directions are written. *)
Theorem C69_diffusion_leaves_other_entries : forall eps x ret i j,
  ~ (i = j /\ (i < 2)%nat) ->
  syn_diffusion eps x ret i j = ret i j /\ er_diffusion x ret i j = ret i j.
Proof.
  intros eps x ret i j H. unfold syn_diffusion, er_diffusion, set2.
  destruct i as [|[|i]], j as [|[|j]]; cbn [Nat.eqb andb]; try (split; reflexivity);
    exfalso; apply H; split; lia.
Qed.
Print Assumptions C69_diffusion_leaves_other_entries.

Theorem C69_flux_leaves_third_component : forall eps e0 x direction flux k,
  (2 <= k)%nat ->
  syn_flux eps e0 x direction flux k = flux k /\ er_flux x direction flux k = flux k.
Proof.
  intros eps e0 x direction flux k L. unfold syn_flux, er_flux, set1.
  destruct k as [|[|k]]; [lia|lia|]. cbn [Nat.eqb]. split; reflexivity.
Qed.
Print Assumptions C69_flux_leaves_third_component.

(** Hence with zero initialised output arguments a gradient in the third
    direction has zero energy. *)
Example C69_degenerate : forall eps x,
  let e3 := fun k => if Nat.eqb k 2 then 1 else 0 in
  let f := syn_flux eps (fun _ _ => 0) x e3 (fun _ => 0) in
  f 0%nat * e3 0%nat + f 1%nat * e3 1%nat + f 2%nat * e3 2%nat = 0.
Proof. intros eps x. cbv zeta. unfold syn_flux, set1. cbn [Nat.eqb]. ring. Qed.

(** ** C70: boundary values of the synthetic problem. *)
Theorem C70_boundary_values_vanish_on_three_sides : forall eps x,
  x 1%nat = 0 \/ x 1%nat = 1 \/ x 0%nat = 0 -> eps <> 0 -> syn_dirichlet eps x = 0.
Proof. intros eps x H _. exact (syn_boundary_low eps x H). Qed.
Print Assumptions C70_boundary_values_vanish_on_three_sides.

Theorem C70_boundary_values_on_the_right_side : forall eps, eps <> 0 ->
  (forall x, x 0%nat = 1 ->
     syn_dirichlet eps x = 1/2 * eps * sin (2 * PI / eps) * sin (2 * PI * x 1%nat)) /\
  ((forall x, x 0%nat = 1 -> syn_dirichlet eps x = 0) <-> sin (2 * PI / eps) = 0).
Proof.
  intros eps N. split; [exact (syn_boundary_right eps)|exact (syn_boundary_right_zero eps N)].
Qed.
Print Assumptions C70_boundary_values_on_the_right_side.

(** The default epsilon gives zero boundary values. *)
Theorem C70_default_epsilon_has_zero_boundary_values : forall x,
  x 0%nat = 0 \/ x 0%nat = 1 \/ x 1%nat = 0 \/ x 1%nat = 1 ->
  syn_dirichlet (get_eps None) x = 0.
Proof.
  intros x H. assert (N : get_eps None <> 0) by (unfold get_eps; lra).
  destruct H as [H|[H|H]]; [apply syn_boundary_low; auto| |apply syn_boundary_low; tauto].
  apply (proj2 (syn_boundary_right_zero _ N)); [apply syn_default_zero|auto].
Qed.
Print Assumptions C70_default_epsilon_has_zero_boundary_values.

Example C70_nonzero : syn_dirichlet 4 (fun k => match k with O => 1 | _ => 1/4 end) = 2.
Proof.
  rewrite syn_boundary_right by reflexivity. simpl.
  replace (2 * PI / 4) with (PI / 2) by field. replace (2 * PI * (1/4)) with (PI / 2) by field.
  rewrite sin_PI2. field.
Qed.
