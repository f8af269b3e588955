(** Proofs for C46-C49, C69, C70. *)
From Coq Require Import Reals Arith Bool Lra Lia.
From Verif Require Import Calc ExactModel ExactSpec.
Open Scope R_scope.

Lemma PI_neq : PI <> 0.
Proof. pose proof PI_RGT_0. lra. Qed.
Lemma cos2_pos : forall a, 0 < 2 + cos a.
Proof. intros a. pose proof (COS_bound a). lra. Qed.
Lemma Rpower_m2 : forall a, 0 < a -> Rpower a (-2) = / (a * a).
Proof.
  intros a P. replace (-2) with (- INR 2) by (simpl; lra).
  rewrite Rpower_Ropp, Rpower_pow by auto. f_equal. simpl. ring.
Qed.

Lemma partial_unique : forall k f x a b, partial k f x a -> partial k f x b -> a = b.
Proof. intros k f x a b A B. exact (uniqueness_limite _ _ _ _ A B). Qed.
Lemma partial_ext : forall k f g x a, (forall y, f y = g y) -> partial k f x a -> partial k g x a.
Proof. intros k f g x a E H. eapply dl_ext; [|exact H]. intros t. simpl. apply E. Qed.

Section S.
Variable eps : R.
Hypothesis Heps : eps <> 0.

(** The gradient, written without output arguments. *)
Definition sg (x : nat -> R) (k : nat) : R :=
  match k with
  | O => 2 * PI * cos (2 * PI * x O) * sin (2 * PI * x 1%nat)
         - eps * PI * sin (2 * PI * (x O / eps)) * sin (2 * PI * x O) * sin (2 * PI * x 1%nat)
         + PI * cos (2 * PI * x O) * sin (2 * PI * x 1%nat) * cos (2 * PI * (x O / eps))
  | S O => 2 * PI * sin (2 * PI * x O) * cos (2 * PI * x 1%nat)
         + eps * PI * sin (2 * PI * (x O / eps)) * cos (2 * PI * x O) * cos (2 * PI * x 1%nat)
  | _ => 0
  end.

Ltac start := unfold partial, moved; cbn [Nat.eqb].

Lemma TP : TWOPI = 2 * PI.
Proof. unfold TWOPI. ring. Qed.

Lemma syn_gradient_sg : forall x k, partial k (syn_exact eps) x (sg x k).
Proof.
  intros x k. destruct k as [|[|k]]; start; unfold syn_exact; rewrite ?TP; cbn [Nat.eqb].
  - eapply dl_eq; [derive|]; auto. unfold sg. field; auto.
  - eapply dl_eq; [derive|]; auto. unfold sg. field; auto.
  - unfold sg. apply dl_const.
Qed.
Lemma syn_jacobian_sg : forall x k g0, (k < 2)%nat -> syn_jacobian eps x g0 k = sg x k.
Proof.
  intros x k g0 L. destruct k as [|[|k]]; [| |lia];
    unfold syn_jacobian, set1, sg; rewrite ?TP; cbn [Nat.eqb]; ring.
Qed.
Lemma syn_gradient : forall g0, gradient 2 (syn_exact eps) (fun x => syn_jacobian eps x (g0 x)).
Proof.
  intros g0 x k L. rewrite syn_jacobian_sg by auto. apply syn_gradient_sg.
Qed.

Lemma syn_source_div : forall g e0 f0 x,
  gradient 2 (syn_exact eps) g ->
  divergence 2 (fun y => syn_flux eps (e0 y) y (g y) (f0 y)) x (- syn_source eps x).
Proof.
  intros g e0 f0 x G.
  assert (E : forall y k, (k < 2)%nat -> g y k = sg y k).
  { intros y k L. eapply partial_unique; [apply G; auto|apply syn_gradient_sg]. }
  pose proof (cos2_pos (2 * PI * (x 0%nat / eps))) as P2. pose proof PI_neq.
  assert (P1 : forall y, syn_flux eps (e0 y) y (g y) (f0 y) 0%nat =
      2 * (1 / (8 * PI * PI)) * (1 / (2 + cos (2 * PI * (y O / eps)))) * sg y 0%nat).
  { intros y. rewrite <- E by lia. unfold syn_flux, syn_diffusion, set1, set2.
    cbn [Nat.eqb andb]. rewrite TP. reflexivity. }
  assert (P3 : forall y, syn_flux eps (e0 y) y (g y) (f0 y) 1%nat =
      (1 / (8 * PI * PI)) * (1 + (1/2) * cos (2 * PI * (y O / eps))) * sg y 1%nat).
  { intros y. rewrite <- E by lia. unfold syn_flux, syn_diffusion, set1, set2.
    cbn [Nat.eqb andb]. rewrite TP. reflexivity. }
  set (c := 2 * PI * (x 0%nat / eps)) in *.
  eexists _, _. split; [eexists _, _; split; [reflexivity|split]|split].
  - eapply partial_ext; [intros y; symmetry; apply P1|].
    start. unfold sg. cbn [Nat.eqb]. derive; auto. fold c. lra.
  - reflexivity.
  - eapply partial_ext; [intros y; symmetry; apply P3|].
    start. unfold sg. cbn [Nat.eqb]. derive; auto.
  - unfold syn_source. rewrite Rpower_m2; rewrite TP; fold c; [|lra].
    field. repeat split; auto. lra.
Qed.

(** Bounds. *)
Lemma syn_diag : forall x r, 
  1 / (12 * (PI * PI)) <= syn_diffusion eps x r 0%nat 0%nat <= 1 / (4 * (PI * PI)) /\
  1 / (16 * (PI * PI)) <= syn_diffusion eps x r 1%nat 1%nat <= 3 / (16 * (PI * PI)).
Proof.
  intros x r. unfold syn_diffusion, set2. cbn [Nat.eqb andb]. rewrite TP.
  set (c := cos (2 * PI * (x 0%nat / eps))).
  assert (B : -1 <= c <= 1) by apply COS_bound. pose proof PI_RGT_0 as P.
  assert (PP : 0 < PI * PI) by nra. set (q := PI * PI) in *.
  assert (Q : 0 < / q) by (apply Rinv_0_lt_compat; auto).
  assert (I1 : / 3 <= / (2 + c)) by (apply Rinv_le_contravar; lra).
  assert (I2 : / (2 + c) <= 1) by (rewrite <- Rinv_1; apply Rinv_le_contravar; lra).
  replace (1 / (8 * PI * PI)) with (/ 8 * / q) by (unfold q; field; lra).
  replace (1 / (12 * q)) with (/ 12 * / q) by (field; lra).
  replace (1 / (4 * q)) with (/ 4 * / q) by (field; lra).
  replace (1 / (16 * q)) with (/ 16 * / q) by (field; lra).
  replace (3 / (16 * q)) with (3 / 16 * / q) by (field; lra).
  replace (1 / (2 + c)) with (/ (2 + c)) by (field; lra).
  set (i := / (2 + c)) in *. set (w := / q) in *. repeat split; nra.
Qed.
End S.

(** ER2007. *)
Ltac start := unfold partial, moved; cbn [Nat.eqb].
Lemma er_gradient : gradient 2 er_exact er_exact_jacobian.
Proof.
  intros x k L. destruct k as [|[|k]]; [| |lia]; start; unfold er_exact; cbn [Nat.eqb];
    (eapply dl_eq; [derive|]); unfold er_exact_jacobian, exact_deriv; ring.
Qed.
Lemma er_source_div : forall g f0 x,
  gradient 2 er_exact g ->
  divergence 2 (fun y => er_flux y (g y) (f0 y)) x (- er_source x).
Proof.
  intros g f0 x G.
  assert (E : forall y k, (k < 2)%nat -> g y k = exact_deriv y k).
  { intros y k L. eapply partial_unique; [apply G; auto|apply er_gradient; auto]. }
  eexists _, _. split; [eexists _, _; split; [reflexivity|split]|split].
  - apply (partial_ext 0 (fun y => exact_deriv y 0%nat)).
    + intros y. rewrite <- E by lia. reflexivity.
    + start. unfold exact_deriv. cbn [Nat.eqb]. derive.
  - reflexivity.
  - apply (partial_ext 1 (fun y => exact_deriv y 1%nat)).
    + intros y. rewrite <- E by lia. reflexivity.
    + start. unfold exact_deriv. cbn [Nat.eqb]. derive.
  - unfold er_source. ring.
Qed.
Lemma er_source_partial : forall x k, (k < 2)%nat ->
  partial k er_source x (64 * PI * PI * exact_deriv x k).
Proof.
  intros x k L. destruct k as [|[|k]]; [| |lia]; start; unfold er_source; cbn [Nat.eqb];
    (eapply dl_eq; [derive|]); unfold exact_deriv; ring.
Qed.
Lemma er_source_deriv_wrong : forall x k, (k < 2)%nat ->
  (partial k er_source x (er_source_jacobian x k) <-> sin (8 * PI * x k) = 0).
Proof.
  intros x k L. pose proof (er_source_partial x k L) as H. pose proof PI_RGT_0 as P.
  assert (PI2 : 2 < PI) by (pose proof PI2_1; lra).
  assert (E : exact_deriv x k = -8 * PI * sin (8 * PI * x k)) by (destruct k as [|[|]]; [auto|auto|lia]).
  split; intros D.
  - pose proof (partial_unique _ _ _ _ _ H D) as U. unfold er_source_jacobian in U. rewrite E in U.
    assert (Z : (64 * PI * PI - 1) * (8 * PI) * sin (8 * PI * x k) = 0) by lra.
    apply Rmult_integral in Z. destruct Z as [Z|Z]; auto. nra.
  - unfold er_source_jacobian. rewrite E, D in *. eapply dl_eq; [exact H|ring].
Qed.

(** Boundary values of the synthetic problem. *)
Lemma sin_whole : forall k, sin (2 * PI * INR k) = 0.
Proof.
  intros k. replace (2 * PI * INR k) with (0 + 2 * INR k * PI) by ring.
  rewrite sin_period. apply sin_0.
Qed.
Lemma cos_whole : forall k, cos (2 * PI * INR k) = 1.
Proof.
  intros k. replace (2 * PI * INR k) with (0 + 2 * INR k * PI) by ring.
  rewrite cos_period. apply cos_0.
Qed.
Lemma syn_boundary_low : forall eps x, x 1%nat = 0 \/ x 1%nat = 1 \/ x 0%nat = 0 ->
  syn_dirichlet eps x = 0.
Proof.
  intros eps x H. unfold syn_dirichlet, syn_exact. rewrite TP.
  destruct H as [H|[H|H]]; rewrite H.
  - replace (2 * PI * 0) with 0 by ring. rewrite sin_0. ring.
  - replace (2 * PI * 1) with (2 * PI * INR 1) by (simpl; ring). rewrite sin_whole. ring.
  - replace (2 * PI * 0) with 0 by ring. unfold Rdiv. rewrite Rmult_0_l.
    replace (2 * PI * 0) with 0 by ring. rewrite sin_0. ring.
Qed.
Lemma syn_boundary_right : forall eps x, x 0%nat = 1 ->
  syn_dirichlet eps x = 1/2 * eps * sin (2 * PI / eps) * sin (2 * PI * x 1%nat).
Proof.
  intros eps x H. unfold syn_dirichlet, syn_exact. rewrite TP, H.
  replace (2 * PI * 1) with (2 * PI * INR 1) by (simpl; ring).
  rewrite sin_whole, cos_whole.
  replace (2 * PI * (1 / eps)) with (2 * PI / eps) by (unfold Rdiv; ring). ring.
Qed.
Lemma syn_boundary_right_zero : forall eps, eps <> 0 ->
  ((forall x, x 0%nat = 1 -> syn_dirichlet eps x = 0) <-> sin (2 * PI / eps) = 0).
Proof.
  intros eps N. split.
  - intros H. set (x := fun k : nat => match k with O => 1 | _ => 1/4 end).
    specialize (H x eq_refl). rewrite syn_boundary_right in H by reflexivity.
    unfold x in H. replace (2 * PI * (1/4)) with (PI / 2) in H by field.
    rewrite sin_PI2 in H.
    assert (E : eps * sin (2 * PI / eps) = 0) by lra.
    apply Rmult_integral in E. destruct E; [contradiction|auto].
  - intros Z x H. rewrite syn_boundary_right by auto. rewrite Z. ring.
Qed.
Lemma syn_default_zero : sin (2 * PI / get_eps None) = 0.
Proof.
  unfold get_eps. replace (2 * PI / (5 / 100)) with (2 * PI * INR 20).
  - apply sin_whole.
  - replace (INR 20) with 20 by (simpl; ring). field.
Qed.
