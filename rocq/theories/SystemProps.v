(** Theorems about the coarse system as a whole: C90, C91, C92. *)
From Coq Require Import Reals List Arith Bool Lra Lia Permutation.
From Verif Require Import Util RSum CoarseModel CoarseSpec CoarseProofs CoarseProps LinModel SystemModel SystemSpec SystemProofs.
Import ListNotations.
Open Scope R_scope.

(** A result of the coarse solve is a function with the prescribed values at
    the constrained indices that balances load and prescribed flux against
    every corrected coarse function vanishing there; and every such function
    is a possible result.  Its boundary correctors are integrated with another
    quadrature than its corrected coarse functions. *)
Theorem C90_multiscale_solution_balances : forall d P diffusion source neumann cells N constrained g u,
  (forall c fs i, In (c, fs) cells -> (i < cc_n P c)%nat -> (cc_index P c i < N)%nat) ->
  (forall c fs, In (c, fs) cells -> (cc_slots P c = cc_n P c + 2)%nat) ->
  (coarse_solution d P diffusion source neumann N constrained g cells u <->
   (forall i, (i < N)%nat -> constrained i = true -> u i = g i) /\
   (forall v, (forall i, (i < N)%nat -> constrained i = true -> v i = 0) ->
     lsum cells (fun cf => lsum (covered P (fst cf)) (fun l =>
       ms_energy d P diffusion u (fst cf) l (test_grad P v (fst cf) l))) =
     lsum cells (fun cf => lsum (covered P (fst cf)) (fun l => load P source l (test_val P v (fst cf) l))
       + boundary_load P neumann (snd cf) (test_coarse P v (fst cf))))).
Proof. intros. apply weak_form; auto. apply walk_some; auto. Qed.
Print Assumptions C90_multiscale_solution_balances.

(** If both quadratures agree on the boundary correctors (C107), the energy is
    that of the multiscale function. *)
Theorem C90_balances_as_one_function : forall d P diffusion source neumann cells N constrained g u,
  (forall c fs i, In (c, fs) cells -> (i < cc_n P c)%nat -> (cc_index P c i < N)%nat) ->
  (forall c fs, In (c, fs) cells -> (cc_slots P c = cc_n P c + 2)%nat) ->
  rules_agree d P diffusion cells ->
  (coarse_solution d P diffusion source neumann N constrained g cells u <->
   (forall i, (i < N)%nat -> constrained i = true -> u i = g i) /\
   (forall v, (forall i, (i < N)%nat -> constrained i = true -> v i = 0) ->
     lsum cells (fun cf => lsum (covered P (fst cf)) (fun l =>
       energy d P diffusion l (ms_grad P u (fst cf) l) (test_grad P v (fst cf) l))) =
     lsum cells (fun cf => lsum (covered P (fst cf)) (fun l => load P source l (test_val P v (fst cf) l))
       + boundary_load P neumann (snd cf) (test_coarse P v (fst cf))))).
Proof.
  intros d P diffusion source neumann cells N constrained g u L D A.
  rewrite C90_multiscale_solution_balances by auto.
  assert (E : forall v, lsum cells (fun cf => lsum (covered P (fst cf)) (fun l =>
       ms_energy d P diffusion u (fst cf) l (test_grad P v (fst cf) l))) =
     lsum cells (fun cf => lsum (covered P (fst cf)) (fun l =>
       energy d P diffusion l (ms_grad P u (fst cf) l) (test_grad P v (fst cf) l)))).
  { intros v. apply lsum_ext. intros (c, fs) I. apply lsum_ext. intros l Il. now apply (ms_energy_agree d P diffusion cells u v c fs l). }
  split; intros (X & Y); (split; [exact X|]); intros v Z; specialize (Y v Z); [now rewrite <- E|now rewrite E].
Qed.
Print Assumptions C90_balances_as_one_function.

(** The system is assembled exactly if every cell has two correctors more than
    basis functions. *)
Theorem C90_assembled_iff : forall d P diffusion source neumann cells,
  (exists M V, walk d P diffusion source neumann (fun _ _ => 0) (fun _ => 0) cells = Some (M, V)) <->
  (forall c fs, In (c, fs) cells -> (cc_slots P c = cc_n P c + 2)%nat).
Proof.
  intros. rewrite <- (walk_some d P diffusion source neumann cells (fun _ _ => 0) (fun _ => 0)).
  split; [intros (M & V & E); eauto|intros ((M, V) & E); eauto].
Qed.
Print Assumptions C90_assembled_iff.

(** The order of the cells does not matter. *)
Theorem C90_order_irrelevant : forall d P diffusion source neumann cells cells' N constrained g u,
  Permutation cells cells' ->
  (forall c fs i, In (c, fs) cells -> (i < cc_n P c)%nat -> (cc_index P c i < N)%nat) ->
  coarse_solution d P diffusion source neumann N constrained g cells u ->
  coarse_solution d P diffusion source neumann N constrained g cells' u.
Proof.
  intros d P diffusion source neumann cells cells' N constrained g u Pm L S.
  assert (D : forall c fs, In (c, fs) cells -> (cc_slots P c = cc_n P c + 2)%nat).
  { destruct S as (M & V & E & _). apply (walk_some d P diffusion source neumann cells (fun _ _ => 0) (fun _ => 0)). eauto. }
  assert (I : forall c fs, In (c, fs) cells' -> In (c, fs) cells)
    by (intros c fs H; apply (Permutation_in _ (Permutation_sym Pm)); auto).
  apply C90_multiscale_solution_balances in S; auto. destruct S as (A & B).
  apply C90_multiscale_solution_balances; eauto. split; auto. intros v Z. specialize (B v Z).
  rewrite <- !(lsum_perm _ cells cells' _ Pm). exact B.
Qed.
Print Assumptions C90_order_irrelevant.

(** Two results of the coarse solve describe the same gradient. *)
Theorem C91_gradient_is_determined : forall d P diffusion source neumann cells N constrained g u u',
  (forall c fs i, In (c, fs) cells -> (i < cc_n P c)%nat -> (cc_index P c i < N)%nat) ->
  (forall y (z : nat -> R), (exists k, (k < d)%nat /\ z k <> 0) -> 0 < dot d (mv d (diffusion y) z) z) ->
  (forall c fs, In (c, fs) cells -> weights_ok P c) ->
  coarse_solution d P diffusion source neumann N constrained g cells u ->
  coarse_solution d P diffusion source neumann N constrained g cells u' ->
  forall c fs l q w k, In (c, fs) cells -> In l (covered P c) -> In (q, w) (lc_quad P l) ->
    lc_factor P l q * w <> 0 -> (k < d)%nat ->
    ms_grad P u c l q k = ms_grad P u' c l q k.
Proof.
  intros d P diffusion source neumann cells N constrained g u u' L PD W S S'.
  assert (PS : forall y z, 0 <= dot d (mv d (diffusion y) z) z).
  { intros y z. destruct (Exists_dec (fun k => z k <> 0) (seq 0 d)) as [X|X].
    - intros k. destruct (Req_EM_T (z k) 0); [right|left]; auto.
    - apply Rlt_le, PD. apply Exists_exists in X. destruct X as (k & I & X). exists k. apply in_seq in I. split; auto; lia.
    - right. symmetry. unfold dot. apply rsum_0. intros k Lk.
      assert (z k = 0). { destruct (Req_dec (z k) 0); auto. exfalso. apply X, Exists_exists. exists k. split; auto. apply in_seq; lia. }
      rewrite H. ring. }
  assert (D : forall c fs, In (c, fs) cells -> (cc_slots P c = cc_n P c + 2)%nat).
  { destruct S as (M & V & E & _). apply (walk_some d P diffusion source neumann cells (fun _ _ => 0) (fun _ => 0)). eauto. }
  apply C90_multiscale_solution_balances in S; auto. apply C90_multiscale_solution_balances in S'; auto.
  destruct S as (A & B). destruct S' as (A' & B').
  set (v := fun i => u i - u' i).
  assert (Z : forall i, (i < N)%nat -> constrained i = true -> v i = 0).
  { intros i Li C. unfold v. rewrite A, A' by auto. ring. }
  specialize (B v Z). specialize (B' v Z). rewrite <- B' in B. clear B'.
  assert (T : forall c l x k, ms_grad P u c l x k = ms_grad P u' c l x k + test_grad P v c l x k).
  { intros c l x k. unfold ms_grad, test_grad, v.
    rewrite (rsum_ext _ (fun i => (u (cc_index P c i) - u' (cc_index P c i)) * used_grad P c l i x k)
      (fun i => u (cc_index P c i) * used_grad P c l i x k + (-1) * (u' (cc_index P c i) * used_grad P c l i x k)))
      by (intros; ring).
    rewrite rsum_plus, rsum_scale. ring. }
  assert (E0 : lsum cells (fun cf => lsum (covered P (fst cf)) (fun l =>
     energy d P diffusion l (test_grad P v (fst cf) l) (test_grad P v (fst cf) l))) = 0).
  { cut (forall X Y Q : R, X = Y -> X = Y + Q -> Q = 0); [|intros; lra]. intros LR. eapply LR; [exact B|].
    rewrite <- lsum_plus. apply lsum_ext. intros cf _. rewrite <- lsum_plus. apply lsum_ext. intros l _.
    unfold ms_energy.
    cut (forall X Y Q B : R, X = Y + Q -> X + B = Y + B + Q); [|intros; lra]. intros LR2. apply LR2.
    rewrite <- energy_plus_l. unfold energy. apply lsum_ext. intros q _. f_equal. apply dot_ext; auto.
    intros i Li. apply mv_ext. intros k _. specialize (T (fst cf) l (fst q) k). unfold ms_grad in T. unfold test_grad at 1 2. lra. }
  intros c fs l q w k Ic Il Iq Wq Lk. rewrite T.
  assert (test_grad P v c l q k = 0); [|lra].
  assert (NN : forall c fs l, In (c, fs) cells -> In l (covered P c) ->
     0 <= energy d P diffusion l (test_grad P v c l) (test_grad P v c l)).
  { intros c0 fs0 l0 I0 J0. unfold energy. apply lsum_nonneg. intros q0 H0. apply Rmult_le_pos; [|apply PS].
    apply (W c0 fs0 I0 l0 q0); auto. unfold covered in J0. apply filter_In in J0. tauto. }
  assert (E1 : lsum (covered P c) (fun l => energy d P diffusion l (test_grad P v c l) (test_grad P v c l)) = 0).
  { apply (lsum_zero_each _ cells (fun cf => lsum (covered P (fst cf)) (fun l =>
     energy d P diffusion l (test_grad P v (fst cf) l) (test_grad P v (fst cf) l)))) with (x := (c, fs)); auto.
    intros (c0, fs0) I0. apply lsum_nonneg. intros l0 J0. simpl in *. eapply NN; eauto. }
  assert (E2 : energy d P diffusion l (test_grad P v c l) (test_grad P v c l) = 0).
  { apply (lsum_zero_each _ (covered P c) (fun l => energy d P diffusion l (test_grad P v c l) (test_grad P v c l))); auto.
    intros l0 J0. eapply NN; eauto. }
  unfold energy in E2.
  assert (Jl : In l (cc_locals P c)) by (unfold covered in Il; apply filter_In in Il; tauto).
  apply (lsum_zero_each _ (lc_quad P l)) with (x := (q, w)) in E2; auto.
  - cbn [fst snd] in E2. apply Rmult_integral in E2. destruct E2 as [E2|E2]; [contradiction|].
    destruct (Req_dec (test_grad P v c l q k) 0); auto. exfalso.
    pose proof (PD (lc_global P l q) (test_grad P v c l q)) as X. rewrite E2 in X.
    apply (Rlt_irrefl 0), X. eauto.
  - intros q0 H0. apply Rmult_le_pos; [|apply PS]. apply (W c fs Ic l q0); auto.
Qed.
Print Assumptions C91_gradient_is_determined.

(** Without constrained indices: a solution exists only if the total load and
    the total prescribed flux cancel, provided the corrected coarse functions
    have gradients summing to zero. *)
Theorem C92_pure_neumann_needs_balanced_data : forall d P diffusion source neumann cells N constrained g u,
  (forall c fs i, In (c, fs) cells -> (i < cc_n P c)%nat -> (cc_index P c i < N)%nat) ->
  (forall i, (i < N)%nat -> constrained i = false) ->
  (forall c fs l q k, In (c, fs) cells -> In l (covered P c) -> In q (lc_quad P l ++ lc_rquad P l) -> (k < d)%nat ->
     rsum (cc_n P c) (fun i => used_grad P c l i (fst q) k) = 0) ->
  coarse_solution d P diffusion source neumann N constrained g cells u ->
  lsum cells (fun cf => lsum (covered P (fst cf)) (fun l =>
      load P source l (fun x => rsum (cc_n P (fst cf)) (fun i => used_val P (fst cf) l i x)))
    + boundary_load P neumann (snd cf) (fun x => rsum (cc_n P (fst cf)) (fun i => cc_val P (fst cf) i x))) = 0.
Proof.
  intros d P diffusion source neumann cells N constrained g u L F Gz S.
  assert (D : forall c fs, In (c, fs) cells -> (cc_slots P c = cc_n P c + 2)%nat).
  { destruct S as (M & V & E & _). apply (walk_some d P diffusion source neumann cells (fun _ _ => 0) (fun _ => 0)). eauto. }
  apply C90_multiscale_solution_balances in S; auto. destruct S as (_ & B).
  specialize (B (fun _ => 1)). cbv beta in B.
  transitivity (lsum cells (fun cf => lsum (covered P (fst cf)) (fun l => load P source l (test_val P (fun _ => 1) (fst cf) l))
       + boundary_load P neumann (snd cf) (test_coarse P (fun _ => 1) (fst cf)))).
  - apply lsum_ext. intros cf _. f_equal.
    + apply lsum_ext. intros l _. unfold load. apply lsum_ext. intros q _. unfold test_val. do 2 f_equal.
      apply rsum_ext. intros. ring.
    + unfold boundary_load, test_coarse. apply lsum_ext. intros f _. apply lsum_ext. intros q _. do 2 f_equal.
      apply rsum_ext. intros. ring.
  - rewrite <- B by (intros i Li C; rewrite F in C by auto; discriminate).
    apply lsum_0. intros (c, fs) I. apply lsum_0. intros l Il. cbn [fst].
    assert (T0 : forall q, In q (lc_quad P l ++ lc_rquad P l) -> forall k, (k < d)%nat -> test_grad P (fun _ => 1) c l (fst q) k = 0).
    { intros q Iq k Lk. rewrite <- (Gz c fs l q k I Il Iq Lk). unfold test_grad. apply rsum_ext. intros. ring. }
    unfold ms_energy, energy, rhs_energy. rewrite !lsum_0; [ring| |]; intros q Iq; unfold dot; (rewrite rsum_0; [ring|]);
      intros k Lk; (rewrite T0; [ring| |exact Lk]); apply in_or_app; auto.
Qed.
Print Assumptions C92_pure_neumann_needs_balanced_data.

(** And then the level of the solution is free. *)
Theorem C92_pure_neumann_level_is_free : forall d P diffusion source neumann cells N constrained g u s,
  (forall c fs i, In (c, fs) cells -> (i < cc_n P c)%nat -> (cc_index P c i < N)%nat) ->
  (forall i, (i < N)%nat -> constrained i = false) ->
  (forall c fs l q k, In (c, fs) cells -> In l (covered P c) -> In q (lc_quad P l ++ lc_rquad P l) -> (k < d)%nat ->
     rsum (cc_n P c) (fun i => used_grad P c l i (fst q) k) = 0) ->
  coarse_solution d P diffusion source neumann N constrained g cells u ->
  coarse_solution d P diffusion source neumann N constrained g cells (fun i => u i + s).
Proof.
  intros d P diffusion source neumann cells N constrained g u s L F Gz S.
  assert (D : forall c fs, In (c, fs) cells -> (cc_slots P c = cc_n P c + 2)%nat).
  { destruct S as (M & V & E & _). apply (walk_some d P diffusion source neumann cells (fun _ _ => 0) (fun _ => 0)). eauto. }
  apply C90_multiscale_solution_balances in S; auto. destruct S as (_ & B).
  apply C90_multiscale_solution_balances; auto. split; [intros i Li C; rewrite F in C by auto; discriminate|].
  intros v Z. rewrite <- B by auto. apply lsum_ext. intros (c, fs) I. apply lsum_ext. intros l Il.
  unfold ms_energy. f_equal. unfold energy. apply lsum_ext. intros q Iq. cbn [fst]. f_equal. apply dot_ext; auto. intros i Li. apply mv_ext.
  intros k Lk. unfold test_grad.
  rewrite (rsum_ext _ _ (fun j => u (cc_index P c j) * used_grad P c l j (fst q) k + s * used_grad P c l j (fst q) k))
    by (intros; ring).
  rewrite rsum_plus, rsum_scale, (Gz c fs l q k) by (auto; apply in_or_app; auto). ring.
Qed.
Print Assumptions C92_pure_neumann_level_is_free.

(** The unit square, flux 1 prescribed on the right, value 0 on the left: the
    solution is the first coordinate. *)
Definition right_edge : cface pt :=
  {| cf_neumann := true; cf_quad := [((1, 0), (1, 0), 1/6); ((1, 1/2), (1, 1/2), 4/6); ((1, 1), (1, 1), 1/6)] |}.
Definition left_edge : cface pt :=
  {| cf_neumann := false; cf_quad := [((0, 0), (0, 0), 1/6); ((0, 1/2), (0, 1/2), 4/6); ((0, 1), (0, 1), 1/6)] |}.
Definition first_coordinate (i : nat) : R := match i with 1%nat | 3%nat => 1 | _ => 0 end.
Definition on_left (i : nat) : bool := Nat.even i.
Example C90_case :
  (forall c fs i, In (c, fs) [(four, [left_edge; right_edge])] -> (i < cc_n pt c)%nat -> (cc_index pt c i < 4)%nat) /\
  coarse_solution 2 pt id_diff (fun _ => 0) (fun _ => 1) 4 on_left (fun _ => 0) [(four, [left_edge; right_edge])] first_coordinate.
Proof.
  assert (L : forall c fs i, In (c, fs) [(four, [left_edge; right_edge])] -> (i < cc_n pt c)%nat -> (cc_index pt c i < 4)%nat).
  { intros c fs i [E|[]] Li. injection E as <- <-. exact Li. }
  split; auto. apply C90_multiscale_solution_balances; auto.
  { intros c fs [E|[]]. now injection E as <- <-. }
  split.
  - intros i Li C. do 4 (destruct i as [|i]; [try reflexivity; discriminate C|]). lia.
  - intros v Z. pose proof (Z 0%nat ltac:(lia) eq_refl) as Z0. pose proof (Z 2%nat ltac:(lia) eq_refl) as Z2.
    unfold covered, ms_energy, boundary_grad, energy, rhs_energy, load, boundary_load, test_grad, test_val, test_coarse, used_grad, used_val, dot, mv, id_diff, first_coordinate.
    simpl. rewrite Z0, Z2. field.
Qed.
(** Pure Neumann: flux 1 on the right, -1 on the left. *)
Example C92_case :
  (forall l q k, In l (covered pt four) -> In q (lc_quad pt l ++ lc_rquad pt l) -> (k < 2)%nat ->
     rsum (cc_n pt four) (fun i => used_grad pt four l i (fst q) k) = 0) /\
  coarse_solution 2 pt id_diff (fun _ => 0) (fun p => fst p - (1 - fst p)) 4 (fun _ => false) (fun _ => 0)
    [(four, [right_edge; {| cf_neumann := true; cf_quad := cf_quad pt left_edge |}])] first_coordinate.
Proof.
  split.
  - intros l q k Il _ Lk. unfold used_grad.
    assert (E : forall i, lc_grad pt l i (fst q) k = 0).
    { intros i. simpl in Il. repeat (destruct Il as [<-|Il]; [reflexivity|]). destruct Il. }
    cbn [cc_n four bil_cell rsum cc_grad]. rewrite !E. destruct k as [|[|k]]; [| |lia]; simpl; ring.
  - apply C90_multiscale_solution_balances.
    + intros c fs i [E|[]] Li. injection E as <- <-. exact Li.
    + intros c fs [E|[]]. now injection E as <- <-.
    + split; [intros i Li C; discriminate C|]. intros v _.
      unfold covered, ms_energy, boundary_grad, energy, rhs_energy, load, boundary_load, test_grad, test_val, test_coarse, used_grad, used_val, dot, mv, id_diff, first_coordinate.
      simpl. field.
Qed.
Example C91_case :
  (forall y (z : nat -> R), (exists k, (k < 2)%nat /\ z k <> 0) -> 0 < dot 2 (mv 2 (id_diff y) z) z) /\
  weights_ok pt four /\ In (sub_cell 0 0 (1/2)) (covered pt four) /\
  In ((1/2, 1/2), 16/36) (lc_quad pt (sub_cell 0 0 (1/2))) /\
  ms_grad pt first_coordinate four (sub_cell 0 0 (1/2)) (1/2, 1/2) 0%nat = 1.
Proof.
  split.
  - intros y z (k & L & Z). unfold dot, mv, id_diff. simpl.
    replace (0 + (0 + 1 * z 0%nat + 0 * z 1%nat) * z 0%nat + (0 + 0 * z 0%nat + 1 * z 1%nat) * z 1%nat)
      with (Rsqr (z 0%nat) + Rsqr (z 1%nat)) by (unfold Rsqr; ring).
    pose proof (Rle_0_sqr (z 0%nat)). pose proof (Rle_0_sqr (z 1%nat)).
    destruct k as [|[|k]]; [| |lia]; pose proof (Rsqr_pos_lt _ Z); lra.
  - split; [exact four_weights|]. split; [simpl; auto|]. split; [simpl; tauto|].
    unfold ms_grad, used_grad, first_coordinate. simpl. lra.
Qed.
