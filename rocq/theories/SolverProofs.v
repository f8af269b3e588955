(** Proofs for C102. *)
From Coq Require Import Reals List Arith Bool String Lia FunctionalExtensionality Permutation Ring.
From Verif Require Import Util RSum StorageModel StorageSpec MsfemModel MsfemSpec MsfemReconProofs
  SolutionModel SolutionProofs SolverModel SolverSpec CoarseModel SystemModel.
Import ListNotations.

Lemma other_not_used : forall built conf, other_solver built conf <-> use_umfpack built conf = false.
Proof.
  intros built conf. unfold other_solver, use_umfpack, solver_type. split.
  - intros [->|(t & -> & N)]; [reflexivity|]. apply andb_false_iff. right. now apply String.eqb_neq.
  - intros H. apply andb_false_iff in H. destruct H as [H|H]; [now left|right].
    destruct conf as [t|]; [|discriminate]. exists t. split; [reflexivity|]. now apply String.eqb_neq.
Qed.

Section S.
Variable F : Scalar.
Add Ring KR : (k_ring F).

Lemma unchanged : forall built conf l s r x,
  other_solver built conf -> apply_inverse F built conf l s r = Some x -> x = s.
Proof.
  intros built conf l s r x O H. apply other_not_used in O. unfold apply_inverse in H. rewrite O in H.
  destruct (negb (s_valid F l r)); [discriminate|].
  destruct (negb (s_options F l (solver_type conf))); [discriminate|].
  destruct (s_apply F l (solver_type conf) s r); [|discriminate].
  destruct (s_valid F l s); [|discriminate]. now injection H.
Qed.

Definition all_zero (v : vec F) : Prop := forall j, nth j v (k0 F) = k0 F.

Lemma scaled_zero : forall v, all_zero (vscale F (k0 F) v).
Proof.
  intros v j. unfold vscale. revert j.
  induction v as [|a v IH]; intros [|j]; cbn [map nth]; auto. ring.
Qed.

Lemma loop_zero : forall built conf c, other_solver built conf -> solved_with F built conf c ->
  forall rhs sols num i out, (forall v, In v sols -> all_zero v) ->
  solve_loop F c num i rhs sols = Some out -> forall v, In v out -> all_zero v.
Proof.
  intros built conf c O (l & HL). induction rhs as [|r rhs IH]; intros [|s sols] num i out Z H v I;
    cbn [solve_loop] in H; try (injection H as <-; destruct I).
  destruct (if (num <=? i) && negb (c_boundary F c) then Some (vscale F (k0 F) s) else c_solve F c s r)
    as [x|] eqn:E; [|discriminate].
  destruct (solve_loop F c num (S i) rhs sols) as [m|] eqn:L; [|discriminate]. injection H as <-.
  destruct I as [<-|I].
  - destruct ((num <=? i) && negb (c_boundary F c)).
    + injection E as <-. apply scaled_zero.
    + rewrite HL in E. apply unchanged in E; auto. subst x. apply Z. now left.
  - eapply IH; [|exact L|exact I]. intros w W. apply Z. now right.
Qed.

Lemma cell_zero : forall built conf c sols0 sols, other_solver built conf -> solved_with F built conf c ->
  solve_all_on_single_cell F c sols0 = Some sols -> forall i j, coef F sols i j = k0 F.
Proof.
  intros built conf c sols0 sols O U H i j. unfold solve_all_on_single_cell in H.
  destruct (assemble_rhs F c (repeat (vzero F (c_len F c)) (Datatypes.length sols0))) as [rhs|]; [|discriminate].
  unfold coef. destruct (Nat.lt_ge_cases i (Datatypes.length sols)) as [L|G].
  - refine (loop_zero built conf c O U _ _ _ _ _ _ H _ (nth_In _ _ L) j).
    intros v I. apply in_map_iff in I. destruct I as (w & <- & _). apply scaled_zero.
  - rewrite (nth_overflow sols) by exact G. destruct j; reflexivity.
Qed.

Lemma kadd_0_l : forall x : F, kadd F (k0 F) x = x.
Proof. intros x. ring. Qed.

Lemma sum_zero : forall n f, (forall i, f i = k0 F) -> sum_n F n f = k0 F.
Proof. induction n as [|n IH]; intros f H; cbn [sum_n]; auto. rewrite IH, H by auto. ring. Qed.

Lemma ref_zero : forall cut mesh n coarse sols j, (forall i m, coef F sols i m = k0 F) ->
  ref_value F cut mesh n coarse sols j = k0 F.
Proof.
  intros cut mesh n coarse sols j Z. unfold ref_value. rewrite !Z, sum_zero.
  - destruct (cut && outside mesh j); ring.
  - intros i. rewrite Z. ring.
Qed.

End S.

Section P.
Variable P : Type.

Lemma plain_cell : forall n w c, local_functions P n w c -> (forall i j, w i j = 0%R) ->
  without_correctors P c = c.
Proof.
  intros n w c H Z. destruct c as [cn cg cv ci cs ls]. unfold without_correctors.
  cbn [cc_n cc_grad cc_val cc_index cc_slots cc_locals]. f_equal.
  unfold local_functions in H. cbn [cc_locals] in H.
  induction ls as [|l ls IH]; [reflexivity|]. cbn [map]. f_equal.
  - destruct (H l (or_introl eq_refl)) as (value & gradient & V & G). destruct l as [a b c' d e f g].
    cbn [lc_covered lc_global lc_factor lc_quad lc_grad lc_val] in *. f_equal.
    + apply functional_extensionality. intros i. apply functional_extensionality. intros x.
      apply functional_extensionality. intros k. rewrite G. symmetry. apply rsum_0.
      intros j _. rewrite Z. apply Rmult_0_l.
    + apply functional_extensionality. intros i. apply functional_extensionality. intros x.
      rewrite V. symmetry. apply rsum_0. intros j _. rewrite Z. apply Rmult_0_l.
  - apply IH. intros m M. apply H. now right.
Qed.
End P.
