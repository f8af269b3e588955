(** Proofs for C137. *)
From Coq Require Import ZArith QArith Qabs Qreals Reals List Arith Bool Lra Lia.
From Verif Require Import Util RSum LinModel LinSpec LinProofs EnergyProofs SolveSpec SolveProofs InexactSpec InexactProofs.
From Verif Require Import SmpModel RoundSpec FlSmpModel FlSmpSpec DriftSpec.
From Verif Require SampleProofs.
Import ListNotations.
Open Scope R_scope.

Lemma Q2R_abs : forall x, Rabs (Q2R x) = Q2R (Qabs x).
Proof.
  intros x. apply Qabs_case; intros H; apply Qle_Rle in H; replace (Q2R 0) with 0 in H by (unfold Q2R; cbn; lra).
  - apply Rabs_right. lra.
  - rewrite Q2R_opp. apply Rabs_left1. lra.
Qed.

Lemma rsum_abs : forall n f, Rabs (rsum n f) <= rsum n (fun i => Rabs (f i)).
Proof.
  induction n as [|n IH]; intros f; cbn [rsum]; [rewrite Rabs_R0; lra|].
  eapply Rle_trans; [apply Rabs_triang|]. specialize (IH f). lra.
Qed.
Lemma rsum_const : forall n c, rsum n (fun _ => c) = INR n * c.
Proof. induction n as [|n IH]; intros c; cbn [rsum]; [cbn; ring|]. rewrite IH, S_INR. ring. Qed.
Lemma abs_sum_square : forall n v, rsum n (fun i => Rabs (v i)) * rsum n (fun i => Rabs (v i)) <= INR n * squares n v.
Proof.
  intros n v. pose proof (cauchy_sum n (fun i => Rabs (v i)) (fun _ => 1)) as C. cbv beta in C.
  rewrite !(rsum_ext n (fun i => Rabs (v i) * 1) (fun i => Rabs (v i))) in C by (intros; ring).
  unfold squares in *. rewrite (rsum_ext n (fun i => Rabs (v i) * Rabs (v i)) (fun i => v i * v i)) in C
    by (intros; rewrite <- Rabs_mult; apply Rabs_right; apply Rle_ge; apply Rle_0_sqr).
  rewrite (rsum_const n (1 * 1)) in C. lra.
Qed.

Section Near.
Variables (n : nat) (con : nat -> bool) (M M' : nat -> nat -> R) (b b' g : nat -> R) (c e f : R).
Hypothesis St : stiff n con M c.
Hypothesis Pe : 0 <= e.
Hypothesis De : forall i j, (i < n)%nat -> (j < n)%nat -> Rabs (M' i j - M i j) <= e.
Hypothesis Df : forall i, (i < n)%nat -> Rabs (b' i - b i) <= f.
Hypothesis Sm : INR n * e < c.

Lemma still_stiff : stiff n con M' (c - INR n * e).
Proof.
  intros v V. pose proof (St v V) as S.
  set (X := rsum n (fun i => rsum n (fun j => M i j * v j * v i))) in *.
  set (Y := rsum n (fun i => rsum n (fun j => (M' i j - M i j) * v j * v i))).
  assert (E : rsum n (fun i => rsum n (fun j => M' i j * v j * v i)) = X + Y).
  { unfold X, Y. rewrite <- rsum_plus. apply rsum_ext. intros i _. rewrite <- rsum_plus. apply rsum_ext. intros. ring. }
  assert (B : Rabs Y <= e * (INR n * squares n v)).
  { apply Rle_trans with (e * (rsum n (fun i => Rabs (v i)) * rsum n (fun i => Rabs (v i)))).
    2:{ apply Rmult_le_compat_l; auto. apply abs_sum_square. }
    unfold Y. eapply Rle_trans; [apply rsum_abs|]. rewrite <- rsum_scale_r, <- rsum_scale. apply SampleProofs.rsum_le. intros i Li.
    eapply Rle_trans; [apply rsum_abs|]. rewrite <- rsum_scale, <- rsum_scale. apply SampleProofs.rsum_le. intros j Lj.
    rewrite !Rabs_mult. pose proof (De i j Li Lj). pose proof (Rabs_pos (v i)). pose proof (Rabs_pos (v j)).
    replace (e * (Rabs (v i) * Rabs (v j))) with (e * Rabs (v j) * Rabs (v i)) by ring.
    apply Rmult_le_compat_r; auto. apply Rmult_le_compat_r; auto. }
  rewrite E. assert (- Y <= Rabs Y) by (rewrite <- Rabs_Ropp; apply Rle_abs). lra.
Qed.

Lemma stiff_unique : forall A a, 0 < a -> stiff n con A a -> unique n con A.
Proof.
  intros A a Pa S u U.
  assert (V : vanishes n con u). { intros i Li Ci. specialize (U i Li). now rewrite Ci in U. }
  assert (Z : rsum n (fun i => rsum n (fun j => A i j * u j * u i)) = 0).
  { apply rsum_0. intros i Li. rewrite rsum_scale_r. specialize (U i Li). destruct (con i) eqn:C; [rewrite U|rewrite U]; ring. }
  specialize (S u V). rewrite Z in S. pose proof (squares_nonneg n u) as Q.
  assert (Sq : squares n u = 0) by nra. unfold squares in Sq. intros i Li.
  assert (P : u i * u i <= rsum n (fun k => u k * u k)).
  { clear - Li. induction n as [|m IH]; [lia|]. cbn [rsum]. assert (H : 0 <= rsum m (fun k => u k * u k)) by (apply rsum_nonneg; intros; apply Rle_0_sqr).
    destruct (Nat.eq_dec i m) as [->|N]; [lra|]. specialize (IH ltac:(lia)). pose proof (Rle_0_sqr (u m)) as Q. unfold Rsqr in Q. lra. }
  nra.
Qed.

Lemma one_near : one_solution n (coarse_apply n con M' b' g).
Proof.
  destruct (unique_one n con M' (stiff_unique M' (c - INR n * e) ltac:(lra) still_stiff) b' g) as ((u & U) & One). split.
  - exists u. now apply coarse_bvp.
  - intros x y X Y. apply One; now apply coarse_bvp.
Qed.

Lemma near : forall u u', coarse_apply n con M b g u -> coarse_apply n con M' b' g u' ->
  (c - INR n * e) * (c - INR n * e) * squares n (fun i => u i - u' i) <=
  INR n * ((f + e * rsum n (fun j => Rabs (u j))) * (f + e * rsum n (fun j => Rabs (u j)))).
Proof.
  intros u u' U U'. apply coarse_bvp in U. apply coarse_bvp in U'.
  assert (W : forall i, (i < n)%nat -> con i = true -> u i = g i).
  { intros i Li Ci. specialize (U i Li). now rewrite Ci in U. }
  destruct (bvp_error n con M' b' g u' u U' W) as (Ve & Eq).
  destruct (error_bound n con M' (c - INR n * e) (fun i => u i - u' i) (residual n con M' b' u)) as (_ & B); auto; [lra| |].
  { intros v V. pose proof (still_stiff v V) as S. eapply Rle_trans; [exact S|]. apply Req_le. unfold dot, mv. apply rsum_ext. intros i _. now rewrite rsum_scale_r. }
  eapply Rle_trans; [exact B|]. rewrite <- rsum_const. unfold squares. apply SampleProofs.rsum_le. intros i Li.
  set (r := f + e * rsum n (fun j => Rabs (u j))).
  assert (H : Rabs (residual n con M' b' u i) <= r).
  { unfold residual. destruct (con i) eqn:Ci.
    - rewrite Rabs_R0. unfold r. assert (0 <= f) by (eapply Rle_trans; [apply Rabs_pos|apply (Df i Li)]).
      assert (0 <= rsum n (fun j => Rabs (u j))) by (apply rsum_nonneg; intros; apply Rabs_pos). pose proof (Rmult_le_pos e _ Pe H0). lra.
    - specialize (U i Li). rewrite Ci in U.
      replace (b' i - rsum n (fun j => M' i j * u j)) with ((b' i - b i) - rsum n (fun j => (M' i j - M i j) * u j)).
      2:{ rewrite <- U. rewrite (rsum_ext n (fun j => (M' i j - M i j) * u j) (fun j => M' i j * u j - M i j * u j)) by (intros; ring). rewrite rsum_minus. ring. }
      unfold Rminus at 1. eapply Rle_trans; [apply Rabs_triang|]. rewrite Rabs_Ropp. unfold r. apply Rplus_le_compat; [now apply Df|].
      eapply Rle_trans; [apply rsum_abs|]. rewrite <- rsum_scale. apply SampleProofs.rsum_le. intros j Lj. rewrite Rabs_mult.
      apply Rmult_le_compat_r; [apply Rabs_pos|auto]. }
  rewrite <- (Rabs_right (residual n con M' b' u i * residual n con M' b' u i)) by (apply Rle_ge; apply Rle_0_sqr).
  rewrite Rabs_mult. apply Rmult_le_compat; auto using Rabs_pos.
Qed.
End Near.
