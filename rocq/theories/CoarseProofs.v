(** Proofs for C43-C45. *)
From Coq Require Import Reals List Arith Bool Lra Lia Permutation.
From Verif Require Import Util RSum CoarseModel CoarseSpec.
Import ListNotations.
Open Scope R_scope.

(** Folds of additions are sums. *)
Definition ind (b : bool) : R := if b then 1 else 0.

Lemma madd_val : forall M i j x a b,
  madd M i j x a b = M a b + ind (Nat.eqb a i && Nat.eqb b j) * x.
Proof. intros. unfold madd, ind. destruct (_ && _); ring. Qed.
Lemma vadd_val : forall V i x a, vadd V i x a = V a + ind (Nat.eqb a i) * x.
Proof. intros. unfold vadd, ind. destruct (Nat.eqb a i); ring. Qed.

Lemma fold_sum2 : forall A (step : (nat -> nat -> R) -> A -> nat -> nat -> R) (g : A -> nat -> nat -> R) l M a b,
  (forall M x a b, step M x a b = M a b + g x a b) ->
  fold_left step l M a b = M a b + lsum l (fun x => g x a b).
Proof.
  induction l as [|x l IH]; simpl; intros M a b H; [ring|].
  rewrite IH by auto. rewrite H. ring.
Qed.
Lemma fold_sum1 : forall A (step : (nat -> R) -> A -> nat -> R) (g : A -> nat -> R) l V a,
  (forall V x a, step V x a = V a + g x a) ->
  fold_left step l V a = V a + lsum l (fun x => g x a).
Proof.
  induction l as [|x l IH]; simpl; intros V a H; [ring|].
  rewrite IH by auto. rewrite H. ring.
Qed.

Lemma lsum_seq : forall n s f, lsum (seq s n) f = rsum n (fun i => f (s + i)%nat).
Proof.
  induction n as [|n IH]; intros s f; auto.
  rewrite seq_S, lsum_app, IH. simpl. ring.
Qed.

Lemma rsum_ind : forall n a f, (a < n)%nat -> rsum n (fun i => ind (Nat.eqb a i) * f i) = f a.
Proof.
  intros n a f L. rewrite (rsum_single n a); auto.
  - rewrite Nat.eqb_refl. simpl. ring.
  - intros j Lj N. destruct (Nat.eqb_spec a j); [congruence|]. simpl. ring.
Qed.

Section P.
Variable d : nat.
Variable P : Type.
Variable diffusion : P -> nat -> nat -> R.
Variable source : P -> R.
Notation ccell := (coarse_cell P).
Notation lcell := (local_cell P).

Lemma ind_and : forall a b, ind (a && b) = ind a * ind b.
Proof. intros [] []; simpl; ring. Qed.

(** Entry of the element matrix. *)
Lemma element_matrix_val : forall (c : ccell) (l : lcell) a b,
  (a < cc_n P c)%nat -> (b < cc_n P c)%nat ->
  element_matrix d P diffusion c l a b =
  energy d P diffusion l (used_grad P c l b) (used_grad P c l a).
Proof.
  intros c l a b La Lb. unfold element_matrix.
  rewrite (fold_sum2 _ _ (fun q a b => rsum (cc_n P c) (fun ii => rsum (cc_n P c) (fun jj =>
     ind (Nat.eqb a jj) * (ind (Nat.eqb b ii) * integrand d P diffusion c l q ii jj))))).
  - rewrite Rplus_0_l. unfold energy. apply lsum_ext. intros q _.
    rewrite (rsum_ext _ _ (fun ii => ind (Nat.eqb b ii) * integrand d P diffusion c l q ii a))
      by (intros; apply (rsum_ind (cc_n P c) a (fun jj => ind (Nat.eqb b i) * integrand d P diffusion c l q i jj)); auto).
    rewrite rsum_ind by auto. unfold integrand, used_grad, recon_grad. ring.
  - intros M q a' b'.
    rewrite (fold_sum2 _ _ (fun ii a b => rsum (cc_n P c) (fun jj =>
      ind (Nat.eqb a jj) * (ind (Nat.eqb b ii) * integrand d P diffusion c l q ii jj)))).
    + rewrite lsum_seq. reflexivity.
    + intros M' ii a'' b''.
      rewrite (fold_sum2 _ _ (fun jj a b =>
        ind (Nat.eqb a jj) * (ind (Nat.eqb b ii) * integrand d P diffusion c l q ii jj))).
      * rewrite lsum_seq. reflexivity.
      * intros. rewrite madd_val, ind_and. ring.
Qed.

Lemma write_matrix_val : forall (c : ccell) M L a b,
  write_matrix P c M L a b =
  M a b + rsum (cc_n P c) (fun i => rsum (cc_n P c) (fun j => hit P c i a * hit P c j b * L i j)).
Proof.
  intros c M L a b. unfold write_matrix.
  rewrite (fold_sum2 _ _ (fun i a b => rsum (cc_n P c) (fun j => hit P c i a * hit P c j b * L i j))).
  - rewrite lsum_seq. reflexivity.
  - intros M' ii a' b'.
    rewrite (fold_sum2 _ _ (fun j a b => hit P c ii a * hit P c j b * L ii j)).
    + rewrite lsum_seq. reflexivity.
    + intros. rewrite madd_val, ind_and. unfold hit, ind.
      rewrite (Nat.eqb_sym (cc_index P c ii)), (Nat.eqb_sym (cc_index P c x)). ring.
Qed.

(** Contribution of one cell. *)
Definition cell_part (c : ccell) (a b : nat) : R :=
  rsum (cc_n P c) (fun i => rsum (cc_n P c) (fun j =>
    hit P c i a * hit P c j b *
    lsum (covered P c) (fun l => energy d P diffusion l (used_grad P c l j) (used_grad P c l i)))).

Lemma assemble_cell_val : forall M (c : ccell) M',
  assemble_cell d P diffusion M c = Some M' ->
  forall a b, M' a b = M a b + cell_part c a b.
Proof.
  intros M c M' H a b. unfold assemble_cell in H. destruct (Nat.eqb _ _); [|discriminate].
  injection H as <-.
  rewrite (fold_sum2 _ _ (fun l a b => if lc_covered P l then
     rsum (cc_n P c) (fun i => rsum (cc_n P c) (fun j => hit P c i a * hit P c j b *
       energy d P diffusion l (used_grad P c l j) (used_grad P c l i))) else 0)).
  - f_equal. unfold cell_part, covered. rewrite <- (lsum_filter _ (lc_covered P)).
    rewrite lsum_rsum. apply rsum_ext. intros i Li.
    rewrite lsum_rsum. apply rsum_ext. intros j Lj. apply lsum_scale.
  - intros M' l a' b'. destruct (lc_covered P l); [|ring].
    rewrite write_matrix_val. f_equal. apply rsum_ext. intros i Li. apply rsum_ext. intros j Lj.
    rewrite element_matrix_val by auto. reflexivity.
Qed.

Lemma assemble_matrix_val : forall cs M M',
  assemble_matrix d P diffusion M cs = Some M' ->
  forall a b, M' a b = M a b + lsum cs (fun c => cell_part c a b).
Proof.
  induction cs as [|c cs IH]; simpl; intros M M' H a b.
  - injection H as <-. ring.
  - destruct (assemble_cell d P diffusion M c) as [M1|] eqn:E; [|discriminate].
    rewrite (IH _ _ H), (assemble_cell_val _ _ _ E). ring.
Qed.

Lemma assemble_matrix_some : forall cs M,
  (exists M', assemble_matrix d P diffusion M cs = Some M') <->
  (forall c, In c cs -> (cc_slots P c - 2 = cc_n P c)%nat).
Proof.
  induction cs as [|c cs IH]; simpl; intros M.
  - split; [intros _ c []|eauto].
  - unfold assemble_cell at 1. destruct (Nat.eqb_spec (cc_slots P c - 2) (cc_n P c)) as [E|E].
    + rewrite IH. split; [intros H c' [<-|I]; auto|intros H c' I; auto].
    + split; [intros (M' & D); discriminate|]. intros H. exfalso. apply E. apply H. auto.
Qed.

(** Bilinearity of the energy product. *)
Lemma energy_sym : forall l u v,
  (forall x, sym d (diffusion x)) -> energy d P diffusion l u v = energy d P diffusion l v u.
Proof.
  intros l u v S. unfold energy. apply lsum_ext. intros q _. f_equal.
  apply dot_mv_sym. apply S.
Qed.

Lemma energy_sum : forall l n (c1 c2 : nat -> R) (g : nat -> P -> nat -> R),
  energy d P diffusion l (fun x k => rsum n (fun j => c1 j * g j x k))
                         (fun x k => rsum n (fun i => c2 i * g i x k)) =
  rsum n (fun i => rsum n (fun j => c2 i * c1 j * energy d P diffusion l (g j) (g i))).
Proof.
  intros l n c1 c2 g. unfold energy.
  rewrite (rsum_ext n _ (fun i => lsum (lc_quad P l) (fun q =>
     rsum n (fun j => c2 i * c1 j * (lc_factor P l (fst q) * snd q *
       dot d (mv d (diffusion (lc_global P l (fst q))) (g j (fst q))) (g i (fst q))))))).
  - rewrite <- lsum_rsum. apply lsum_ext. intros q _.
    rewrite dot_sum_r, <- rsum_scale. apply rsum_ext. intros i Li.
    rewrite (dot_ext d _ (fun k => rsum n (fun j => c1 j * mv d (diffusion (lc_global P l (fst q))) (g j (fst q)) k))
             (g i (fst q)) (g i (fst q))); [|intros; apply mv_sum|auto].
    rewrite (dot_sum_l d n c1 (fun j => mv d (diffusion (lc_global P l (fst q))) (g j (fst q)))).
    rewrite <- (rsum_scale n (c2 i)), <- rsum_scale. apply rsum_ext. intros j Lj. ring.
  - intros i Li. rewrite lsum_rsum. apply rsum_ext. intros j Lj. symmetry. apply lsum_scale.
Qed.

Lemma energy_nonneg : forall l u,
  (forall x, psd d (diffusion x)) ->
  (forall q, In q (lc_quad P l) -> 0 <= lc_factor P l (fst q) * snd q) ->
  0 <= energy d P diffusion l u u.
Proof.
  intros l u S W. unfold energy. apply lsum_nonneg. intros q I.
  apply Rmult_le_pos; [apply W; auto|apply S].
Qed.

(** Quadratic form of a cell. *)
Lemma hit_sum : forall c i N x, (cc_index P c i < N)%nat ->
  rsum N (fun a => hit P c i a * x a) = x (cc_index P c i).
Proof. intros c i N x L. unfold hit. apply (rsum_ind N (cc_index P c i) x L). Qed.

Lemma cell_qform : forall c N x,
  (forall i, (i < cc_n P c)%nat -> (cc_index P c i < N)%nat) ->
  qform N (cell_part c) x =
  lsum (covered P c) (fun l => energy d P diffusion l
     (fun y k => rsum (cc_n P c) (fun j => x (cc_index P c j) * used_grad P c l j y k))
     (fun y k => rsum (cc_n P c) (fun j => x (cc_index P c j) * used_grad P c l j y k))).
Proof.
  intros c N x L.
  rewrite (lsum_ext _ _ _ (fun l => rsum (cc_n P c) (fun i => rsum (cc_n P c) (fun j =>
      x (cc_index P c i) * x (cc_index P c j) *
      energy d P diffusion l (used_grad P c l j) (used_grad P c l i)))))
    by (intros; apply energy_sum).
  rewrite lsum_rsum.
  set (n := cc_n P c) in *.
  set (E := fun i j => lsum (covered P c) (fun l =>
        energy d P diffusion l (used_grad P c l j) (used_grad P c l i))).
  rewrite (rsum_ext n _ (fun i => rsum n (fun j => x (cc_index P c i) * x (cc_index P c j) * E i j))).
  2:{ intros i Li. rewrite lsum_rsum. apply rsum_ext. intros j Lj. apply lsum_scale. }
  unfold qform, cell_part. fold n.
  transitivity (rsum n (fun i => rsum n (fun j =>
      rsum N (fun a => rsum N (fun b => (hit P c i a * x a) * (hit P c j b * x b) * E i j))))).
  - rewrite (rsum_ext N _ (fun a => rsum n (fun i => rsum n (fun j => rsum N (fun b =>
        (hit P c i a * x a) * (hit P c j b * x b) * E i j))))).
    + rewrite rsum_swap. apply rsum_ext. intros i Li. rewrite rsum_swap. reflexivity.
    + intros a La.
      rewrite (rsum_ext N _ (fun b => rsum n (fun i => rsum n (fun j =>
        (hit P c i a * x a) * (hit P c j b * x b) * E i j)))).
      * rewrite rsum_swap. apply rsum_ext. intros i Li. rewrite rsum_swap. reflexivity.
      * intros b Lb. rewrite <- !rsum_scale_r. apply rsum_ext. intros i Li.
        rewrite <- !rsum_scale_r. apply rsum_ext. intros j Lj. unfold E. ring.
  - apply rsum_ext. intros i Li. apply rsum_ext. intros j Lj.
    rewrite (rsum_ext N _ (fun a => hit P c i a * x a * (x (cc_index P c j) * E i j))).
    + rewrite rsum_scale_r, hit_sum by auto. ring.
    + intros a La.
      rewrite (rsum_ext N _ (fun b => hit P c j b * x b * (hit P c i a * x a * E i j)))
        by (intros; ring).
      rewrite rsum_scale_r, hit_sum by auto. ring.
Qed.

Lemma cell_psd : forall c N x,
  (forall y, psd d (diffusion y)) -> weights_ok P c ->
  (forall i, (i < cc_n P c)%nat -> (cc_index P c i < N)%nat) ->
  0 <= qform N (cell_part c) x.
Proof.
  intros c N x S W L. rewrite cell_qform by auto. apply lsum_nonneg. intros l I.
  apply energy_nonneg; auto. intros q Q. apply (W l q); auto.
  unfold covered in I. apply filter_In in I. tauto.
Qed.

Lemma cell_part_sym : forall c a b, (forall y, sym d (diffusion y)) -> cell_part c a b = cell_part c b a.
Proof.
  intros c a b S. unfold cell_part. rewrite rsum_swap. apply rsum_ext. intros j Lj.
  apply rsum_ext. intros i Li.
  rewrite (lsum_ext _ _ _ (fun l => energy d P diffusion l (used_grad P c l i) (used_grad P c l j)))
    by (intros; apply energy_sym; auto). ring.
Qed.

Lemma global_sym_psd : forall cs M N,
  (forall y, sym d (diffusion y)) -> (forall y, psd d (diffusion y)) ->
  (forall c, In c cs -> weights_ok P c) ->
  (forall c i, In c cs -> (i < cc_n P c)%nat -> (cc_index P c i < N)%nat) ->
  assemble_matrix d P diffusion (fun _ _ => 0) cs = Some M ->
  (forall a b, M a b = M b a) /\ (forall x, 0 <= qform N M x).
Proof.
  intros cs M N S1 S2 W L H. pose proof (assemble_matrix_val _ _ _ H) as V.
  split.
  - intros a b. rewrite !V. f_equal. apply lsum_ext. intros. apply cell_part_sym; auto.
  - intros x. unfold qform.
    rewrite (rsum_ext N _ (fun a => rsum N (fun b => lsum cs (fun c => cell_part c a b * x a * x b)))).
    + rewrite (rsum_ext N _ (fun a => lsum cs (fun c => rsum N (fun b => cell_part c a b * x a * x b))))
        by (intros; symmetry; apply lsum_rsum).
      rewrite <- lsum_rsum. apply lsum_nonneg. intros c I. apply (cell_psd c N x); auto.
    + intros a La. apply rsum_ext. intros b Lb. rewrite V, Rplus_0_l.
      rewrite (lsum_ext _ _ (fun c => cell_part c a b * x a * x b) (fun c => (x a * x b) * cell_part c a b))
        by (intros; ring).
      rewrite lsum_scale. ring.
Qed.

(** right hand side *)
Lemma element_vector_val : forall (c : ccell) (l : lcell) i,
  (i < cc_n P c)%nat ->
  element_vector d P diffusion source c l i =
  load P source l (used_val P c l i) -
  rhs_energy d P diffusion l (fun x k => lc_grad P l (cc_n P c + 1) x k - lc_grad P l (cc_n P c) x k)
    (used_grad P c l i).
Proof.
  intros c l i Li. unfold element_vector.
  set (term := fun (q : P * R) ii =>
     lc_factor P l (fst q) * snd q * (source (lc_global P l (fst q)) * (cc_val P c ii (fst q) + lc_val P l ii (fst q)))
     - lc_factor P l (fst q) * snd q *
       dot d (mv d (diffusion (lc_global P l (fst q))) (direction P c l (fst q))) (recon_grad P c l ii (fst q))).
  rewrite (fold_sum1 _ _ (fun q a => rsum (cc_n P c) (fun ii => ind (Nat.eqb a ii) * term q ii))).
  - rewrite Rplus_0_l. unfold load, rhs_energy. rewrite <- lsum_minus. apply lsum_ext. intros q _.
    rewrite rsum_ind by auto. unfold term, used_val, recon_grad, used_grad.
    f_equal. f_equal. apply dot_ext; auto. intros k Lk. apply mv_ext. intros m Lm.
    unfold direction. ring.
  - intros V q a. rewrite (fold_sum1 _ _ (fun ii a => ind (Nat.eqb a ii) * term q ii)).
    + rewrite lsum_seq. reflexivity.
    + intros. rewrite !vadd_val. unfold term. ring.
Qed.

Definition cell_vec (c : ccell) (a : nat) : R :=
  rsum (cc_n P c) (fun i => hit P c i a *
    lsum (covered P c) (fun l => load P source l (used_val P c l i) -
      rhs_energy d P diffusion l (fun x k => lc_grad P l (cc_n P c + 1) x k - lc_grad P l (cc_n P c) x k)
        (used_grad P c l i))).

Lemma assemble_rhs_val : forall V (c : ccell) V',
  assemble_rhs_cell d P diffusion source V c = Some V' ->
  forall a, V' a = V a + cell_vec c a.
Proof.
  intros V c V' H a. unfold assemble_rhs_cell in H. destruct (Nat.eqb _ _); [|discriminate].
  injection H as <-.
  rewrite (fold_sum1 _ _ (fun l a => if lc_covered P l then
     rsum (cc_n P c) (fun i => hit P c i a * (load P source l (used_val P c l i) -
      rhs_energy d P diffusion l (fun x k => lc_grad P l (cc_n P c + 1) x k - lc_grad P l (cc_n P c) x k)
        (used_grad P c l i))) else 0)).
  - f_equal. unfold cell_vec, covered. rewrite <- (lsum_filter _ (lc_covered P)).
    rewrite lsum_rsum. apply rsum_ext. intros i Li. apply lsum_scale.
  - intros V' l a'. destruct (lc_covered P l); [|ring].
    unfold write_vector. rewrite (fold_sum1 _ _ (fun i a => hit P c i a * element_vector d P diffusion source c l i)).
    + rewrite lsum_seq. f_equal. apply rsum_ext. intros i Li.
      cbn [Nat.add]. rewrite element_vector_val by auto. reflexivity.
    + intros. rewrite vadd_val. unfold hit, ind. rewrite Nat.eqb_sym. reflexivity.
Qed.

Lemma assemble_vector_val : forall cs V V',
  assemble_vector d P diffusion source V cs = Some V' ->
  forall a, V' a = V a + lsum cs (fun c => cell_vec c a).
Proof.
  induction cs as [|c cs IH]; simpl; intros V V' H a.
  - injection H as <-. ring.
  - destruct (assemble_rhs_cell d P diffusion source V c) as [V1|] eqn:E; [|discriminate].
    rewrite (IH _ _ H), (assemble_rhs_val _ _ _ E). ring.
Qed.
End P.
