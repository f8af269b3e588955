(** Proofs for C90, C91. *)
From Coq Require Import Reals List Arith Bool Lra Lia Permutation.
From Verif Require Import Util RSum CoarseModel CoarseSpec CoarseProofs LinModel LinSpec LinProofs SystemModel SystemSpec.
Import ListNotations.
Open Scope R_scope.

Lemma lsum_zero_each : forall A (l : list A) f x,
  (forall a, In a l -> 0 <= f a) -> lsum l f = 0 -> In x l -> f x = 0.
Proof.
  intros A l f x. induction l as [|a l IH]; intros N Z I; [destruct I|]. cbn [lsum] in Z.
  assert (0 <= f a) by (apply N; left; auto).
  assert (0 <= lsum l f) by (apply lsum_nonneg; intros; apply N; right; auto).
  destruct I as [->|I]; [lra|]. apply IH; auto; [intros; apply N; right; auto|lra].
Qed.

Section S.
Variable d : nat.
Variable P : Type.
Variable diffusion : P -> nat -> nat -> R.
Variable source : P -> R.
Variable neumann : P -> R.
Notation en := (CoarseSpec.energy d P diffusion).
Notation ren := (rhs_energy d P diffusion).
Notation msen := (ms_energy d P diffusion).

(** An element with the quadrature of the right hand side for both. *)
Definition with_rhs_rule (l : local_cell P) : local_cell P :=
  {| lc_covered := lc_covered P l; lc_global := lc_global P l; lc_factor := lc_factor P l;
     lc_grad := lc_grad P l; lc_val := lc_val P l; lc_quad := lc_rquad P l; lc_rquad := lc_rquad P l |}.
Lemma rhs_energy_rule : forall l u v, ren l u v = en (with_rhs_rule l) u v.
Proof. reflexivity. Qed.

Lemma add_face_val : forall c V f a,
  add_face P neumann c V f a = V a + (if cf_neumann P f then rsum (cc_n P c) (fun i => hit P c i a *
    lsum (cf_quad P f) (fun q => snd q * (neumann (snd (fst q)) * cc_val P c i (fst (fst q))))) else 0).
Proof.
  intros c V f a. unfold add_face. destruct (cf_neumann P f); [|ring].
  rewrite (fold_sum1 _ _ (fun i a => hit P c i a *
    lsum (cf_quad P f) (fun q => snd q * (neumann (snd (fst q)) * cc_val P c i (fst (fst q)))))).
  - rewrite lsum_seq. reflexivity.
  - intros W i b. rewrite vadd_val. unfold hit, ind. rewrite Nat.eqb_sym. destruct (Nat.eqb b (cc_index P c i)); ring.
Qed.

Lemma add_faces_val : forall c fs V a,
  fold_left (add_face P neumann c) fs V a =
  V a + rsum (cc_n P c) (fun i => hit P c i a * boundary_load P neumann fs (cc_val P c i)).
Proof.
  intros c. induction fs as [|f fs IH]; intros V a; cbn [fold_left].
  - unfold boundary_load. simpl. rewrite rsum_0; [ring|]. intros. ring.
  - rewrite IH, add_face_val. unfold boundary_load. cbn [filter]. destruct (cf_neumann P f); cbn [lsum]; [|ring].
    rewrite Rplus_assoc, <- rsum_plus. f_equal. apply rsum_ext. intros. ring.
Qed.

Definition rhs_part (cf : coarse_cell P * list (cface P)) (a : nat) : R :=
  rsum (cc_n P (fst cf)) (fun i => hit P (fst cf) i a *
    (lsum (covered P (fst cf)) (fun l => load P source l (used_val P (fst cf) l i) -
       ren l (fun x k => lc_grad P l (cc_n P (fst cf) + 1) x k - lc_grad P l (cc_n P (fst cf)) x k)
         (used_grad P (fst cf) l i))
     + boundary_load P neumann (snd cf) (cc_val P (fst cf) i))).

Lemma walk_val : forall cells M V M' V',
  walk d P diffusion source neumann M V cells = Some (M', V') ->
  (forall a b, M' a b = M a b + lsum cells (fun cf => cell_part d P diffusion (fst cf) a b)) /\
  (forall a, V' a = V a + lsum cells (fun cf => rhs_part cf a)).
Proof.
  induction cells as [|(c, fs) r IH]; intros M V M' V' E; cbn [walk] in E.
  - injection E as <- <-. split; intros; simpl; ring.
  - destruct (assemble_cell d P diffusion M c) as [M1|] eqn:EM; [|discriminate].
    destruct (assemble_rhs_cell d P diffusion source V c) as [V1|] eqn:EV; [|discriminate].
    apply IH in E. destruct E as (A & B). split.
    + intros a b. rewrite A. rewrite (assemble_cell_val _ _ _ _ _ _ EM). cbn [lsum fst]. ring.
    + intros a. rewrite B, add_faces_val. rewrite (assemble_rhs_val _ _ _ _ _ _ _ EV). cbn [lsum].
      unfold rhs_part at 2. cbn [fst snd]. rewrite Rplus_assoc, Rplus_assoc. f_equal. rewrite <- Rplus_assoc. f_equal.
      unfold cell_vec. rewrite <- rsum_plus. apply rsum_ext. intros. ring.
Qed.

Lemma walk_some : forall cells M V,
  (exists r, walk d P diffusion source neumann M V cells = Some r) <->
  forall c fs, In (c, fs) cells -> (cc_slots P c = cc_n P c + 2)%nat.
Proof.
  induction cells as [|(c, fs) r IH]; intros M V; cbn [walk].
  - split; [intros _ c fs []|eauto].
  - unfold assemble_cell, assemble_rhs_cell. destruct (Nat.eqb_spec (cc_slots P c) (cc_n P c + 2)) as [E|N].
    + assert (E' : Nat.eqb (cc_slots P c - 2) (cc_n P c) = true) by (apply Nat.eqb_eq; lia).
      rewrite E'. rewrite IH. split.
      * intros H c' fs' [X|I]; [injection X as <- <-; auto|eauto].
      * intros H c' fs' I. apply (H c' fs'). simpl. auto.
    + split.
      * intros (x & H). destruct (Nat.eqb (cc_slots P c - 2) (cc_n P c)); discriminate.
      * intros H. exfalso. apply N. apply (H c fs). simpl. auto.
Qed.

(** Energy is linear in its first argument. *)
Lemma energy_plus_l : forall l u v w, en l (fun x k => u x k + v x k) w = en l u w + en l v w.
Proof.
  intros l u v w. unfold CoarseSpec.energy. rewrite <- lsum_plus. apply lsum_ext. intros q _.
  rewrite (dot_ext d (mv d (diffusion (lc_global P l (fst q))) (fun k => u (fst q) k + v (fst q) k))
    (fun i => mv d (diffusion (lc_global P l (fst q))) (u (fst q)) i + mv d (diffusion (lc_global P l (fst q))) (v (fst q)) i)
    (w (fst q)) (w (fst q))); [| |reflexivity].
  - unfold dot. rewrite <- Rmult_plus_distr_l, <- rsum_plus. f_equal. apply rsum_ext. intros. ring.
  - intros i L. apply mv_plus.
Qed.
Lemma energy_sum_l : forall l n (x : nat -> R) (g : nat -> P -> nat -> R) w,
  en l (fun y k => rsum n (fun j => x j * g j y k)) w = rsum n (fun j => x j * en l (g j) w).
Proof.
  intros l n x g w. unfold CoarseSpec.energy.
  transitivity (lsum (lc_quad P l) (fun q => rsum n (fun j => x j *
    (lc_factor P l (fst q) * snd q * dot d (mv d (diffusion (lc_global P l (fst q))) (g j (fst q))) (w (fst q)))))).
  - apply lsum_ext. intros q _.
    rewrite (dot_ext d _ (fun i => rsum n (fun j => x j * mv d (diffusion (lc_global P l (fst q))) (g j (fst q)) i)) _ (w (fst q)));
      [|intros i L; apply mv_sum|reflexivity].
    rewrite (dot_sum_l d n x (fun j => mv d (diffusion (lc_global P l (fst q))) (g j (fst q)))).
    rewrite <- rsum_scale. apply rsum_ext. intros. ring.
  - rewrite lsum_rsum. apply rsum_ext. intros j L. now rewrite lsum_scale.
Qed.

Lemma cell_apply : forall c N u a,
  (forall i, (i < cc_n P c)%nat -> (cc_index P c i < N)%nat) ->
  rsum N (fun b => cell_part d P diffusion c a b * u b) =
  rsum (cc_n P c) (fun i => hit P c i a * lsum (covered P c) (fun l =>
    en l (fun y k => rsum (cc_n P c) (fun j => u (cc_index P c j) * used_grad P c l j y k)) (used_grad P c l i))).
Proof.
  intros c N u a L. unfold cell_part.
  transitivity (rsum N (fun b => rsum (cc_n P c) (fun i => rsum (cc_n P c) (fun j =>
    hit P c i a * (lsum (covered P c) (fun l => en l (used_grad P c l j) (used_grad P c l i))) * (hit P c j b * u b))))).
  { apply rsum_ext. intros b Lb. rewrite <- rsum_scale_r. apply rsum_ext. intros i Li.
    rewrite <- rsum_scale_r. apply rsum_ext. intros j Lj. ring. }
  rewrite rsum_swap. apply rsum_ext. intros i Li. rewrite rsum_swap.
  transitivity (rsum (cc_n P c) (fun j => hit P c i a *
    (u (cc_index P c j) * lsum (covered P c) (fun l => en l (used_grad P c l j) (used_grad P c l i))))).
  { apply rsum_ext. intros j Lj. rewrite rsum_scale, hit_sum by auto. ring. }
  rewrite rsum_scale. f_equal.
  transitivity (rsum (cc_n P c) (fun j => lsum (covered P c) (fun l =>
    u (cc_index P c j) * en l (used_grad P c l j) (used_grad P c l i)))).
  { apply rsum_ext. intros j Lj. now rewrite lsum_scale. }
  rewrite <- lsum_rsum. apply lsum_ext. intros l _. now rewrite energy_sum_l.
Qed.

(** The equations of the coarse system. *)
Lemma balance : forall cells M V N u a,
  (forall c fs i, In (c, fs) cells -> (i < cc_n P c)%nat -> (cc_index P c i < N)%nat) ->
  walk d P diffusion source neumann (fun _ _ => 0) (fun _ => 0) cells = Some (M, V) ->
  (rsum N (fun b => M a b * u b) = V a <->
   lsum cells (fun cf => rsum (cc_n P (fst cf)) (fun i => hit P (fst cf) i a *
     lsum (covered P (fst cf)) (fun l => msen u (fst cf) l (used_grad P (fst cf) l i)))) =
   lsum cells (fun cf => rsum (cc_n P (fst cf)) (fun i => hit P (fst cf) i a *
     (lsum (covered P (fst cf)) (fun l => load P source l (used_val P (fst cf) l i))
      + boundary_load P neumann (snd cf) (cc_val P (fst cf) i))))).
Proof.
  intros cells M V N u a L E. destruct (walk_val _ _ _ _ _ E) as (A & B).
  rewrite B. rewrite (rsum_ext N _ (fun b => lsum cells (fun cf => cell_part d P diffusion (fst cf) a b * u b))).
  2:{ intros b Lb. rewrite A, Rplus_0_l.
      transitivity (u b * lsum cells (fun cf => cell_part d P diffusion (fst cf) a b)); [ring|].
      rewrite <- lsum_scale. apply lsum_ext. intros. ring. }
  rewrite <- lsum_rsum, Rplus_0_l.
  rewrite (lsum_ext _ cells (fun cf => rsum N (fun b => cell_part d P diffusion (fst cf) a b * u b))
    (fun cf => rsum (cc_n P (fst cf)) (fun i => hit P (fst cf) i a * lsum (covered P (fst cf)) (fun l =>
      en l (fun y k => rsum (cc_n P (fst cf)) (fun j => u (cc_index P (fst cf) j) * used_grad P (fst cf) l j y k)) (used_grad P (fst cf) l i))))).
  2:{ intros (c, fs) I. apply cell_apply. intros i. apply (L c fs i I). }
  set (X := lsum cells (fun cf => rsum (cc_n P (fst cf)) (fun i => hit P (fst cf) i a * lsum (covered P (fst cf)) (fun l =>
       ren l (fun x k => lc_grad P l (cc_n P (fst cf) + 1) x k - lc_grad P l (cc_n P (fst cf)) x k) (used_grad P (fst cf) l i))))).
  assert (E1 : lsum cells (fun cf => rsum (cc_n P (fst cf)) (fun i => hit P (fst cf) i a *
     lsum (covered P (fst cf)) (fun l => msen u (fst cf) l (used_grad P (fst cf) l i)))) =
     lsum cells (fun cf => rsum (cc_n P (fst cf)) (fun i => hit P (fst cf) i a * lsum (covered P (fst cf)) (fun l =>
      en l (fun y k => rsum (cc_n P (fst cf)) (fun j => u (cc_index P (fst cf) j) * used_grad P (fst cf) l j y k)) (used_grad P (fst cf) l i)))) + X).
  { unfold X. rewrite <- lsum_plus. apply lsum_ext. intros cf _. rewrite <- rsum_plus. apply rsum_ext. intros i _.
    rewrite <- Rmult_plus_distr_l, <- lsum_plus. f_equal. }
  assert (E2 : lsum cells (fun cf => rhs_part cf a) =
    lsum cells (fun cf => rsum (cc_n P (fst cf)) (fun i => hit P (fst cf) i a *
     (lsum (covered P (fst cf)) (fun l => load P source l (used_val P (fst cf) l i))
      + boundary_load P neumann (snd cf) (cc_val P (fst cf) i)))) - X).
  { unfold X. rewrite <- lsum_minus. apply lsum_ext. intros cf _. unfold rhs_part. rewrite <- rsum_minus. apply rsum_ext. intros i _.
    rewrite lsum_minus. ring. }
  rewrite E1, E2. split; intros H; lra.
Qed.

(** Linear in the test function. *)
Lemma energy_sum_r : forall l n (x : nat -> R) (g : nat -> P -> nat -> R) w,
  en l w (fun y k => rsum n (fun j => x j * g j y k)) = rsum n (fun j => x j * en l w (g j)).
Proof.
  intros l n x g w. unfold CoarseSpec.energy.
  transitivity (lsum (lc_quad P l) (fun q => rsum n (fun j => x j *
    (lc_factor P l (fst q) * snd q * dot d (mv d (diffusion (lc_global P l (fst q))) (w (fst q))) (g j (fst q)))))).
  - apply lsum_ext. intros q _.
    rewrite (dot_sum_r d n x (fun j => g j (fst q))). rewrite <- rsum_scale. apply rsum_ext. intros. ring.
  - rewrite lsum_rsum. apply rsum_ext. intros j L. now rewrite lsum_scale.
Qed.
Lemma ms_energy_sum : forall u c l n (x : nat -> R) (g : nat -> P -> nat -> R),
  msen u c l (fun y k => rsum n (fun j => x j * g j y k)) = rsum n (fun j => x j * msen u c l (g j)).
Proof.
  intros u c l n x g. unfold ms_energy. rewrite rhs_energy_rule, !energy_sum_r, <- rsum_plus.
  apply rsum_ext. intros. rewrite rhs_energy_rule. ring.
Qed.
(** With agreeing quadratures it is the energy of the multiscale function. *)
Lemma ms_energy_agree : forall cells u v c fs l, rules_agree d P diffusion cells ->
  In (c, fs) cells -> In l (covered P c) -> msen u c l (test_grad P v c l) = en l (ms_grad P u c l) (test_grad P v c l).
Proof.
  intros cells u v c fs l A Ic Il. unfold ms_energy.
  change (ms_grad P u c l) with (fun x k => test_grad P u c l x k + boundary_grad P c l x k).
  rewrite energy_plus_l. f_equal. unfold test_grad at 1 2. rewrite rhs_energy_rule, !energy_sum_r.
  apply rsum_ext. intros i Li. rewrite <- rhs_energy_rule. f_equal. symmetry. now apply (A c fs).
Qed.
(** No boundary correctors: nothing to disagree about. *)
Lemma rules_agree_zero : forall cells,
  (forall c fs l x k, In (c, fs) cells -> In l (covered P c) -> boundary_grad P c l x k = 0) ->
  rules_agree d P diffusion cells.
Proof.
  intros cells H c fs l i Ic Il Li. unfold CoarseSpec.energy, rhs_energy. rewrite !lsum_0; auto; intros q _;
    unfold dot; (rewrite rsum_0; [ring|]); intros k Lk; unfold mv; (rewrite rsum_0; [ring|]); intros m Lm;
    rewrite (H c fs l (fst q) m Ic Il); ring.
Qed.
Lemma load_sum : forall l n (x : nat -> R) (g : nat -> P -> R),
  load P source l (fun y => rsum n (fun j => x j * g j y)) = rsum n (fun j => x j * load P source l (g j)).
Proof.
  intros l n x g. unfold load.
  transitivity (lsum (lc_rquad P l) (fun q => rsum n (fun j => x j *
    (lc_factor P l (fst q) * snd q * (source (lc_global P l (fst q)) * g j (fst q)))))).
  - apply lsum_ext. intros q _. rewrite <- !rsum_scale. apply rsum_ext. intros. ring.
  - rewrite lsum_rsum. apply rsum_ext. intros j L. now rewrite lsum_scale.
Qed.
Lemma boundary_sum : forall fs n (x : nat -> R) (g : nat -> P -> R),
  boundary_load P neumann fs (fun y => rsum n (fun j => x j * g j y)) =
  rsum n (fun j => x j * boundary_load P neumann fs (g j)).
Proof.
  intros fs n x g. unfold boundary_load.
  transitivity (lsum (filter (cf_neumann P) fs) (fun f => rsum n (fun j => x j * lsum (cf_quad P f) (fun q =>
    snd q * (neumann (snd (fst q)) * g j (fst (fst q))))))).
  - apply lsum_ext. intros f _.
    transitivity (lsum (cf_quad P f) (fun q => rsum n (fun j => x j *
      (snd q * (neumann (snd (fst q)) * g j (fst (fst q))))))).
    + apply lsum_ext. intros q _. rewrite <- !rsum_scale. apply rsum_ext. intros. ring.
    + rewrite lsum_rsum. apply rsum_ext. intros j L. now rewrite lsum_scale.
  - rewrite lsum_rsum. apply rsum_ext. intros j L. now rewrite lsum_scale.
Qed.

(** Summing equations with weights [v]. *)
Lemma weigh : forall (cells : list (coarse_cell P * list (cface P))) N v (X : coarse_cell P * list (cface P) -> nat -> R),
  (forall c fs i, In (c, fs) cells -> (i < cc_n P c)%nat -> (cc_index P c i < N)%nat) ->
  rsum N (fun a => v a * lsum cells (fun cf => rsum (cc_n P (fst cf)) (fun i => hit P (fst cf) i a * X cf i))) =
  lsum cells (fun cf => rsum (cc_n P (fst cf)) (fun i => v (cc_index P (fst cf) i) * X cf i)).
Proof.
  intros cells N v X L.
  transitivity (rsum N (fun a => lsum cells (fun cf => rsum (cc_n P (fst cf)) (fun i => X cf i * (hit P (fst cf) i a * v a))))).
  - apply rsum_ext. intros a _. rewrite <- lsum_scale. apply lsum_ext. intros cf _. rewrite <- rsum_scale.
    apply rsum_ext. intros. ring.
  - rewrite <- lsum_rsum. apply lsum_ext. intros (c, fs) I. cbn [fst]. rewrite rsum_swap. apply rsum_ext. intros i Li.
    rewrite rsum_scale, hit_sum by (apply (L c fs i I Li)). ring.
Qed.

Lemma weak_form : forall cells N constrained g u,
  (forall c fs i, In (c, fs) cells -> (i < cc_n P c)%nat -> (cc_index P c i < N)%nat) ->
  (exists r, walk d P diffusion source neumann (fun _ _ => 0) (fun _ => 0) cells = Some r) ->
  (coarse_solution d P diffusion source neumann N constrained g cells u <->
   (forall i, (i < N)%nat -> constrained i = true -> u i = g i) /\
   (forall v, (forall i, (i < N)%nat -> constrained i = true -> v i = 0) ->
     lsum cells (fun cf => lsum (covered P (fst cf)) (fun l => msen u (fst cf) l (test_grad P v (fst cf) l))) =
     lsum cells (fun cf => lsum (covered P (fst cf)) (fun l => load P source l (test_val P v (fst cf) l))
       + boundary_load P neumann (snd cf) (test_coarse P v (fst cf))))).
Proof.
  intros cells N constrained g u L ((M, V) & E).
  assert (T : forall v,
     lsum cells (fun cf => lsum (covered P (fst cf)) (fun l => msen u (fst cf) l (test_grad P v (fst cf) l))) =
     rsum N (fun a => v a * lsum cells (fun cf => rsum (cc_n P (fst cf)) (fun i => hit P (fst cf) i a *
       lsum (covered P (fst cf)) (fun l => msen u (fst cf) l (used_grad P (fst cf) l i)))))).
  { intros v. rewrite (weigh cells N v (fun cf i => lsum (covered P (fst cf)) (fun l => msen u (fst cf) l (used_grad P (fst cf) l i)))) by auto.
    apply lsum_ext. intros cf _. unfold test_grad.
    transitivity (lsum (covered P (fst cf)) (fun l => rsum (cc_n P (fst cf)) (fun i => v (cc_index P (fst cf) i) *
      msen u (fst cf) l (used_grad P (fst cf) l i)))).
    - apply lsum_ext. intros l _. apply ms_energy_sum.
    - rewrite lsum_rsum. apply rsum_ext. intros. now rewrite lsum_scale. }
  assert (RV : forall v,
     lsum cells (fun cf => lsum (covered P (fst cf)) (fun l => load P source l (test_val P v (fst cf) l))
       + boundary_load P neumann (snd cf) (test_coarse P v (fst cf))) =
     rsum N (fun a => v a * lsum cells (fun cf => rsum (cc_n P (fst cf)) (fun i => hit P (fst cf) i a *
     (lsum (covered P (fst cf)) (fun l => load P source l (used_val P (fst cf) l i))
      + boundary_load P neumann (snd cf) (cc_val P (fst cf) i)))))).
  { intros v. rewrite (weigh cells N v (fun cf i => lsum (covered P (fst cf)) (fun l => load P source l (used_val P (fst cf) l i))
      + boundary_load P neumann (snd cf) (cc_val P (fst cf) i))) by auto.
    apply lsum_ext. intros cf _. unfold test_coarse. rewrite boundary_sum.
    transitivity (rsum (cc_n P (fst cf)) (fun i => v (cc_index P (fst cf) i) * lsum (covered P (fst cf)) (fun l => load P source l (used_val P (fst cf) l i)))
      + rsum (cc_n P (fst cf)) (fun i => v (cc_index P (fst cf) i) * boundary_load P neumann (snd cf) (cc_val P (fst cf) i))).
    - f_equal. transitivity (lsum (covered P (fst cf)) (fun l => rsum (cc_n P (fst cf)) (fun i => v (cc_index P (fst cf) i) *
        load P source l (used_val P (fst cf) l i)))).
      + apply lsum_ext. intros l _. apply load_sum.
      + rewrite lsum_rsum. apply rsum_ext. intros. now rewrite lsum_scale.
    - rewrite <- rsum_plus. apply rsum_ext. intros. ring. }
  split.
  - intros (M' & V' & E' & S). rewrite E in E'. injection E' as <- <-. apply coarse_bvp in S. split.
    + intros i Li C. specialize (S i Li). now rewrite C in S.
    + intros v Z. rewrite T, RV. apply rsum_ext. intros a La.
      destruct (constrained a) eqn:C; [rewrite (Z a La C); ring|]. f_equal.
      specialize (S a La). rewrite C in S. exact (proj1 (balance cells M V N u a L E) S).
  - intros (A & B). exists M, V. split; auto. apply coarse_bvp. intros i Li.
    destruct (constrained i) eqn:C; [now apply A|].
    apply (proj2 (balance cells M V N u i L E)).
    specialize (B (fun a => if Nat.eqb a i then 1 else 0)).
    rewrite T, RV in B.
    assert (P1 : forall f : nat -> R, rsum N (fun a => (if Nat.eqb a i then 1 else 0) * f a) = f i).
    { intros f. rewrite (rsum_single N i); auto.
      - rewrite Nat.eqb_refl. ring.
      - intros j Lj Nj. destruct (Nat.eqb_spec j i); [contradiction|ring]. }
    rewrite !P1 in B. apply B. intros j Lj Cj. destruct (Nat.eqb_spec j i); [subst; congruence|reflexivity].
Qed.
End S.
