(** Lemmas for C124. *)
From Coq Require Import Reals List Arith Bool Lia Lra Permutation.
From Verif Require Import Util RSum CoarseModel CoarseSpec CoarseProofs SmpModel SmpSpec.
Import ListNotations.
Open Scope R_scope.

Lemma same_iff a b : same a b = true <-> a = b.
Proof.
  destruct a as [i j|i], b as [k l|k]; cbn [same]; split; intros H; try discriminate.
  - apply andb_true_iff in H. destruct H as (A & B). apply Nat.eqb_eq in A, B. congruence.
  - injection H as -> ->. now rewrite !Nat.eqb_refl.
  - apply Nat.eqb_eq in H. congruence.
  - injection H as ->. apply Nat.eqb_refl.
Qed.
Lemma same_refl a : same a a = true. Proof. now apply same_iff. Qed.
Lemma same_spec a b : Bool.reflect (a = b) (same a b).
Proof. apply iff_reflect. symmetry. apply same_iff. Qed.

Lemma upon_same {A} (f : nat -> A) t x : upon f t x t = x.
Proof. unfold upon. now rewrite Nat.eqb_refl. Qed.
Lemma upon_other {A} (f : nat -> A) t x u : u <> t -> upon f t x u = f u.
Proof. intros N. unfold upon. now rewrite (proj2 (Nat.eqb_neq u t) N). Qed.

(** What the rest of a program adds to entry [e]; the storage afterwards. *)
Fixpoint pend (w : memory) (r : list instr) (e : entry) : R :=
  match r with
  | [] => 0
  | ClearMat :: r => pend (clear_mat w) r e
  | ClearVec :: r => pend (clear_vec w) r e
  | Apply L :: r => pend (fun a => w a + L a) r e
  | Add f g :: r => (if same e g then w f else 0) + pend w r e
  | Store f g :: r => (if same e g then w f else 0) + pend w r e
  | _ :: r => pend w r e
  end.
Fixpoint after (w : memory) (r : list instr) : memory :=
  match r with
  | [] => w
  | ClearMat :: r => after (clear_mat w) r
  | ClearVec :: r => after (clear_vec w) r
  | Apply L :: r => after (fun a => w a + L a) r
  | _ :: r => after w r
  end.

Lemma pend_app r q : forall w e, pend w (r ++ q) e = pend w r e + pend (after w r) q e.
Proof.
  induction r as [|i r IH]; intros w e; cbn [app pend after]; [ring|].
  destruct i; cbn [pend after]; rewrite IH; ring.
Qed.

(** Sum over threads when one changes. *)
Lemma rsum_change n t f g : (t < n)%nat -> (forall u, (u < n)%nat -> u <> t -> f u = g u) ->
  rsum n f = rsum n g + (f t - g t).
Proof.
  intros L H. enough (rsum n f - rsum n g = f t - g t) by lra. rewrite <- rsum_minus.
  rewrite (rsum_single n t); auto. intros j Lj N. rewrite H by auto. ring.
Qed.

Section Run.
Variable slot : nat -> nat.
Variable n : nat.
Hypothesis Own : private n slot.

(** Threads from [n] on have nothing to do. *)
Definition idle (s : state) : Prop := forall t, (n <= t)%nat -> s_rest s t = [].

Lemma step_rest t s s' : step slot t s = Some s' ->
  s_rest s' t = tl (s_rest s t) /\ (forall u, u <> t -> s_rest s' u = s_rest s u).
Proof.
  unfold step. destruct (s_rest s t) as [|i r] eqn:E.
  - intros H. injection H as <-. rewrite E. auto.
  - intros H. destruct i; try discriminate; injection H as <-; cbn [s_rest tl];
      (split; [apply upon_same|intros u N; now apply upon_other]).
Qed.

Lemma step_idle t s s' : idle s -> step slot t s = Some s' -> idle s'.
Proof.
  intros I H u Lu. destruct (step_rest _ _ _ H) as (A & B). destruct (Nat.eq_dec u t) as [->|N].
  - rewrite A, (I t Lu). reflexivity.
  - rewrite B by exact N. now apply I.
Qed.

Lemma step_tmp t s s' : step slot t s = Some s' ->
  (forall k, k <> slot t -> s_tmp s' k = s_tmp s k) /\ (forall u, u <> t -> s_reg s' u = s_reg s u).
Proof.
  unfold step. destruct (s_rest s t) as [|i r] eqn:E.
  - intros H. injection H as <-. auto.
  - intros H. destruct i; try discriminate; injection H as <-; cbn [s_tmp s_reg];
      split; intros u N; auto; now apply upon_other.
Qed.

(** Effect of a step on entry [e] and on what the thread still adds. *)
Lemma step_pend t s s' e : step slot t s = Some s' ->
  pend (s_tmp s' (slot t)) (s_rest s' t) e =
  pend (s_tmp s (slot t)) (s_rest s t) e -
  match s_rest s t with
  | Add f g :: _ | Store f g :: _ => if same e g then s_tmp s (slot t) f else 0
  | _ => 0
  end.
Proof.
  unfold step. destruct (s_rest s t) as [|i r] eqn:E.
  - intros H. injection H as <-. rewrite E. ring.
  - intros H. destruct i; try discriminate; injection H as <-; cbn [s_tmp s_rest pend];
      rewrite ?upon_same; try ring.
Qed.

Lemma step_mem t s s' e : step slot t s = Some s' ->
  s_mem s' e =
  match s_rest s t with
  | Add f g :: _ => s_mem s e + (if same e g then s_tmp s (slot t) f else 0)
  | Store f g :: _ => if same e g then s_reg s t + s_tmp s (slot t) f else s_mem s e
  | _ => s_mem s e
  end.
Proof.
  unfold step. destruct (s_rest s t) as [|i r] eqn:E.
  - intros H. injection H as <-. reflexivity.
  - intros H. destruct i; try discriminate; injection H as <-; cbn [s_mem]; try reflexivity; unfold put;
      destruct (same_spec e to) as [->|N]; try reflexivity; ring.
Qed.

(** Others do not notice. *)
Lemma step_pend_other t u s s' e : (t < n)%nat -> (u < n)%nat -> u <> t -> step slot t s = Some s' ->
  pend (s_tmp s' (slot u)) (s_rest s' u) e = pend (s_tmp s (slot u)) (s_rest s u) e.
Proof.
  intros Lt Lu N H. destruct (step_rest _ _ _ H) as (_ & B). destruct (step_tmp _ _ _ H) as (C & _).
  rewrite B by exact N. rewrite C; [reflexivity|]. intros E. apply N. now apply Own.
Qed.

Definition no_store (r : list instr) : Prop := forall f g, ~ In (Store f g) r.

(** Locked additions: value plus what all threads still add does not change. *)
Lemma total_step t s s' e : idle s -> (forall u, no_store (s_rest s u)) -> step slot t s = Some s' ->
  s_mem s' e + rsum n (fun u => pend (s_tmp s' (slot u)) (s_rest s' u) e) =
  s_mem s e + rsum n (fun u => pend (s_tmp s (slot u)) (s_rest s u) e).
Proof.
  intros I NS H. destruct (Nat.lt_ge_cases t n) as [L|G].
  - rewrite (rsum_change n t _ (fun u => pend (s_tmp s (slot u)) (s_rest s u) e) L)
      by (intros u Lu N; now apply (step_pend_other t)).
    rewrite (step_pend _ _ _ e H), (step_mem _ _ _ e H). specialize (NS t).
    destruct (s_rest s t) as [|i r]; [ring|]. destruct i; try ring.
    exfalso. apply (NS from to). now left.
  - unfold step in H. rewrite (I t G) in H. now injection H as <-.
Qed.

Lemma no_store_step t s s' : (forall u, no_store (s_rest s u)) -> step slot t s = Some s' ->
  forall u, no_store (s_rest s' u).
Proof.
  intros NS H u f g J. destruct (step_rest _ _ _ H) as (A & B). destruct (Nat.eq_dec u t) as [->|N].
  - rewrite A in J. apply (NS t f g). destruct (s_rest s t); [exact J|now right].
  - rewrite B in J by exact N. now apply (NS u f g).
Qed.

Lemma total_run sched : forall s s' e, idle s -> (forall u, no_store (s_rest s u)) -> run slot sched s = Some s' ->
  s_mem s' e + rsum n (fun u => pend (s_tmp s' (slot u)) (s_rest s' u) e) =
  s_mem s e + rsum n (fun u => pend (s_tmp s (slot u)) (s_rest s u) e).
Proof.
  induction sched as [|t r IH]; intros s s' e I NS H; cbn [run] in H; [now injection H as <-|].
  destruct (step slot t s) as [s1|] eqn:E; [|discriminate].
  rewrite (IH s1 s' e (step_idle _ _ _ I E) (no_store_step _ _ _ NS E) H). now apply (total_step t).
Qed.

(** ** Reading and writing as two steps. *)

(** Every write follows its reading. *)
Inductive paired : list instr -> Prop :=
| p_nil : paired []
| p_pair : forall f g r, paired r -> paired (Fetch g :: Store f g :: r)
| p_clear_mat : forall r, paired r -> paired (ClearMat :: r)
| p_clear_vec : forall r, paired r -> paired (ClearVec :: r)
| p_apply : forall L r, paired r -> paired (Apply L :: r)
| p_add : forall f g r, paired r -> paired (Add f g :: r)
| p_stop : forall r, paired r -> paired (Stop :: r).

Lemma paired_app r q : paired r -> paired q -> paired (r ++ q).
Proof. intros H K. induction H; cbn [app]; try constructor; auto. Qed.

(** Thread [t] may be between reading and writing. *)
Definition sound (t : nat) (e : entry) (s : state) : Prop :=
  paired (s_rest s t) \/
  exists f g r, s_rest s t = Store f g :: r /\ paired r /\ (g = e -> s_reg s t = s_mem s e).

Definition never (e : entry) (r : list instr) : Prop := forall f, ~ In (Add f e) r /\ ~ In (Store f e) r.

Lemma never_tl e r : never e r -> never e (tl r).
Proof. intros H f. destruct r; [exact (H f)|]. cbn [tl]. destruct (H f) as (A & B). split; intros I; [apply A|apply B]; now right. Qed.

Lemma mem_untouched t s s' e : never e (s_rest s t) -> step slot t s = Some s' -> s_mem s' e = s_mem s e.
Proof.
  intros N H. rewrite (step_mem _ _ _ e H). destruct (s_rest s t) as [|i r]; [reflexivity|].
  destruct i; try reflexivity; destruct (same_spec e to) as [->|D]; try ring;
    exfalso; destruct (N from) as (A & B); first [apply A; now left|apply B; now left].
Qed.

Lemma single_step t u s s' e : (t < n)%nat -> idle s -> sound t e s -> (forall v, v <> t -> never e (s_rest s v)) ->
  step slot u s = Some s' ->
  sound t e s' /\ (forall v, v <> t -> never e (s_rest s' v)) /\
  s_mem s' e + pend (s_tmp s' (slot t)) (s_rest s' t) e = s_mem s e + pend (s_tmp s (slot t)) (s_rest s t) e.
Proof.
  intros Lt I S N H. destruct (Nat.lt_ge_cases u n) as [Lu|Gu].
  2:{ unfold step in H. rewrite (I u Gu) in H. injection H as <-. auto. }
  destruct (step_rest _ _ _ H) as (A & B). destruct (step_tmp _ _ _ H) as (C1 & C2).
  assert (N' : forall v, v <> t -> never e (s_rest s' v)).
  { intros v Nv. destruct (Nat.eq_dec v u) as [->|D].
    - rewrite A. apply never_tl. now apply N.
    - rewrite B by exact D. now apply N. }
  destruct (Nat.eq_dec u t) as [->|D].
  - split; [|split; [exact N'|]].
    + unfold sound in S |- *. rewrite A. destruct S as [S|(f & g & r & E & PR & RG)].
      * destruct (s_rest s t) as [|i q] eqn:E; [left; constructor|]. cbn [tl].
        inversion S; subst; try (left; assumption).
        right. exists f, g, r. split; [reflexivity|]. split; [assumption|]. intros ->.
        unfold step in H. rewrite E in H. injection H as <-. cbn [s_reg s_mem]. apply upon_same.
      * rewrite E. cbn [tl]. left. exact PR.
    + rewrite (step_pend _ _ _ e H), (step_mem _ _ _ e H).
      destruct S as [S|(f & g & r & E & PR & RG)].
      * destruct (s_rest s t) as [|i q]; [ring|]. inversion S; subst; try ring.
      * rewrite E. destruct (same_spec e g) as [<-|]; [rewrite RG by reflexivity; ring|ring].
  - assert (M : s_mem s' e = s_mem s e) by (apply (mem_untouched u); auto).
    split; [|split; [exact N'|]].
    + unfold sound in S |- *. rewrite (B t) by congruence. rewrite (C2 t) by congruence. rewrite M. exact S.
    + rewrite M. f_equal. rewrite (B t) by congruence. rewrite (C1 (slot t)); [reflexivity|].
      intros E. apply D. symmetry. now apply Own.
Qed.

Lemma single_run t e sched : forall s s', (t < n)%nat -> idle s -> sound t e s ->
  (forall v, v <> t -> never e (s_rest s v)) -> run slot sched s = Some s' ->
  s_mem s' e + pend (s_tmp s' (slot t)) (s_rest s' t) e = s_mem s e + pend (s_tmp s (slot t)) (s_rest s t) e.
Proof.
  induction sched as [|u r IH]; intros s s' L I S N H; cbn [run] in H; [now injection H as <-|].
  destruct (step slot u s) as [s1|] eqn:E; [|discriminate].
  destruct (single_step t u s s1 e L I S N E) as (S1 & N1 & Q).
  rewrite (IH s1 s' L (step_idle _ _ _ I E) S1 N1 H). exact Q.
Qed.

(** ** Progress. *)
Lemma run_app s1 : forall s2 s, run slot (s1 ++ s2) s =
  match run slot s1 s with None => None | Some s' => run slot s2 s' end.
Proof.
  induction s1 as [|t r IH]; intros s2 s; cbn [run app]; [reflexivity|].
  destruct (step slot t s); [apply IH|reflexivity].
Qed.

Lemma run_rest sched : forall s s', run slot sched s = Some s' ->
  forall t, s_rest s' t = skipn (count_occ Nat.eq_dec sched t) (s_rest s t).
Proof.
  induction sched as [|u r IH]; intros s s' H t; cbn [run] in H; [now injection H as <-|].
  destruct (step slot u s) as [s1|] eqn:E; [|discriminate]. rewrite (IH _ _ H t).
  destruct (step_rest _ _ _ E) as (A & B). cbn [count_occ]. destruct (Nat.eq_dec u t) as [->|N].
  - rewrite A. destruct (s_rest s t); cbn [tl skipn]; [apply skipn_nil|reflexivity].
  - now rewrite B by congruence.
Qed.

Definition can_stop (s : state) : Prop := exists t, In Stop (s_rest s t).

Lemma run_some sched : forall s, ~ can_stop s -> exists s', run slot sched s = Some s'.
Proof.
  induction sched as [|t r IH]; intros s N; cbn [run]; [eauto|].
  destruct (step slot t s) as [s1|] eqn:E.
  - apply IH. intros (u & I). apply N. destruct (step_rest _ _ _ E) as (A & B).
    destruct (Nat.eq_dec u t) as [->|D].
    + exists t. rewrite A in I. destruct (s_rest s t); [destruct I|now right].
    + exists u. now rewrite B in I by exact D.
  - exfalso. apply N. exists t. unfold step in E. destruct (s_rest s t) as [|i q]; [discriminate|].
    destruct i; try discriminate. now left.
Qed.

Lemma run_none sched : forall s, can_stop s -> fair sched s -> run slot sched s = None.
Proof.
  induction sched as [|t r IH]; intros s (u & I) F; cbn [run].
  - specialize (F u). cbn [count_occ] in F. destruct (s_rest s u); [destruct I|cbn in F; lia].
  - destruct (step slot t s) as [s1|] eqn:E; [|reflexivity]. destruct (step_rest _ _ _ E) as (A & B).
    apply IH.
    + exists u. destruct (Nat.eq_dec u t) as [->|D]; [|now rewrite B].
      rewrite A. unfold step in E. destruct (s_rest s t) as [|i q]; [destruct I|]. cbn [tl].
      destruct I as [->|I]; [discriminate|exact I].
    + intros v. specialize (F v). cbn [count_occ] in F. destruct (Nat.eq_dec t v) as [->|D].
      * rewrite A. destruct (s_rest s v); cbn [tl length] in *; lia.
      * rewrite B by congruence. exact F.
Qed.

Lemma fair_finished sched s s' : fair sched s -> run slot sched s = Some s' -> finished s'.
Proof. intros F H t. rewrite (run_rest _ _ _ H). apply skipn_all2, F. Qed.
End Run.

(** ** The programs. *)
Section Programs.
Variable d : nat.
Variable P : Type.
Variable diffusion : P -> nat -> nat -> R.
Variable source : P -> R.
Notation cell := (coarse_cell P).

Lemma after_addition b w f g : after w (addition b f g) = w.
Proof. destruct b; reflexivity. Qed.
Lemma pend_addition b w f g e : pend w (addition b f g) e = if same e g then w f else 0.
Proof. destruct b; cbn; ring. Qed.

Lemma after_flat {A} b (f g : A -> entry) l w : after w (flat_map (fun x => addition b (f x) (g x)) l) = w.
Proof.
  revert w. induction l as [|x l IH]; intros w; cbn [flat_map]; [reflexivity|].
  destruct b; cbn; apply IH.
Qed.
Lemma pend_flat {A} (q : A -> list instr) l : forall w e, (forall x, after w (q x) = w) ->
  pend w (flat_map q l) e = lsum l (fun x => pend w (q x) e).
Proof.
  induction l as [|x l IH]; intros w e H; cbn [flat_map lsum]; [reflexivity|].
  rewrite pend_app, H, IH by exact H. reflexivity.
Qed.

(** Programs whose additions do not depend on the storage they find. *)
Lemma pend_flat_const {A} (q : A -> list instr) (v : A -> R) e l : forall w,
  (forall w x, In x l -> pend w (q x) e = v x) -> pend w (flat_map q l) e = lsum l v.
Proof.
  induction l as [|x l IH]; intros w H; cbn [flat_map lsum]; [reflexivity|].
  rewrite pend_app, H by now left. f_equal. apply IH. intros w' y I. apply H. now right.
Qed.

Lemma matrix_steps_mat b (c : cell) l w a k :
  pend w (matrix_steps d P diffusion b c l) (Mat a k) =
  rsum (cc_n P c) (fun i => rsum (cc_n P c) (fun j => hit P c i a * hit P c j k *
    energy d P diffusion l (used_grad P c l j) (used_grad P c l i))).
Proof.
  unfold matrix_steps. cbn [pend]. rewrite pend_flat.
  2:{ intros x. apply after_flat. }
  rewrite lsum_seq. apply rsum_ext. intros i Li. rewrite pend_flat by (intros; apply after_addition).
  rewrite lsum_seq. apply rsum_ext. intros j Lj. cbn [Nat.add]. rewrite pend_addition. cbn [same].
  rewrite <- element_matrix_val by assumption. unfold hit.
  rewrite (Nat.eqb_sym a), (Nat.eqb_sym k). cbn [clear_mat].
  destruct (Nat.eqb (cc_index P c i) a), (Nat.eqb (cc_index P c j) k); cbn [andb]; ring.
Qed.
Lemma matrix_steps_vec b (c : cell) l w a : pend w (matrix_steps d P diffusion b c l) (Vec a) = 0.
Proof.
  unfold matrix_steps. cbn [pend]. rewrite pend_flat by (intros; apply after_flat).
  apply lsum_0. intros i _. rewrite pend_flat by (intros; apply after_addition).
  apply lsum_0. intros j _. rewrite pend_addition. reflexivity.
Qed.
Lemma vector_steps_mat b (c : cell) l w a k : pend w (vector_steps d P diffusion source b c l) (Mat a k) = 0.
Proof.
  unfold vector_steps. cbn [pend]. rewrite pend_flat by (intros; apply after_addition).
  apply lsum_0. intros i _. rewrite pend_addition. reflexivity.
Qed.
Lemma vector_steps_vec b (c : cell) l w a :
  pend w (vector_steps d P diffusion source b c l) (Vec a) =
  rsum (cc_n P c) (fun i => hit P c i a * (load P source l (used_val P c l i) -
      rhs_energy d P diffusion l (fun x k => lc_grad P l (cc_n P c + 1) x k - lc_grad P l (cc_n P c) x k)
        (used_grad P c l i))).
Proof.
  unfold vector_steps. cbn [pend]. rewrite pend_flat by (intros; apply after_addition).
  rewrite lsum_seq. apply rsum_ext. intros i Li. cbn [Nat.add]. rewrite pend_addition. cbn [same].
  rewrite <- element_vector_val by assumption. unfold hit. rewrite (Nat.eqb_sym a). cbn [clear_vec].
  destruct (Nat.eqb (cc_index P c i) a); ring.
Qed.

Lemma complete_tests (c : cell) : complete_cell c ->
  Nat.eqb (cc_slots P c - 2) (cc_n P c) = true /\ Nat.eqb (cc_slots P c) (cc_n P c + 2) = true.
Proof. unfold complete_cell. intros H. split; apply Nat.eqb_eq; lia. Qed.

Lemma cell_steps_mat b (c : cell) w a k : complete_cell c ->
  pend w (cell_steps d P diffusion source b c) (Mat a k) = cell_part d P diffusion c a k.
Proof.
  intros C. unfold cell_steps. destruct (complete_tests c C) as (-> & ->).
  rewrite pend_app.
  rewrite (pend_flat_const _ _ _ _ _ (fun w l _ => matrix_steps_mat b c l w a k)).
  rewrite (pend_flat_const _ _ _ _ _ (fun w l _ => vector_steps_mat b c l w a k)). rewrite lsum_zero, Rplus_0_r.
  unfold cell_part, covered. rewrite lsum_rsum. apply rsum_ext. intros i Li.
  rewrite lsum_rsum. apply rsum_ext. intros j Lj. apply lsum_scale.
Qed.
Lemma cell_steps_vec b (c : cell) w a : complete_cell c ->
  pend w (cell_steps d P diffusion source b c) (Vec a) = cell_vec d P diffusion source c a.
Proof.
  intros C. unfold cell_steps. destruct (complete_tests c C) as (-> & ->).
  rewrite pend_app.
  rewrite (pend_flat_const _ _ _ _ _ (fun w l _ => matrix_steps_vec b c l w a)).
  rewrite (pend_flat_const _ _ _ _ _ (fun w l _ => vector_steps_vec b c l w a)). rewrite lsum_zero, Rplus_0_l.
  unfold cell_vec, covered. rewrite lsum_rsum. apply rsum_ext. intros i Li. apply lsum_scale.
Qed.

Definition share (c : cell) (e : entry) : R :=
  match e with Mat a k => cell_part d P diffusion c a k | Vec a => cell_vec d P diffusion source c a end.

Lemma thread_pend b cs w e : (forall c, In c cs -> complete_cell c) ->
  pend w (flat_map (cell_steps d P diffusion source b) cs) e = lsum cs (fun c => share c e).
Proof.
  intros C. apply pend_flat_const. intros w' c I. unfold share.
  destruct e; [apply cell_steps_mat|apply cell_steps_vec]; auto.
Qed.

Lemma lsum_concat (f : cell -> R) : forall ps : list (list cell),
  lsum (concat ps) f = rsum (length ps) (fun t => lsum (nth t ps []) f).
Proof.
  intros ps. transitivity (lsum ps (fun q => lsum q f)).
  - induction ps as [|q ps IH]; cbn [concat lsum]; [reflexivity|]. now rewrite lsum_app, IH.
  - induction ps as [|q ps IH] using rev_ind; [reflexivity|].
    rewrite lsum_app, app_length. cbn [lsum length]. rewrite Nat.add_1_r. cbn [rsum].
    rewrite IH. rewrite app_nth2, Nat.sub_diag by lia. cbn [nth]. rewrite Rplus_0_r. f_equal.
    apply rsum_ext. intros t L. now rewrite app_nth1.
Qed.

(** No instruction but the ones meant. *)
Lemma in_matrix b c l i : In i (matrix_steps d P diffusion b c l) ->
  i = ClearMat \/ (exists L, i = Apply L) \/
  exists f a k, has_pair c a k /\ In i (addition b f (Mat a k)).
Proof.
  intros [<-|[<-|I]]; [auto|right; left; eauto|]. right. right.
  apply in_flat_map in I. destruct I as (x & Ix & I). apply in_flat_map in I. destruct I as (y & Iy & I).
  apply in_seq in Ix, Iy. exists (Mat x y), (cc_index P c x), (cc_index P c y). split; [|exact I].
  split; [exists x|exists y]; split; auto; lia.
Qed.
Lemma in_vector b c l i : In i (vector_steps d P diffusion source b c l) ->
  i = ClearVec \/ (exists L, i = Apply L) \/
  exists f a, has_node c a /\ In i (addition b f (Vec a)).
Proof.
  intros [<-|[<-|I]]; [auto|right; left; eauto|]. right. right.
  apply in_flat_map in I. destruct I as (x & Ix & I).
  apply in_seq in Ix. exists (Vec x), (cc_index P c x). split; [|exact I]. exists x. split; auto; lia.
Qed.

Definition reaches_entry (c : cell) (e : entry) : Prop :=
  match e with Mat a k => has_pair c a k | Vec a => has_node c a end.

Lemma in_cell b c i : In i (cell_steps d P diffusion source b c) ->
  (i = Stop /\ ~ complete_cell c) \/ i = ClearMat \/ i = ClearVec \/ (exists L, i = Apply L) \/
  exists f e, reaches_entry c e /\ In i (addition b f e).
Proof.
  unfold cell_steps. intros I. apply in_app_iff in I. destruct I as [I|I].
  - destruct (Nat.eqb_spec (cc_slots P c - 2) (cc_n P c)) as [E|E].
    + apply in_flat_map in I. destruct I as (l & _ & I). apply in_matrix in I.
      destruct I as [->|[I|(f & a & k & H & I)]]; auto. do 4 right. exists f, (Mat a k). auto.
    + destruct I as [<-|[]]. left. split; [reflexivity|]. unfold complete_cell. lia.
  - destruct (Nat.eqb_spec (cc_slots P c) (cc_n P c + 2)) as [E|E].
    + apply in_flat_map in I. destruct I as (l & _ & I). apply in_vector in I.
      destruct I as [->|[I|(f & a & H & I)]]; auto. do 4 right. exists f, (Vec a). auto.
    + destruct I as [<-|[]]. left. split; [reflexivity|exact E].
Qed.

Lemma in_thread b cs i : In i (flat_map (cell_steps d P diffusion source b) cs) ->
  exists c, In c cs /\ ((i = Stop /\ ~ complete_cell c) \/ i = ClearMat \/ i = ClearVec \/ (exists L, i = Apply L) \/
  exists f e, reaches_entry c e /\ In i (addition b f e)).
Proof. intros I. apply in_flat_map in I. destruct I as (c & Ic & I). exists c. split; [exact Ic|now apply in_cell in I]. Qed.

Lemma thread_stop b cs : In Stop (flat_map (cell_steps d P diffusion source b) cs) <->
  exists c, In c cs /\ ~ complete_cell c.
Proof.
  split.
  - intros I. apply in_thread in I. destruct I as (c & Ic & I). exists c. split; [exact Ic|].
    destruct I as [(_ & N)|[X|[X|[(L & X)|(f & e & _ & X)]]]]; auto; try discriminate.
    exfalso. unfold addition in X. destruct b; cbn in X; intuition discriminate.
  - intros (c & Ic & N). apply in_flat_map. exists c. split; [exact Ic|]. unfold cell_steps. apply in_app_iff.
    destruct (Nat.eqb_spec (cc_slots P c) (cc_n P c + 2)) as [E|E]; [contradiction|]. right. now left.
Qed.

Lemma thread_no_store cs : no_store (flat_map (cell_steps d P diffusion source true) cs).
Proof.
  intros f g I. apply in_thread in I. destruct I as (c & Ic & I).
  destruct I as [(X & _)|[X|[X|[(L & X)|(f' & e & _ & X)]]]]; try discriminate.
  cbn in X. intuition discriminate.
Qed.

Lemma thread_never b cs e : (forall c, In c cs -> ~ reaches_entry c e) ->
  never e (flat_map (cell_steps d P diffusion source b) cs).
Proof.
  intros H f.
  assert (K : forall f' e' i, In i (addition b f' e') -> i = Add f e \/ i = Store f e -> e' = e).
  { intros f' e' i X Y. unfold addition in X. destruct b; cbn [In] in X.
    - destruct X as [<-|[]]. destruct Y as [Y|Y]; [now injection Y|discriminate].
    - destruct X as [<-|[<-|[]]]; destruct Y as [Y|Y]; try discriminate. now injection Y. }
  split; intros I; apply in_thread in I; destruct I as (c & Ic & I);
    destruct I as [(X & _)|[X|[X|[(L & X)|(f' & e' & R & X)]]]]; try discriminate;
    apply K in X; auto; subst e'; now apply (H c Ic).
Qed.

Lemma paired_flat {A} (q : A -> list instr) l : (forall x, paired (q x)) -> paired (flat_map q l).
Proof. intros H. induction l; cbn [flat_map]; [constructor|]. apply paired_app; auto. Qed.

Lemma addition_paired b f g : paired (addition b f g).
Proof. destruct b; repeat constructor. Qed.

Lemma thread_paired b cs : paired (flat_map (cell_steps d P diffusion source b) cs).
Proof.
  apply paired_flat. intros c. unfold cell_steps. apply paired_app.
  - destruct (Nat.eqb _ _); [|repeat constructor]. apply paired_flat. intros l. unfold matrix_steps. do 2 constructor.
    apply paired_flat. intros x. apply paired_flat. intros y. apply addition_paired.
  - destruct (Nat.eqb _ _); [|repeat constructor]. apply paired_flat. intros l. unfold vector_steps. do 2 constructor.
    apply paired_flat. intros x. apply addition_paired.
Qed.
End Programs.

(** ** Lost additions. *)
Section Lost.
Variable slot : nat -> nat.
Variable n : nat.
Hypothesis Own : private n slot.

Lemma own_step t s s' e : sound t e s -> step slot t s = Some s' ->
  sound t e s' /\
  s_mem s' e + pend (s_tmp s' (slot t)) (s_rest s' t) e = s_mem s e + pend (s_tmp s (slot t)) (s_rest s t) e.
Proof.
  intros S H. destruct (step_rest slot _ _ _ H) as (A & B). split.
  - unfold sound in S |- *. rewrite A. destruct S as [S|(f & g & r & E & PR & RG)].
    + destruct (s_rest s t) as [|i q] eqn:E; [left; constructor|]. cbn [tl].
      inversion S; subst; try (left; assumption).
      right. exists f, g, r. split; [reflexivity|]. split; [assumption|]. intros ->.
      unfold step in H. rewrite E in H. injection H as <-. cbn [s_reg s_mem]. apply upon_same.
    + rewrite E. cbn [tl]. left. exact PR.
  - rewrite (step_pend slot _ _ _ e H), (step_mem slot _ _ _ e H).
    destruct S as [S|(f & g & r & E & PR & RG)].
    + destruct (s_rest s t) as [|i q]; [ring|]. inversion S; subst; try ring.
    + rewrite E. destruct (same_spec e g) as [<-|]; [rewrite RG by reflexivity; ring|ring].
Qed.

Lemma own_run t e k : forall s s', sound t e s -> run slot (repeat t k) s = Some s' ->
  sound t e s' /\
  s_mem s' e + pend (s_tmp s' (slot t)) (s_rest s' t) e = s_mem s e + pend (s_tmp s (slot t)) (s_rest s t) e.
Proof.
  induction k as [|k IH]; intros s s' S H; cbn [run repeat] in H; [injection H as <-; auto|].
  destruct (step slot t s) as [s1|] eqn:E; [|discriminate]. destruct (own_step _ _ _ _ S E) as (S1 & Q).
  destruct (IH _ _ S1 H) as (S2 & Q2). split; [exact S2|]. now rewrite Q2.
Qed.

Lemma others_run t sched : forall s s', (t < n)%nat -> ~ In t sched -> (forall u, In u sched -> (u < n)%nat) ->
  run slot sched s = Some s' ->
  s_rest s' t = s_rest s t /\ s_tmp s' (slot t) = s_tmp s (slot t) /\ s_reg s' t = s_reg s t.
Proof.
  induction sched as [|u r IH]; intros s s' L N B H; cbn [run] in H; [injection H as <-; auto|].
  destruct (step slot u s) as [s1|] eqn:E; [|discriminate].
  assert (D : t <> u) by (intros ->; apply N; now left).
  destruct (IH s1 s') as (A1 & A2 & A3); auto.
  { intros I. apply N. now right. } { intros v I. apply B. now right. }
  destruct (step_rest slot _ _ _ E) as (_ & B1). destruct (step_tmp slot _ _ _ E) as (B2 & B3).
  rewrite A1, A2, A3. rewrite B1, B3 by exact D. rewrite B2; [auto|].
  intros X. apply D. apply Own; auto. apply B. now left.
Qed.

Lemma first_load r e : paired r -> In (Fetch e) r ->
  exists pre f post, r = pre ++ Fetch e :: Store f e :: post /\ paired post.
Proof.
  intros H. induction H as [|f g r H IH|r H IH|r H IH|L r H IH|f g r H IH|r H IH]; intros I.
  - destruct I.
  - destruct (same_spec g e) as [->|N].
    + exists [], f, r. auto.
    + destruct I as [I|[I|I]]; [congruence|discriminate|].
      destruct (IH I) as (pre & f' & post & -> & Q). now exists (Fetch g :: Store f g :: pre), f', post.
  - destruct I as [I|I]; [discriminate|]. destruct (IH I) as (pre & f' & post & -> & Q).
    now exists (ClearMat :: pre), f', post.
  - destruct I as [I|I]; [discriminate|]. destruct (IH I) as (pre & f' & post & -> & Q).
    now exists (ClearVec :: pre), f', post.
  - destruct I as [I|I]; [discriminate|]. destruct (IH I) as (pre & f' & post & -> & Q).
    now exists (Apply L :: pre), f', post.
  - destruct I as [I|I]; [discriminate|]. destruct (IH I) as (pre & f' & post & -> & Q).
    now exists (Add f g :: pre), f', post.
  - destruct I as [I|I]; [discriminate|]. destruct (IH I) as (pre & f' & post & -> & Q).
    now exists (Stop :: pre), f', post.
Qed.

Lemma count_repeat t k : count_occ Nat.eq_dec (repeat t k) t = k.
Proof.
  induction k as [|k IH]; [reflexivity|]. cbn [repeat count_occ]. destruct (Nat.eq_dec t t); [now rewrite IH|congruence].
Qed.

Definition all_but (t : nat) (s : state) : list nat :=
  flat_map (fun u => if Nat.eqb u t then [] else repeat u (length (s_rest s u))) (seq 0 n).

Lemma all_but_in t s u : In u (all_but t s) -> u <> t /\ (u < n)%nat.
Proof.
  intros I. apply in_flat_map in I. destruct I as (v & Iv & I). destruct (Nat.eqb_spec v t) as [->|N]; [destruct I|].
  apply repeat_spec in I. subst u. apply in_seq in Iv. split; [exact N|lia].
Qed.
Lemma all_but_count t s u : (u < n)%nat -> u <> t -> (length (s_rest s u) <= count_occ Nat.eq_dec (all_but t s) u)%nat.
Proof.
  intros L N. unfold all_but. assert (I : In u (seq 0 n)) by (apply in_seq; lia).
  induction (seq 0 n) as [|v l IH]; [destruct I|]. cbn [flat_map]. rewrite count_occ_app.
  destruct I as [->|I]; [|specialize (IH I); lia]. rewrite (proj2 (Nat.eqb_neq u t) N).
  enough (count_occ Nat.eq_dec (repeat u (length (s_rest s u))) u = length (s_rest s u)) by lia.
  apply count_repeat.
Qed.

Lemma lost s t e : (t < n)%nat -> idle n s -> ~ can_stop s -> paired (s_rest s t) -> In (Fetch e) (s_rest s t) ->
  exists sched s', run slot sched s = Some s' /\ finished s' /\
    s_mem s' e = s_mem s e + pend (s_tmp s (slot t)) (s_rest s t) e.
Proof.
  intros L I NS PR Ld. destruct (first_load _ _ PR Ld) as (pre & f & post & E & PP).
  set (s1 := repeat t (length pre + 1)). set (s2 := all_but t s). set (s3 := repeat t (length (s_rest s t))).
  destruct (run_some slot (s1 ++ s2 ++ s3) s NS) as (z & H). exists (s1 ++ s2 ++ s3), z.
  split; [exact H|]. assert (F : finished z).
  { apply (fair_finished slot (s1 ++ s2 ++ s3) s z); [|exact H]. intros u. rewrite !count_occ_app.
    destruct (Nat.eq_dec u t) as [->|N].
    - unfold s3. rewrite count_repeat. lia.
    - destruct (Nat.lt_ge_cases u n) as [Lu|G].
      + pose proof (all_but_count t s u Lu N). fold s2 in H0. lia.
      + rewrite (I u G). cbn. lia. }
  split; [exact F|].
  rewrite run_app in H. destruct (run slot s1 s) as [a|] eqn:H1; [|discriminate].
  rewrite run_app in H. destruct (run slot s2 a) as [b|] eqn:H2; [|discriminate].
  destruct (own_run t e _ s a (or_introl PR) H1) as (Sa & Qa).
  assert (Ra : s_rest a t = Store f e :: post).
  { rewrite (run_rest slot _ _ _ H1), E. unfold s1. rewrite count_repeat.
    rewrite skipn_app. rewrite skipn_all2 by lia. replace (length pre + 1 - length pre)%nat with 1%nat by lia.
    reflexivity. }
  assert (Ga : s_reg a t = s_mem a e).
  { destruct Sa as [X|(f' & g & r & X & _ & G)]; rewrite Ra in X; [inversion X|].
    injection X as -> -> ->. now apply G. }
  destruct (others_run t s2 a b L) as (Rb & Tb & Gb); auto.
  { intros X. apply all_but_in in X. tauto. } { intros u X. apply all_but_in in X. tauto. }
  unfold s3 in H. rewrite E in H. rewrite app_length in H. cbn [length] in H.
  rewrite Nat.add_comm in H. cbn [Nat.add repeat run] in H.
  destruct (step slot t b) as [c|] eqn:Ec; [|discriminate].
  assert (Sc : sound t e c /\ s_mem c e + pend (s_tmp c (slot t)) (s_rest c t) e =
    s_mem a e + pend (s_tmp a (slot t)) (s_rest a t) e).
  { destruct (step_rest slot _ _ _ Ec) as (Rc & _). rewrite Rb, Ra in Rc. cbn [tl] in Rc. split.
    - left. now rewrite Rc.
    - rewrite (step_pend slot _ _ _ e Ec), (step_mem slot _ _ _ e Ec), Rb, Ra, Tb, Gb, Ga, same_refl. ring. }
  destruct Sc as (Sc & Qc). change (run slot (repeat t (S (length post + length pre))) c = Some z) in H.
  destruct (own_run t e _ c z Sc H) as (_ & Qz). rewrite (F t) in Qz. cbn [pend] in Qz. lra.
Qed.
End Lost.

(** ** The state at the beginning. *)
Lemma start_idle d P diffusion source locked tmp reg (cells : list (list (coarse_cell P))) :
  idle (length cells) (start d P diffusion source locked tmp reg cells).
Proof. intros t L. cbn [start s_rest]. now rewrite nth_overflow. Qed.

Lemma in_threads {P} (cells : list (list (coarse_cell P))) u c : In c (nth u cells []) -> In c (concat cells).
Proof.
  intros I. apply in_concat. exists (nth u cells []). split; [|exact I]. apply nth_In.
  destruct (Nat.lt_ge_cases u (length cells)); [assumption|]. rewrite nth_overflow in I by assumption. destruct I.
Qed.

Lemma vector_complete d P diffusion source (cs : list (coarse_cell P)) : forall V0 V,
  assemble_vector d P diffusion source V0 cs = Some V -> forall c, In c cs -> complete_cell c.
Proof.
  induction cs as [|x cs IH]; intros V0 V H c I; [destruct I|].
  cbn [assemble_vector] in H. unfold assemble_rhs_cell in H at 1.
  destruct (Nat.eqb_spec (cc_slots P x) (cc_n P x + 2)) as [E|E]; [|discriminate].
  destruct I as [<-|I]; [exact E|]. eapply IH; eauto.
Qed.

(** ** Two threads with the same storage. *)
Lemma doubled slot t u s L e r q : t <> u -> slot t = slot u -> (exists i j, e = Mat i j) ->
  s_rest s t = ClearMat :: Apply L :: Add e e :: r -> s_rest s u = ClearMat :: Apply L :: Add e e :: q ->
  exists s', run slot [t; u; t; u; t; u] s = Some s' /\ s_mem s' e = s_mem s e + 4 * L e.
Proof.
  intros N E (i & j & ->) A B. destruct s as [mem tmp reg rest]. cbn [s_rest s_mem] in *.
  assert (Nt : Nat.eqb t u = false) by now apply Nat.eqb_neq.
  assert (Nu : Nat.eqb u t = false) by (apply Nat.eqb_neq; congruence).
  pose proof (Nat.eqb_refl t) as Rt. pose proof (Nat.eqb_refl u) as Ru.
  eexists. split.
  - cbn [run].
    unfold step at 1. cbn [s_rest]. rewrite A.
    unfold step at 1. cbn [s_rest]. rewrite upon_other by congruence. rewrite B.
    unfold step at 1. cbn [s_rest]. rewrite upon_other, upon_same by exact N.
    unfold step at 1. cbn [s_rest]. rewrite upon_other, upon_same by congruence.
    unfold step at 1. cbn [s_rest]. rewrite upon_other, upon_same by exact N.
    unfold step at 1. cbn [s_rest]. rewrite upon_other, upon_same by congruence. reflexivity.
  - cbn [s_mem s_tmp]. rewrite <- E. unfold put. rewrite same_refl, !upon_same. cbn [clear_mat]. ring.
Qed.

Lemma never_run slot e sched : forall s s', (forall v, never e (s_rest s v)) -> run slot sched s = Some s' ->
  s_mem s' e = s_mem s e.
Proof.
  induction sched as [|t r IH]; intros s s' N H; cbn [run] in H; [now injection H as <-|].
  destruct (step slot t s) as [s1|] eqn:E; [|discriminate].
  rewrite (IH s1 s'); [now apply (mem_untouched slot t)| |exact H].
  intros v. destruct (step_rest slot _ _ _ E) as (A & B). destruct (Nat.eq_dec v t) as [->|D].
  - rewrite A. apply never_tl, N.
  - rewrite B by exact D. apply N.
Qed.
