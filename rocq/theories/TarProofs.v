(** Proofs for C53. *)
From Coq Require Import ZArith List Arith Bool Lia.
From Verif Require Import Util TarModel TarSpec.
Import ListNotations.
Open Scope nat_scope.

Section P.
Variable point val : Type.
Variable dim : nat.
Hypothesis dim_pos : 0 < dim.
Variable interval : point -> nat -> Z.
Variable stride : nat -> Z.
Variable entry : nat -> Z -> val.

Notation off := (offset stride).
Notation perm := (permeability point val dim interval stride entry).
Notation gst := (gstep point val dim interval stride entry).
Notation tst := (tstep point val dim interval stride entry).
Notation rn := (run point val dim interval stride entry).

Lemma off_ext : forall n w v, (forall d, d < n -> w d = v d) -> off n w = off n v.
Proof.
  induction n as [|n IH]; simpl; intros w v H; auto. rewrite (IH w v), (H n); auto.
Qed.
Lemma set_eq : forall A (f : nat -> A) k a, set f k a k = a.
Proof. intros. unfold set. now rewrite Nat.eqb_refl. Qed.
Lemma set_neq : forall A (f : nat -> A) k a j, j <> k -> set f k a j = f j.
Proof. intros A f k a j N. unfold set. apply Nat.eqb_neq in N. now rewrite N. Qed.

(** ** Every interleaving: invariant. *)
Section Inv.
Variable pts : list point.

Definition good_i (z : Z) (d : nat) : Prop := exists p, In p pts /\ z = interval p d.
Definition good_o (n : nat) (o : Z) : Prop :=
  exists p : nat -> point, (forall d, d < n -> In (p d) pts) /\ o = off n (fun d => interval (p d) d).
Definition good_v (k : nat) (v : val) : Prop := exists o, good_o dim o /\ v = entry k o.

Definition good_list (y : list val) : Prop := forall k v, nth_error y k = Some v -> good_v k v.

Definition tinv (sh : shared val) (t : thread point val) : Prop :=
  incl (todo _ _ t) pts /\
  (forall x y, In (x, y) (done _ _ t) -> In x pts /\ length y = dim /\ good_list y) /\
  match at_ _ _ t with
  | Idle _ _ => True
  | Write _ _ x k => In x pts /\ k < dim /\ forall d, d < k -> good_i (intervals _ sh d) d
  | Sum _ _ x k o => In x pts /\ k < dim /\ (forall d, d < dim -> good_i (intervals _ sh d) d) /\ good_o k o
  | Fill _ _ x k o => In x pts /\ k < dim /\ (forall d, d < dim -> good_i (intervals _ sh d) d) /\
      good_o dim o /\ forall d, d < k -> good_v d (matrix _ sh d)
  | Copy _ _ x k y => In x pts /\ k < dim /\ (forall d, d < dim -> good_v d (matrix _ sh d)) /\
      length y = k /\ good_list y
  end.

(** Steps of others only replace members by good values. *)
Definition better (sh sh' : shared val) : Prop :=
  (forall d, intervals _ sh' d = intervals _ sh d \/ good_i (intervals _ sh' d) d) /\
  (forall d, matrix _ sh' d = matrix _ sh d \/ good_v d (matrix _ sh' d)).

Lemma tinv_better : forall sh sh' t, better sh sh' -> tinv sh t -> tinv sh' t.
Proof.
  intros sh sh' t (BI & BM) (T & D & A). split; auto. split; auto.
  assert (KI : forall d, good_i (intervals _ sh d) d -> good_i (intervals _ sh' d) d)
    by (intros d H; destruct (BI d) as [->|]; auto).
  assert (KM : forall d, good_v d (matrix _ sh d) -> good_v d (matrix _ sh' d))
    by (intros d H; destruct (BM d) as [->|]; auto).
  destruct (at_ _ _ t); auto; intuition auto.
Qed.

Lemma good_o_snoc : forall k o z, good_o k o -> good_i z k -> good_o (S k) (o + z * stride k)%Z.
Proof.
  intros k o z (p & P & ->) (q & Q & ->).
  exists (fun d => if Nat.eqb d k then q else p d). split.
  - intros d L. destruct (Nat.eqb_spec d k); auto. apply P. lia.
  - simpl. rewrite Nat.eqb_refl. f_equal. apply off_ext. intros d L.
    destruct (Nat.eqb_spec d k); [lia|auto].
Qed.

Lemma good_list_snoc : forall y v, good_list y -> good_v (length y) v -> good_list (y ++ [v]).
Proof.
  intros y v H G k u E. destruct (Nat.lt_ge_cases k (length y)).
  - rewrite nth_error_app1 in E by auto. auto.
  - rewrite nth_error_app2 in E by auto. destruct (k - length y) eqn:K.
    + injection E as <-. now replace k with (length y) by lia.
    + destruct n; discriminate.
Qed.

Lemma tstep_inv : forall sh t sh' t', tst sh t = Some (sh', t') -> tinv sh t ->
  better sh sh' /\ tinv sh' t'.
Proof.
  intros sh t sh' t' E (T & D & A). unfold tstep in E.
  assert (SAME : better sh sh) by (split; intros; left; auto).
  destruct (at_ _ _ t) as [|x k|x k o|x k o|x k y].
  - destruct (todo _ _ t) as [|x r] eqn:ET; [discriminate|]. injection E as <- <-.
    split; auto. split; [|split; [exact D|]]; cbn [todo at_ done].
    + intros p I. apply T. now right.
    + split; [apply T; now left|]. split; [exact dim_pos|intros d L; lia].
  - injection E as <- <-. destruct A as (X & K & G).
    assert (B : better sh {| intervals := set (intervals _ sh) k (interval x k); matrix := matrix _ sh |}).
    { split; intros d; simpl; [|left; auto]. destruct (Nat.eq_dec d k) as [->|N].
      - right. rewrite set_eq. exists x. auto.
      - left. now rewrite set_neq. }
    split; auto. split; [exact T|split; [exact D|]]. cbn [at_].
    assert (G' : forall d, d < S k -> good_i (set (intervals _ sh) k (interval x k) d) d).
    { intros d L. destruct (Nat.eq_dec d k) as [->|N].
      - rewrite set_eq. exists x. auto.
      - rewrite set_neq by auto. apply G. lia. }
    destruct (Nat.ltb_spec (S k) dim); simpl.
    + repeat split; auto.
    + repeat split; auto.
      * intros d L. apply G'. lia.
      * exists (fun _ => x). split; [intros; lia|reflexivity].
  - injection E as <- <-. destruct A as (X & K & G & O). split; auto.
    split; [exact T|split; [exact D|]]. cbn [at_].
    pose proof (good_o_snoc k o _ O (G k K)) as O'.
    destruct (Nat.ltb_spec (S k) dim); simpl.
    + repeat split; auto.
    + repeat split; auto.
      * now replace dim with (S k) by lia.
      * intros d L. lia.
  - injection E as <- <-. destruct A as (X & K & G & O & M).
    assert (GV : good_v k (entry k o)) by (exists o; auto).
    split.
    + split; intros d; simpl; [left; auto|]. destruct (Nat.eq_dec d k) as [->|N].
      * right. now rewrite set_eq.
      * left. now rewrite set_neq.
    + split; [exact T|split; [exact D|]]. cbn [at_].
      assert (M' : forall d, d < S k -> good_v d (set (matrix _ sh) k (entry k o) d)).
      { intros d L. destruct (Nat.eq_dec d k) as [->|N].
        - now rewrite set_eq.
        - rewrite set_neq by auto. apply M. lia. }
      destruct (Nat.ltb_spec (S k) dim); simpl.
      * repeat split; auto.
      * repeat split; auto.
        -- intros d L. apply M'. lia.
        -- intros j v E. destruct j; discriminate.
  - injection E as <- <-. destruct A as (X & K & M & L & Y). split; auto.
    assert (Y' : good_list (y ++ [matrix _ sh k])) by (apply good_list_snoc; auto; rewrite L; auto).
    assert (L' : length (y ++ [matrix _ sh k]) = S k) by (rewrite app_length, L; simpl; lia).
    destruct (Nat.ltb_spec (S k) dim).
    + split; [exact T|split; [exact D|]]. cbn [at_]. repeat split; auto.
    + split; [exact T|split; [|exact I]]. cbn [done]. intros p z H'.
      apply in_app_or in H'. destruct H' as [H'|[H'|[]]]; [auto|]. injection H' as <- <-.
      split; auto. split; [lia|auto].
Qed.

Definition sinv (s : state point val) : Prop := forall t, In t (snd s) -> tinv (fst s) t.

Lemma gstep_inv : forall s i, sinv s -> sinv (gst s i).
Proof.
  intros s i H. unfold gstep. destruct (nth_error (snd s) i) as [t|] eqn:E; auto.
  destruct (tst (fst s) t) as [(sh & t')|] eqn:ET; auto.
  assert (It : In t (snd s)) by (eapply nth_error_In; eauto).
  destruct (tstep_inv _ _ _ _ ET (H t It)) as (B & T').
  intros u I. simpl in *. apply In_upd in I. destruct I as [->|I]; auto.
  eapply tinv_better; eauto.
Qed.
Lemma run_inv : forall sched s, sinv s -> sinv (rn sched s).
Proof. induction sched as [|i r IH]; simpl; intros s H; auto. apply IH. now apply gstep_inv. Qed.
End Inv.

Lemma every_result_mixed : forall programs sh sched t x y,
  In t (snd (rn sched (sh, start point val programs))) -> In (x, y) (done _ _ t) ->
  In x (concat programs) /\ mixed point val dim interval stride entry (concat programs) y.
Proof.
  intros programs sh sched t x y It Id.
  assert (H : sinv (concat programs) (rn sched (sh, start point val programs))).
  { apply run_inv. intros u I. simpl in I. unfold start in I. apply in_map_iff in I.
    destruct I as (p & <- & Ip). split; [|split; [|exact I]]; simpl.
    - intros q Iq. apply in_concat. eauto.
    - intros a b []. }
  destruct (H t It) as (_ & D & _). destruct (D x y Id) as (X & L & G).
  split; auto. split; auto. intros k v E. destruct (G k v E) as (o & (p & P & ->) & ->). eauto.
Qed.

(** ** Evaluations that do not overlap. *)
(** Values of one thread running alone, by phases. *)
Lemma run_app : forall a b s, rn (a ++ b) s = rn b (rn a s).
Proof. intros. unfold run. apply fold_left_app. Qed.

Fixpoint iter (n : nat) (c : shared val * thread point val) : shared val * thread point val :=
  match n with
  | O => c
  | S m => match tst (fst c) (snd c) with Some c' => iter m c' | None => c end
  end.

Lemma iter_add : forall n m c, iter (n + m) c = iter m (iter n c).
Proof.
  induction n as [|n IH]; simpl; intros m c; auto.
  destruct (tst (fst c) (snd c)) eqn:E; auto.
  clear IH. induction m as [|m IH]; simpl; auto. now rewrite E.
Qed.

Lemma run_repeat : forall n i sh ts t, nth_error ts i = Some t ->
  rn (repeat i n) (sh, ts) = (fst (iter n (sh, t)), upd ts i (snd (iter n (sh, t)))).
Proof.
  induction n as [|n IH]; intros i sh ts t E; cbn [repeat iter].
  - unfold run. cbn [fold_left fst snd]. f_equal. apply nth_error_ext. intros j.
    destruct (Nat.eq_dec i j) as [->|N].
    + rewrite nth_error_upd_eq; auto. eapply nth_error_lt; eauto.
    + now rewrite nth_error_upd_neq.
  - unfold run in *. cbn [fold_left]. unfold gstep at 2. cbn [fst snd]. rewrite E.
    destruct (tst sh t) as [(sh' & t')|] eqn:ET; cbn [fst snd].
    + rewrite (IH i sh' (upd ts i t') t').
      * f_equal. apply nth_error_ext. intros j. destruct (Nat.eq_dec i j) as [->|N].
        -- rewrite !nth_error_upd_eq; auto; rewrite ?upd_length; eapply nth_error_lt; eauto.
        -- now rewrite !nth_error_upd_neq.
      * apply nth_error_upd_eq. eapply nth_error_lt; eauto.
    + clear IH. induction n as [|n IHn]; cbn [repeat fold_left].
      * f_equal. apply nth_error_ext. intros j. destruct (Nat.eq_dec i j) as [->|N].
        -- rewrite nth_error_upd_eq; auto. eapply nth_error_lt; eauto.
        -- now rewrite nth_error_upd_neq.
      * unfold gstep at 2. cbn [fst snd]. rewrite E, ET. exact IHn.
Qed.

Lemma phase_write : forall n x k r dn sh, k + n = dim -> 0 < n ->
  (forall d, d < k -> intervals _ sh d = interval x d) ->
  exists sh', iter n (sh, {| todo := r; at_ := Write _ _ x k; done := dn |}) =
    (sh', {| todo := r; at_ := Sum _ _ x 0 0; done := dn |}) /\
    forall d, d < dim -> intervals _ sh' d = interval x d.
Proof.
  induction n as [|n IH]; intros x k r dn sh L P H; [lia|].
  cbn [iter fst snd]. unfold tstep. cbn [at_ todo done].
  assert (H' : forall d, d < S k -> set (intervals _ sh) k (interval x k) d = interval x d).
  { intros d Ld. destruct (Nat.eq_dec d k) as [->|N]; [apply set_eq|]. rewrite set_neq by auto. apply H. lia. }
  destruct (Nat.ltb_spec (S k) dim).
  - apply IH; [lia|lia|]. exact H'.
  - replace n with 0 by lia. eexists. split; [reflexivity|]. simpl. intros d Ld. apply H'. lia.
Qed.
Lemma phase_sum : forall n x k r dn sh o, k + n = dim -> 0 < n ->
  (forall d, d < dim -> intervals _ sh d = interval x d) -> o = off k (interval x) ->
  iter n (sh, {| todo := r; at_ := Sum _ _ x k o; done := dn |}) =
    (sh, {| todo := r; at_ := Fill _ _ x 0 (off dim (interval x)); done := dn |}).
Proof.
  induction n as [|n IH]; intros x k r dn sh o L P H E; [lia|].
  cbn [iter fst snd]. unfold tstep. cbn [at_ todo done].
  assert (E' : (o + intervals _ sh k * stride k)%Z = off (S k) (interval x)).
  { simpl. rewrite E, H by lia. reflexivity. }
  destruct (Nat.ltb_spec (S k) dim).
  - apply IH; auto; lia.
  - replace n with 0 by lia. cbn [iter]. rewrite E'. now replace (S k) with dim by lia.
Qed.
Lemma phase_fill : forall n x k r dn sh o, k + n = dim -> 0 < n ->
  (forall d, d < k -> matrix _ sh d = entry d o) ->
  exists sh', iter n (sh, {| todo := r; at_ := Fill _ _ x k o; done := dn |}) =
    (sh', {| todo := r; at_ := Copy _ _ x 0 []; done := dn |}) /\
    forall d, d < dim -> matrix _ sh' d = entry d o.
Proof.
  induction n as [|n IH]; intros x k r dn sh o L P H; [lia|].
  cbn [iter fst snd]. unfold tstep. cbn [at_ todo done].
  assert (H' : forall d, d < S k -> set (matrix _ sh) k (entry k o) d = entry d o).
  { intros d Ld. destruct (Nat.eq_dec d k) as [->|N]; [apply set_eq|]. rewrite set_neq by auto. apply H. lia. }
  destruct (Nat.ltb_spec (S k) dim).
  - apply IH; [lia|lia|]. exact H'.
  - replace n with 0 by lia. eexists. split; [reflexivity|]. simpl. intros d Ld. apply H'. lia.
Qed.
Lemma phase_copy : forall n x k r dn sh o y, k + n = dim -> 0 < n ->
  (forall d, d < dim -> matrix _ sh d = entry d o) -> y = map (fun j => entry j o) (seq 0 k) ->
  iter n (sh, {| todo := r; at_ := Copy _ _ x k y; done := dn |}) =
    (sh, {| todo := r; at_ := Idle _ _; done := dn ++ [(x, map (fun j => entry j o) (seq 0 dim))] |}).
Proof.
  induction n as [|n IH]; intros x k r dn sh o y L P H E; [lia|].
  cbn [iter fst snd]. unfold tstep. cbn [at_ todo done].
  assert (E' : y ++ [matrix _ sh k] = map (fun j => entry j o) (seq 0 (S k))).
  { rewrite seq_S, map_app. simpl. rewrite E, H by lia. reflexivity. }
  destruct (Nat.ltb_spec (S k) dim).
  - apply IH; auto; lia.
  - replace n with 0 by lia. cbn [iter]. rewrite E'. now replace (S k) with dim by lia.
Qed.

Lemma whole_evaluation : forall sh x r dn,
  exists sh', iter (one_evaluation dim) (sh, {| todo := x :: r; at_ := Idle _ _; done := dn |}) =
    (sh', {| todo := r; at_ := Idle _ _; done := dn ++ [(x, perm x)] |}).
Proof.
  intros sh x r dn. unfold one_evaluation.
  replace (1 + 4 * dim) with (1 + (dim + (dim + (dim + dim)))) by lia.
  rewrite iter_add. cbn [iter fst snd]. unfold tstep. cbn [at_ todo done].
  destruct (phase_write dim x 0 r dn sh ltac:(lia) dim_pos ltac:(intros; lia)) as (s1 & E1 & H1).
  rewrite iter_add, E1.
  rewrite iter_add, (phase_sum dim x 0 r dn s1 0%Z ltac:(lia) dim_pos H1 eq_refl).
  destruct (phase_fill dim x 0 r dn s1 (off dim (interval x)) ltac:(lia) dim_pos ltac:(intros; lia)) as (s2 & E2 & H2).
  rewrite iter_add, E2.
  rewrite (phase_copy dim x 0 r dn s2 _ [] ltac:(lia) dim_pos H2 eq_refl).
  exists s2. reflexivity.
Qed.

Lemma idle_stays : forall n sh dn, iter n (sh, {| todo := []; at_ := Idle _ _; done := dn |}) =
  (sh, {| todo := []; at_ := Idle _ _; done := dn |}).
Proof. destruct n; reflexivity. Qed.

Definition idle_correct (ts : list (thread point val)) : Prop :=
  forall t, In t ts -> at_ _ _ t = Idle _ _ /\ forall x y, In (x, y) (done _ _ t) -> y = perm x.

Lemma block_correct : forall i sh ts, idle_correct ts ->
  idle_correct (snd (rn (repeat i (one_evaluation dim)) (sh, ts))) /\
  length (snd (rn (repeat i (one_evaluation dim)) (sh, ts))) = length ts.
Proof.
  intros i sh ts H. destruct (nth_error ts i) as [t|] eqn:E.
  - rewrite (run_repeat _ i sh ts t E). cbn [snd]. split; [|apply upd_length].
    destruct (H t (nth_error_In _ _ E)) as (A & D).
    intros u I. apply In_upd in I. destruct I as [->|I]; auto.
    destruct t as [td a dn]. simpl in A, D. subst a. destruct td as [|x r].
    + rewrite idle_stays. simpl. auto.
    + destruct (whole_evaluation sh x r dn) as (sh' & ->). simpl. split; auto.
      intros p y J. apply in_app_or in J. destruct J as [J|[J|[]]]; auto. now injection J as <- <-.
  - assert (K : forall n, rn (repeat i n) (sh, ts) = (sh, ts)).
    { induction n as [|n IH]; auto. unfold run in *. cbn [repeat fold_left]. unfold gstep at 2.
      cbn [snd]. rewrite E. exact IH. }
    rewrite K. auto.
Qed.

Lemma blocks_correct : forall is s, idle_correct (snd s) -> idle_correct (snd (rn (blocks dim is) s)).
Proof.
  induction is as [|i is IH]; intros s H; auto. unfold blocks. cbn [flat_map]. rewrite run_app.
  apply IH. destruct s as (sh & ts). apply block_correct. exact H.
Qed.

Lemma sequential_correct : forall programs sh is,
  all_correct point val dim interval stride entry (snd (rn (blocks dim is) (sh, start point val programs))).
Proof.
  intros programs sh is t x y It Id.
  assert (H : idle_correct (start point val programs)).
  { intros u I. unfold start in I. apply in_map_iff in I. destruct I as (p & <- & _). simpl.
    split; auto. intros a b []. }
  destruct (blocks_correct is (sh, start point val programs) H t It) as (_ & D). apply D. exact Id.
Qed.

(** A thread alone completes its program in order. *)
Lemma program_alone : forall p sh dn,
  exists sh', iter (length p * one_evaluation dim) (sh, {| todo := p; at_ := Idle _ _; done := dn |}) =
    (sh', {| todo := []; at_ := Idle _ _; done := dn ++ map (fun x => (x, perm x)) p |}).
Proof.
  induction p as [|x p IH]; intros sh dn.
  - cbn [length Nat.mul iter map]. rewrite app_nil_r. eauto.
  - cbn [length Nat.mul]. rewrite iter_add. destruct (whole_evaluation sh x p dn) as (s1 & ->).
    destruct (IH s1 (dn ++ [(x, perm x)])) as (s2 & ->). exists s2. rewrite <- app_assoc. reflexivity.
Qed.
End P.
