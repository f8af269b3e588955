(** After the store was cleared, every later run behaves like a first run
    (C07, second part). *)
From Coq Require Import List Arith Lia Bool.
From Verif Require Import Util StorageModel StorageSpec StorageProofs.
Import ListNotations.

Section Replay.
Variable F : Scalar.

Notation state := (state F).
Notation heap := (heap F).
Notation backs := (backs F).
Notation reg := (reg F).
Notation mgrs := (mgrs F).

Definition shb (h : nat) (b : backend) : backend :=
  {| b_alive := b_alive b; b_len := b_len b; b_funs := map (plus h) (b_funs b) |}.
Definition shm (h nb : nat) (m : manager) : manager :=
  {| m_key := m_key m; m_back := nb + m_back m; m_num := m_num m;
     m_sols := map (plus h) (m_sols m) |}.
Definition shr (nb : nat) (p : nat * nat) : nat * nat := (fst p, nb + snd p).

Record sim (h nb d : nat) (s1 s2 : state) : Prop := {
  S_heap : exists H, length H = h /\ heap s2 = H ++ heap s1;
  S_backs : exists B, length B = nb /\ backs s2 = B ++ map (shb h) (backs s1);
  S_mgrs : exists M, length M = d /\ mgrs s2 = M ++ map (shm h nb) (mgrs s1);
  S_reg : reg s2 = map (shr nb) (reg s1)
}.

Lemma assoc_shr : forall nb k l,
  assoc k (map (shr nb) l) = option_map (plus nb) (assoc k l).
Proof.
  induction l as [|[k' b] t IH]; simpl; auto. destruct (Nat.eqb k k'); auto.
Qed.

Lemma map_nth_shift : forall (H hp : list (vec F)) l,
  map (fun a => nth a (H ++ hp) []) (map (plus (length H)) l) = map (fun a => nth a hp []) l.
Proof.
  intros. rewrite map_map. apply map_ext. intro a. apply nth_app_r.
Qed.

Lemma sim_view : forall h nb d s1 s2 m, sim h nb d s1 s2 -> view F s2 (d + m) = view F s1 m.
Proof.
  intros h nb d s1 s2 m [[H [EH1 EH2]] _ [M [EM1 EM2]] _]. unfold view.
  rewrite EM2, <- EM1, nth_error_app_r, nth_error_map.
  destruct (nth_error (mgrs s1) m) as [mg|]; simpl; auto.
  rewrite EH2, <- EH1. apply map_nth_shift.
Qed.

Lemma sim_stored : forall h nb d s1 s2 k, sim h nb d s1 s2 -> stored F s2 k = stored F s1 k.
Proof.
  intros h nb d s1 s2 k [[H [EH1 EH2]] [B [EB1 EB2]] _ ER]. unfold stored.
  rewrite ER, assoc_shr. destruct (assoc k (reg s1)) as [b|]; simpl; auto.
  rewrite EB2, <- EB1, nth_error_app_r, nth_error_map.
  destruct (nth_error (backs s1) b) as [bk|]; simpl; auto.
  rewrite EH2, <- EH1. apply map_nth_shift.
Qed.

Definition sim_out (h nb d : nat) (o1 o2 : outcome F) : Prop :=
  match o1, o2 with
  | Ok _ s1, Ok _ s2 => sim h nb d s1 s2
  | Throw _ s1, Throw _ s2 => sim h nb d s1 s2
  | UB _, UB _ => True
  | _, _ => False
  end.

Lemma sim_mgr : forall h nb d s1 s2 m, sim h nb d s1 s2 ->
  nth_error (mgrs s2) (d + m) = option_map (shm h nb) (nth_error (mgrs s1) m).
Proof.
  intros h nb d s1 s2 m [_ _ [M [EM1 EM2]] _].
  now rewrite EM2, <- EM1, nth_error_app_r, nth_error_map.
Qed.

Lemma sim_back : forall h nb d s1 s2 b, sim h nb d s1 s2 ->
  nth_error (backs s2) (nb + b) = option_map (shb h) (nth_error (backs s1) b).
Proof.
  intros h nb d s1 s2 b [_ [B [EB1 EB2]] _ _].
  now rewrite EB2, <- EB1, nth_error_app_r, nth_error_map.
Qed.

Lemma sim_modify : forall h nb d s1 s2 m i f, sim h nb d s1 s2 ->
  sim_out h nb d (do_modify F s1 m i f) (do_modify F s2 (d + m) i f).
Proof.
  intros h nb d s1 s2 m i f HS. unfold do_modify, slot.
  rewrite (sim_mgr _ _ _ _ _ m HS).
  destruct (nth_error (mgrs s1) m) as [mg|]; simpl; auto.
  rewrite nth_error_map. destruct (nth_error (m_sols mg) i) as [a|]; simpl; auto.
  destruct HS as [[H [EH1 EH2]] SB SM SR]. constructor; simpl; auto.
  exists H. split; auto. rewrite EH2, <- EH1, upd_app_r, nth_app_r. reflexivity.
Qed.

Lemma map_plus_seq : forall h n b, map (plus h) (seq b n) = seq (h + b) n.
Proof.
  induction n as [|n IH]; intros b; simpl; auto. f_equal.
  rewrite IH. f_equal. lia.
Qed.

Lemma sim_new : forall h nb d s1 s2 k n l, sim h nb d s1 s2 ->
  sim_out h nb d (do_new F s1 k n l) (do_new F s2 k n l).
Proof.
  intros h nb d s1 s2 k n l HS. unfold do_new, get_backend.
  pose proof HS as HS0.
  destruct HS as [[H [EH1 EH2]] [B [EB1 EB2]] [M [EM1 EM2]] ER].
  rewrite ER, assoc_shr. destruct (assoc k (reg s1)) as [b|] eqn:Ek; simpl.
  - rewrite (sim_back _ _ _ _ _ b HS0).
    destruct (nth_error (backs s1) b) as [bk|]; simpl; auto.
    constructor; simpl.
    + exists H. split; auto. rewrite EH2. now rewrite <- app_assoc.
    + exists B. auto.
    + exists M. split; auto. rewrite EM2, map_app, <- app_assoc. simpl.
      do 3 f_equal. unfold shm. simpl. f_equal. rewrite EH2, app_length, EH1.
      now rewrite map_plus_seq.
    + auto.
  - rewrite !nth_error_snoc. simpl.
    assert (EL : length (backs s2) = nb + length (backs s1)).
    { rewrite EB2, app_length, map_length. lia. }
    rewrite EL.
    constructor; simpl.
    + exists H. split; auto. rewrite EH2. now rewrite <- app_assoc.
    + exists B. split; auto. rewrite EB2, map_app, <- app_assoc. simpl. reflexivity.
    + exists M. split; auto. rewrite EM2, map_app, <- app_assoc. simpl.
      do 3 f_equal. unfold shm. simpl. f_equal. rewrite EH2, app_length, EH1.
      now rewrite map_plus_seq.
    + reflexivity.
Qed.

Lemma sim_save : forall h nb d s1 s2 m, sim h nb d s1 s2 ->
  sim_out h nb d (do_save F s1 m) (do_save F s2 (d + m)).
Proof.
  intros h nb d s1 s2 m HS. unfold do_save.
  rewrite (sim_mgr _ _ _ _ _ m HS).
  destruct (nth_error (mgrs s1) m) as [mg|]; simpl; auto.
  rewrite (sim_back _ _ _ _ _ (m_back mg) HS).
  destruct (nth_error (backs s1) (m_back mg)) as [bk|]; simpl; auto.
  destruct (b_alive bk); simpl; auto.
  destruct HS as [[H [EH1 EH2]] [B [EB1 EB2]] [M [EM1 EM2]] ER].
  constructor; simpl; eauto.
  exists B. split; auto. rewrite EB2, <- EB1, upd_app_r. f_equal.
  rewrite map_upd. f_equal. unfold shb. simpl. now rewrite map_app.
Qed.

Lemma sim_load_loop : forall H funs n i hp sols,
  load_loop F (map (plus (length H)) funs) n i (H ++ hp) (map (plus (length H)) sols) =
  match load_loop F funs n i hp sols with
  | LOk _ h' s' => LOk F (H ++ h') (map (plus (length H)) s')
  | LThrow _ h' s' => LThrow F (H ++ h') (map (plus (length H)) s')
  | LUB _ => LUB F
  end.
Proof.
  induction n as [|n IH]; intros i hp sols; simpl; auto.
  rewrite nth_error_map. destruct (nth_error sols i) as [a|]; simpl; auto.
  rewrite nth_error_map. rewrite upd_app_r, nth_app_r.
  destruct (nth_error funs i) as [b|]; simpl; auto.
  rewrite <- map_upd. apply IH.
Qed.

Lemma sim_set_sols : forall h nb d s1 s2 m mg H hp sols,
  sim h nb d s1 s2 -> length H = h ->
  sim h nb d (set_sols F s1 m mg hp sols)
    (set_sols F s2 (d + m) (shm h nb mg) (H ++ hp) (map (plus h) sols)).
Proof.
  intros h nb d s1 s2 m mg H hp sols HS EH.
  destruct HS as [_ SB [M [EM1 EM2]] ER]. constructor; simpl; eauto.
  exists M. split; auto. rewrite EM2, <- EM1, upd_app_r. f_equal.
  rewrite map_upd. reflexivity.
Qed.

Lemma sim_load : forall h nb d s1 s2 m, sim h nb d s1 s2 ->
  sim_out h nb d (do_load F s1 m) (do_load F s2 (d + m)).
Proof.
  intros h nb d s1 s2 m HS. unfold do_load.
  rewrite (sim_mgr _ _ _ _ _ m HS).
  destruct (nth_error (mgrs s1) m) as [mg|]; simpl; auto.
  rewrite (sim_back _ _ _ _ _ (m_back mg) HS).
  destruct (nth_error (backs s1) (m_back mg)) as [bk|]; simpl; auto.
  destruct (b_alive bk); simpl; auto.
  destruct (S_heap _ _ _ _ _ HS) as [H [EH1 EH2]].
  subst h. rewrite EH2. rewrite sim_load_loop.
  destruct (load_loop F (b_funs bk) (m_num mg) 0 (heap s1) (m_sols mg)) as [h' s'|h' s'|]; simpl; auto.
  - apply sim_set_sols; auto.
  - apply sim_set_sols; auto.
Qed.

Lemma sim_drop : forall h nb d s1 s2 m, sim h nb d s1 s2 ->
  sim_out h nb d (do_drop F s1 m) (do_drop F s2 (d + m)).
Proof.
  intros h nb d s1 s2 m HS. unfold do_drop.
  rewrite (sim_mgr _ _ _ _ _ m HS).
  destruct (nth_error (mgrs s1) m) as [mg|]; simpl; auto.
  destruct (S_heap _ _ _ _ _ HS) as [H [EH1 EH2]]. rewrite EH2.
  apply (sim_set_sols h nb d s1 s2 m mg H (heap s1) []); auto.
Qed.

Lemma sim_clear : forall h nb d s1 s2, sim h nb d s1 s2 ->
  sim h nb d (do_clear F s1) (do_clear F s2).
Proof.
  intros h nb d s1 s2 [SH [B [EB1 EB2]] SM SR]. constructor; simpl; auto.
  exists (map kill B). rewrite map_length. split; auto.
  rewrite EB2, map_app, !map_map. reflexivity.
Qed.

Lemma sim_step : forall h nb d s1 s2 o, sim h nb d s1 s2 ->
  sim_out h nb d (step F s1 o) (step F s2 (shift_op F d o)).
Proof.
  intros h nb d s1 s2 o HS. destruct o; simpl.
  - now apply sim_new.
  - now apply sim_modify.
  - now apply sim_modify.
  - now apply sim_save.
  - now apply sim_load.
  - now apply sim_drop.
  - now apply sim_clear.
  - exact HS.
Qed.

Lemma sim_block : forall h nb d ops s1 s2, sim h nb d s1 s2 ->
  sim_out h nb d (run_block F s1 ops) (run_block F s2 (map (shift_op F d) ops)).
Proof.
  induction ops as [|o r IH]; intros s1 s2 HS; simpl; auto.
  pose proof (sim_step h nb d s1 s2 o HS) as G.
  destruct (step F s1 o), (step F s2 (shift_op F d o)); simpl in G; try tauto.
  - now apply IH.
Qed.

Lemma sim_guarded : forall h nb d ops s1 s2, sim h nb d s1 s2 ->
  sim_out h nb d (guarded F s1 ops) (guarded F s2 (map (shift_op F d) ops)).
Proof.
  intros h nb d ops s1 s2 HS. unfold guarded.
  pose proof (sim_block h nb d ops s1 s2 HS) as G.
  destruct (run_block F s1 ops), (run_block F s2 (map (shift_op F d) ops)); simpl in G; try tauto.
  - now apply sim_clear.
  - now apply sim_clear.
Qed.

Lemma cleared_sim_init : forall s,
  reg s = [] -> sim (length (heap s)) (length (backs s)) (length (mgrs s)) (init F) s.
Proof.
  intros s E. constructor; simpl; eauto.
  - exists (heap s). split; auto. now rewrite app_nil_r.
  - exists (backs s). split; auto. now rewrite app_nil_r.
  - exists (mgrs s). split; auto. now rewrite app_nil_r.
Qed.

Lemma sim_out_client : forall h nb d o1 o2, sim_out h nb d o1 o2 -> same_for_client F d o1 o2.
Proof.
  intros h nb d o1 o2 G. unfold same_for_client. destruct o1, o2; simpl in *; try tauto.
  - split; intros; [eapply sim_view|eapply sim_stored]; eauto.
  - split; intros; [eapply sim_view|eapply sim_stored]; eauto.
Qed.

Lemma guarded_reg : forall s body s',
  (guarded F s body = Ok F s' \/ guarded F s body = Throw F s') -> reg s' = [].
Proof.
  intros s body s' HS. unfold guarded in HS.
  destruct (run_block F s body); destruct HS as [HS|HS]; inversion HS; reflexivity.
Qed.

Lemma replay_block : forall s body s' ops,
  (guarded F s body = Ok F s' \/ guarded F s body = Throw F s') ->
  same_for_client F (handles F s') (run_block F (init F) ops)
     (run_block F s' (map (shift_op F (handles F s')) ops)).
Proof.
  intros. eapply sim_out_client. apply sim_block. apply cleared_sim_init.
  eapply guarded_reg; eauto.
Qed.

Lemma replay_guarded : forall s body s' ops,
  (guarded F s body = Ok F s' \/ guarded F s body = Throw F s') ->
  same_for_client F (handles F s') (guarded F (init F) ops)
     (guarded F s' (map (shift_op F (handles F s')) ops)).
Proof.
  intros. eapply sim_out_client. apply sim_guarded. apply cleared_sim_init.
  eapply guarded_reg; eauto.
Qed.

End Replay.
