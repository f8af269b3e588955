(** Proofs about handles over time: C07 (old handles), C75, C76. *)
From Coq Require Import List Arith Lia Bool.
From Verif Require Import Util StorageModel StorageSpec StorageProofs.
Import ListNotations.

Section More.
Variable F : Scalar.
Notation state := (state F).
Notation op := (op F).

(** The operation replaces the functions of handle [m]. *)
Definition replaces (o : op) (m : nat) : Prop := o = Load F m \/ o = Drop F m.

Definition next (s : state) (o : op) (s' : state) : Prop :=
  step F s o = Ok F s' \/ step F s o = Throw F s'.

Lemma nth_error_app_l : forall A (l r : list A) i x, nth_error l i = Some x -> nth_error (l ++ r) i = Some x.
Proof. intros A l r i x H. rewrite nth_error_app1; auto. eapply nth_error_lt; eauto. Qed.

(** Handles keep their cell and storage; only Load and Drop replace their functions. *)
Lemma step_mgr : forall s o s' m mg, next s o s' -> nth_error (mgrs F s) m = Some mg ->
  exists mg', nth_error (mgrs F s') m = Some mg' /\ m_back mg' = m_back mg /\ m_key mg' = m_key mg /\
    m_num mg' = m_num mg /\ (~ replaces o m -> m_sols mg' = m_sols mg).
Proof.
  intros s o s' m mg H E.
  assert (SET : forall s m1 mg1 h sols, nth_error (mgrs F s) m = Some mg -> nth_error (mgrs F s) m1 = Some mg1 ->
    exists mg', nth_error (mgrs F (set_sols F s m1 mg1 h sols)) m = Some mg' /\ m_back mg' = m_back mg /\
      m_key mg' = m_key mg /\ m_num mg' = m_num mg /\ (m1 <> m -> m_sols mg' = m_sols mg)).
  { intros s0 m1 mg1 h sols A B. simpl. destruct (Nat.eq_dec m1 m) as [->|N].
    - rewrite nth_error_upd_eq by (eapply nth_error_lt; eauto). rewrite A in B. injection B as <-.
      eexists. split; [reflexivity|]. simpl. repeat split; auto. congruence.
    - rewrite nth_error_upd_neq by auto. exists mg. auto. }
  destruct o as [key num len|m1 i v|m1 i c|m1|m1|m1| |]; unfold next in H; cbn [step] in H.
  - unfold do_new, get_backend in H.
    destruct (assoc key (reg F s)) as [b|].
    + destruct (nth_error (backs F s) b); [|destruct H; discriminate].
      destruct H as [H|H]; [|discriminate]. injection H as <-. simpl. exists mg.
      split; [now apply nth_error_app_l|auto].
    + simpl in H. destruct (nth_error _ _) in H; [|destruct H; discriminate].
      destruct H as [H|H]; [|discriminate]. injection H as <-. simpl. exists mg.
      split; [now apply nth_error_app_l|auto].
  - unfold do_modify in H. destruct (slot F s m1 i); [|destruct H; discriminate].
    destruct H as [H|H]; [|discriminate]. injection H as <-. simpl. exists mg. auto.
  - unfold do_modify in H. destruct (slot F s m1 i); [|destruct H; discriminate].
    destruct H as [H|H]; [|discriminate]. injection H as <-. simpl. exists mg. auto.
  - unfold do_save in H. destruct (nth_error (mgrs F s) m1); [|destruct H; discriminate].
    destruct (nth_error _ _) in H; [|destruct H; discriminate].
    destruct (b_alive _) in H; [|destruct H; discriminate].
    destruct H as [H|H]; [|discriminate]. injection H as <-. simpl. exists mg. auto.
  - unfold do_load in H. destruct (nth_error (mgrs F s) m1) as [mg1|] eqn:E1; [|destruct H; discriminate].
    destruct (nth_error _ _) in H; [|destruct H; discriminate].
    destruct (b_alive _) in H; [|destruct H; discriminate].
    destruct (load_loop _ _ _ _ _ _) in H; destruct H as [H|H]; try discriminate; injection H as <-;
      (edestruct SET as (mg' & A & B & C & D & X); [exact E|exact E1|]; exists mg'; rewrite A;
       repeat split; auto; intros R; apply X; intros ->; apply R; now left).
  - unfold do_drop in H. destruct (nth_error (mgrs F s) m1) as [mg1|] eqn:E1; [|destruct H; discriminate].
    destruct H as [H|H]; [|discriminate]. injection H as <-.
    edestruct SET as (mg' & A & B & C & D & X); [exact E|exact E1|]. exists mg'. rewrite A.
    repeat split; auto. intros R. apply X. intros ->. apply R. now right.
  - destruct H as [H|H]; [|discriminate]. injection H as <-. simpl. exists mg. auto.
  - destruct H as [H|H]; [discriminate|]. injection H as <-. exists mg. auto.
Qed.

(** Storages keep their space, dead ones stay dead, only a save changes the
    list of functions and only Clear ends their life. *)
Lemma step_back : forall s o s' b bk, next s o s' -> nth_error (backs F s) b = Some bk ->
  exists bk', nth_error (backs F s') b = Some bk' /\ b_len bk' = b_len bk /\
    (b_alive bk = false -> b_alive bk' = false) /\
    ((forall m mg, o = Save F m -> nth_error (mgrs F s) m = Some mg -> m_back mg <> b) ->
     b_funs bk' = b_funs bk).
Proof.
  intros s o s' b bk H E.
  destruct o as [key num len|m1 i v|m1 i c|m1|m1|m1| |]; unfold next in H; cbn [step] in H.
  - unfold do_new, get_backend in H.
    destruct (assoc key (reg F s)) as [b0|].
    + destruct (nth_error (backs F s) b0); [|destruct H; discriminate].
      destruct H as [H|H]; [|discriminate]. injection H as <-. simpl. exists bk. auto.
    + simpl in H. destruct (nth_error _ _) in H; [|destruct H; discriminate].
      destruct H as [H|H]; [|discriminate]. injection H as <-. simpl. exists bk.
      split; [now apply nth_error_app_l|auto].
  - unfold do_modify in H. destruct (slot F s m1 i); [|destruct H; discriminate].
    destruct H as [H|H]; [|discriminate]. injection H as <-. simpl. exists bk. auto.
  - unfold do_modify in H. destruct (slot F s m1 i); [|destruct H; discriminate].
    destruct H as [H|H]; [|discriminate]. injection H as <-. simpl. exists bk. auto.
  - unfold do_save in H. destruct (nth_error (mgrs F s) m1) as [mg1|] eqn:E1; [|destruct H; discriminate].
    destruct (nth_error (backs F s) (m_back mg1)) as [bk1|] eqn:E2; [|destruct H; discriminate].
    destruct (b_alive bk1) eqn:E3; [|destruct H; discriminate].
    destruct H as [H|H]; [|discriminate]. injection H as <-. simpl.
    destruct (Nat.eq_dec (m_back mg1) b) as [<-|N].
    + rewrite nth_error_upd_eq by (eapply nth_error_lt; eauto). rewrite E in E2. injection E2 as <-.
      eexists. split; [reflexivity|]. simpl. repeat split; auto; [congruence|].
      intros Q. exfalso. eapply Q; eauto.
    + rewrite nth_error_upd_neq by auto. exists bk. auto.
  - unfold do_load in H. destruct (nth_error (mgrs F s) m1) as [mg1|] eqn:E1; [|destruct H; discriminate].
    destruct (nth_error _ _) in H; [|destruct H; discriminate].
    destruct (b_alive _) in H; [|destruct H; discriminate].
    destruct (load_loop _ _ _ _ _ _) in H; destruct H as [H|H]; try discriminate; injection H as <-;
      simpl; exists bk; auto.
  - unfold do_drop in H. destruct (nth_error (mgrs F s) m1) as [mg1|] eqn:E1; [|destruct H; discriminate].
    destruct H as [H|H]; [|discriminate]. injection H as <-. simpl. exists bk. auto.
  - destruct H as [H|H]; [|discriminate]. injection H as <-. simpl.
    exists (kill bk). rewrite nth_error_map, E. simpl. auto.
  - destruct H as [H|H]; [discriminate|]. injection H as <-. exists bk. auto.
Qed.

(** Registrations last until Clear. *)
Lemma step_reg : forall s o s' k b, next s o s' -> o <> Clear F -> assoc k (reg F s) = Some b ->
  assoc k (reg F s') = Some b.
Proof.
  intros s o s' k b H N E.
  destruct o as [key num len|m1 i v|m1 i c|m1|m1|m1| |]; unfold next in H; cbn [step] in H; try congruence.
  - unfold do_new, get_backend in H.
    destruct (assoc key (reg F s)) as [b0|] eqn:A.
    + destruct (nth_error (backs F s) b0); [|destruct H; discriminate].
      destruct H as [H|H]; [|discriminate]. injection H as <-. auto.
    + simpl in H. destruct (nth_error _ _) in H; [|destruct H; discriminate].
      destruct H as [H|H]; [|discriminate]. injection H as <-. simpl.
      destruct (Nat.eqb_spec k key); [congruence|auto].
  - unfold do_modify in H. destruct (slot F s m1 i); [|destruct H; discriminate].
    destruct H as [H|H]; [|discriminate]. injection H as <-. auto.
  - unfold do_modify in H. destruct (slot F s m1 i); [|destruct H; discriminate].
    destruct H as [H|H]; [|discriminate]. injection H as <-. auto.
  - unfold do_save in H. destruct (nth_error (mgrs F s) m1) as [mg1|] eqn:E1; [|destruct H; discriminate].
    destruct (nth_error _ _) in H; [|destruct H; discriminate].
    destruct (b_alive _) in H; [|destruct H; discriminate].
    destruct H as [H|H]; [|discriminate]. injection H as <-. auto.
  - unfold do_load in H. destruct (nth_error (mgrs F s) m1) as [mg1|] eqn:E1; [|destruct H; discriminate].
    destruct (nth_error _ _) in H; [|destruct H; discriminate].
    destruct (b_alive _) in H; [|destruct H; discriminate].
    destruct (load_loop _ _ _ _ _ _) in H; destruct H as [H|H]; try discriminate; injection H as <-; auto.
  - unfold do_drop in H. destruct (nth_error (mgrs F s) m1) as [mg1|] eqn:E1; [|destruct H; discriminate].
    destruct H as [H|H]; [|discriminate]. injection H as <-. auto.
  - destruct H as [H|H]; [discriminate|]. injection H as <-. auto.
Qed.

Lemma run_cases : forall s o r s', run F s (o :: r) = Some s' -> exists s1, next s o s1 /\ run F s1 r = Some s'.
Proof.
  intros s o r s' H. simpl in H. unfold next. destruct (step F s o) eqn:E; try discriminate; eauto.
Qed.

(** ** Old handles. *)
Definition dead (s : state) (m : nat) : Prop :=
  exists mg bk, nth_error (mgrs F s) m = Some mg /\ nth_error (backs F s) (m_back mg) = Some bk /\ b_alive bk = false.

Lemma dead_step : forall s o s' m, next s o s' -> dead s m -> dead s' m.
Proof.
  intros s o s' m H (mg & bk & A & B & C).
  destruct (step_mgr _ _ _ _ _ H A) as (mg' & A' & E & _).
  destruct (step_back _ _ _ _ _ H B) as (bk' & B' & _ & D & _).
  exists mg', bk'. rewrite E. auto.
Qed.

Lemma dead_run : forall ops s s' m, run F s ops = Some s' -> dead s m -> dead s' m.
Proof.
  induction ops as [|o r IH]; intros s s' m H D.
  - injection H as <-. auto.
  - apply run_cases in H. destruct H as (s1 & N & R). eauto using dead_step.
Qed.

Lemma old_handles : forall s m ops s', reachable F s -> m < handles F s ->
  run F (do_clear F s) ops = Some s' ->
  step F s' (Save F m) = UB F /\ step F s' (Load F m) = UB F.
Proof.
  intros s m ops s' R L H.
  destruct (reachable_inv F s R) as (own & bown & I).
  assert (D : dead (do_clear F s) m).
  { unfold handles in L. destruct (nth_error (mgrs F s) m) as [mg|] eqn:E;
      [|apply nth_error_None in E; lia].
    destruct (I_mgr _ _ _ _ I _ _ E) as (B & _).
    destruct (nth_error (backs F s) (m_back mg)) as [bk|] eqn:Eb; [|apply nth_error_None in Eb; lia].
    exists mg, (kill bk). simpl. rewrite nth_error_map, Eb. auto. }
  destruct (dead_run _ _ _ _ H D) as (mg & bk & A & B & C).
  cbn [step]. unfold do_save, do_load. rewrite A, B, C. auto.
Qed.

(** ** New handles. *)
Lemma view_new : forall s key num len s' own bown, inv F s own bown ->
  step F s (New F key num len) = Ok F s' ->
  exists b bk, assoc key (reg F s') = Some b /\ nth_error (backs F s') b = Some bk /\
    view F s' (handles F s) = repeat (repeat (k0 F) (b_len bk)) num /\
    (assoc key (reg F s) = None -> b_len bk = len) /\
    (forall b0, assoc key (reg F s) = Some b0 -> b = b0).
Proof.
  intros s key num len s' own bown I H. cbn [step] in H. unfold do_new, get_backend in H.
  assert (V : forall (h : list (vec F)) z n, map (fun a => nth a (h ++ repeat z n) []) (seq (length h) n) = repeat z n).
  { intros h z n. revert h. induction n as [|n IH]; intros h; simpl; auto. f_equal.
    - rewrite app_nth2, Nat.sub_diag by lia. reflexivity.
    - specialize (IH (h ++ [z])). rewrite app_length, Nat.add_1_r in IH. rewrite <- app_assoc in IH. exact IH. }
  destruct (assoc key (reg F s)) as [b0|] eqn:A.
  - destruct (nth_error (backs F s) b0) as [bk|] eqn:B; [|discriminate]. injection H as <-.
    exists b0, bk. simpl. repeat split; auto; [|congruence|congruence].
    unfold view, handles. simpl. rewrite nth_error_app2, Nat.sub_diag by lia. simpl. apply V.
  - simpl in H. rewrite nth_error_app2, Nat.sub_diag in H by lia. simpl in H. injection H as <-.
    exists (length (backs F s)), {| b_alive := true; b_len := len; b_funs := [] |}. simpl.
    rewrite Nat.eqb_refl, nth_error_app2, Nat.sub_diag by lia.
    split; [reflexivity|]. split; [reflexivity|]. repeat split; auto; [|congruence].
    unfold view, handles. simpl. rewrite nth_error_app2, Nat.sub_diag by lia. simpl. apply V.
Qed.

(** Every registered cell has a handle. *)
Lemma registered_has_handle : forall s key b, reachable F s -> assoc key (reg F s) = Some b ->
  exists m, handle_cell F s m = Some key.
Proof.
  intros s key b (ops & H). 
  assert (G : forall ops s0 s, run F s0 ops = Some s ->
    (forall b, assoc key (reg F s0) = Some b -> exists m, handle_cell F s0 m = Some key) ->
    forall b, assoc key (reg F s) = Some b -> exists m, handle_cell F s m = Some key).
  { clear. induction ops as [|o r IH]; intros s0 s H P; [injection H as <-; auto|].
    apply run_cases in H. destruct H as (s1 & S1 & H). eapply IH; [exact H|]. clear IH H r s.
    intros b A.
    assert (K : forall m, handle_cell F s0 m = Some key -> handle_cell F s1 m = Some key).
    { intros m. unfold handle_cell. destruct (nth_error (mgrs F s0) m) as [mg|] eqn:E; [|discriminate].
      destruct (step_mgr _ _ _ _ _ S1 E) as (mg' & -> & _ & X & _). simpl. now rewrite X. }
    destruct (assoc key (reg F s0)) as [b0|] eqn:A0.
    - destruct (P b0 eq_refl) as (m & E). eauto.
    - clear P K. destruct o as [key1 num len|m1 i v|m1 i c|m1|m1|m1| |]; unfold next in S1; cbn [step] in S1.
      + unfold do_new, get_backend in S1.
        destruct (assoc key1 (reg F s0)) as [b1|] eqn:A1.
        * destruct (nth_error (backs F s0) b1); [|destruct S1; discriminate].
          destruct S1 as [H|H]; [|discriminate]. injection H as <-. simpl in A. congruence.
        * simpl in S1. destruct (nth_error _ _) in S1; [|destruct S1; discriminate].
          destruct S1 as [H|H]; [|discriminate]. injection H as <-. simpl in A.
          destruct (Nat.eqb_spec key key1) as [->|]; [|congruence].
          exists (length (mgrs F s0)). unfold handle_cell. simpl.
          rewrite nth_error_app2, Nat.sub_diag by lia. reflexivity.
      + unfold do_modify in S1. destruct (slot F s0 m1 i); [|destruct S1; discriminate].
        destruct S1 as [H|H]; [|discriminate]. injection H as <-. simpl in A. congruence.
      + unfold do_modify in S1. destruct (slot F s0 m1 i); [|destruct S1; discriminate].
        destruct S1 as [H|H]; [|discriminate]. injection H as <-. simpl in A. congruence.
      + unfold do_save in S1. destruct (nth_error (mgrs F s0) m1) as [mg1|]; [|destruct S1; discriminate].
        destruct (nth_error _ _) in S1; [|destruct S1; discriminate].
        destruct (b_alive _) in S1; [|destruct S1; discriminate].
        destruct S1 as [H|H]; [|discriminate]. injection H as <-. simpl in A. congruence.
      + unfold do_load in S1. destruct (nth_error (mgrs F s0) m1) as [mg1|]; [|destruct S1; discriminate].
        destruct (nth_error _ _) in S1; [|destruct S1; discriminate].
        destruct (b_alive _) in S1; [|destruct S1; discriminate].
        destruct (load_loop _ _ _ _ _ _) in S1; destruct S1 as [H|H]; try discriminate; injection H as <-;
          simpl in A; congruence.
      + unfold do_drop in S1. destruct (nth_error (mgrs F s0) m1) as [mg1|]; [|destruct S1; discriminate].
        destruct S1 as [H|H]; [|discriminate]. injection H as <-. simpl in A. congruence.
      + destruct S1 as [H|H]; [|discriminate]. injection H as <-. discriminate.
      + destruct S1 as [H|H]; [discriminate|]. injection H as <-. congruence. }
  intros A. eapply G; [exact H| |exact A]. intros b0 E. discriminate.
Qed.

Lemma registered_space : forall ops s s' key b bk, run F s ops = Some s' -> ~ In (Clear F) ops ->
  assoc key (reg F s) = Some b -> nth_error (backs F s) b = Some bk ->
  assoc key (reg F s') = Some b /\ exists bk', nth_error (backs F s') b = Some bk' /\ b_len bk' = b_len bk.
Proof.
  induction ops as [|o r IH]; intros s s' key b bk H N A B.
  - injection H as <-. eauto.
  - apply run_cases in H. destruct H as (s1 & S1 & R).
    assert (No : o <> Clear F) by (intros ->; apply N; now left).
    destruct (step_back _ _ _ _ _ S1 B) as (bk1 & B1 & L1 & _).
    destruct (IH s1 s' key b bk1 R) as (A' & bk' & B' & L'); auto.
    + intros C. apply N. now right.
    + eapply step_reg; eauto.
    + split; auto. exists bk'. split; auto. congruence.
Qed.

Lemma run_reachable : forall ops s s', reachable F s -> run F s ops = Some s' -> reachable F s'.
Proof.
  induction ops as [|o r IH]; intros s s' R H.
  - injection H as <-. auto.
  - apply run_cases in H. destruct H as (s1 & S1 & H). eapply IH; [|exact H].
    eapply reachable_step; eauto.
Qed.

Lemma later_handle : forall s key num len s1 ops s2 num' len' s3,
  reachable F s -> step F s (New F key num len) = Ok F s1 ->
  run F s1 ops = Some s2 -> ~ In (Clear F) ops ->
  step F s2 (New F key num' len') = Ok F s3 ->
  exists n, view F s1 (handles F s) = repeat (repeat (k0 F) n) num /\
            view F s3 (handles F s2) = repeat (repeat (k0 F) n) num'.
Proof.
  intros s key num len s1 ops s2 num' len' s3 R H1 H2 N H3.
  destruct (reachable_inv F s R) as (own & bown & I).
  destruct (view_new _ _ _ _ _ _ _ I H1) as (b & bk & A & B & V & _).
  assert (R2 : reachable F s2).
  { eapply run_reachable; [|exact H2]. eapply reachable_step; eauto. }
  destruct (reachable_inv F s2 R2) as (own2 & bown2 & I2).
  destruct (view_new _ _ _ _ _ _ _ I2 H3) as (b' & bk' & A' & B' & V' & _ & Q').
  destruct (registered_space _ _ _ _ _ _ H2 N A B) as (A2 & bk2 & B2 & L2).
  assert (E : b' = b) by (apply Q'; auto). subst b'.
  destruct (step_back _ (New F key num' len') _ _ _ (or_introl H3) B2) as (bk3 & B3 & L3 & _).
  exists (b_len bk). split; auto. rewrite V'. rewrite B3 in B'. injection B' as <-. congruence.
Qed.

(** ** Dropping a handle's functions. *)
Lemma drop_keeps : forall s m s', step F s (Drop F m) = Ok F s' ->
  (forall k, stored F s' k = stored F s k) /\ view F s' m = [] /\
  (forall m', m' <> m -> view F s' m' = view F s m').
Proof.
  intros s m s' H. cbn [step] in H. unfold do_drop in H.
  destruct (nth_error (mgrs F s) m) as [mg|] eqn:E; [|discriminate]. injection H as <-.
  split; [reflexivity|]. split.
  - unfold view. simpl. rewrite nth_error_upd_eq by (eapply nth_error_lt; eauto). reflexivity.
  - intros m' N. unfold view. simpl. rewrite nth_error_upd_neq by auto. reflexivity.
Qed.

(** ** Saving stores the functions themselves. *)
Definition shares (s : state) (m k : nat) : Prop :=
  exists mg bk, nth_error (mgrs F s) m = Some mg /\ m_key mg = k /\ assoc k (reg F s) = Some (m_back mg) /\
    nth_error (backs F s) (m_back mg) = Some bk /\ b_funs bk = m_sols mg.

Lemma shares_stored : forall s m k, shares s m k -> stored F s k = view F s m.
Proof.
  intros s m k (mg & bk & A & B & C & D & E). unfold stored, view. now rewrite A, C, D, E.
Qed.

Lemma shares_run : forall ops k m s s', reachable F s -> shares s m k -> undisturbed F k m s ops ->
  run F s ops = Some s' -> shares s' m k.
Proof.
  induction ops as [|o r IH]; intros k m s s' R SH U H.
  - injection H as <-. auto.
  - apply run_cases in H. destruct H as (s1 & S1 & H).
    destruct U as (U1 & U2 & U3 & U4 & U5).
    assert (R1 : reachable F s1) by (eapply reachable_step; eauto).
    eapply IH; [exact R1| | |exact H].
    + destruct SH as (mg & bk & A & B & C & D & E).
      destruct (step_mgr _ _ _ _ _ S1 A) as (mg' & A' & B' & K' & _ & S').
      destruct (step_back _ _ _ _ _ S1 D) as (bk' & D' & _ & _ & F').
      exists mg', bk'. rewrite B', K', S' by (unfold replaces; tauto).
      split; auto. split; auto. split; [eapply step_reg; eauto|]. split; auto.
      rewrite F'; auto. intros m' mg0 -> E0 Eq. apply (U4 m' eq_refl).
      unfold handle_cell. rewrite E0. simpl. f_equal.
      destruct (reachable_inv F s R) as (own & bown & I).
      destruct (I_mgr _ _ _ _ I _ _ E0) as (_ & X & _).
      destruct (I_mgr _ _ _ _ I _ _ A) as (_ & Y & _). congruence.
    + unfold after in U5. destruct S1 as [S1|S1]; rewrite S1 in U5; auto.
Qed.

Lemma save_shares : forall s m k s1, reachable F s -> live_for F s m k -> stored F s k = [] ->
  step F s (Save F m) = Ok F s1 -> shares s1 m k.
Proof.
  intros s m k s1 R (mg & A & B & C) E H. cbn [step] in H. unfold do_save in H. rewrite A in H.
  unfold stored in E. rewrite C in E.
  destruct (nth_error (backs F s) (m_back mg)) as [bk|] eqn:D; [|discriminate].
  destruct (b_alive bk) eqn:L; [|discriminate]. injection H as <-.
  apply map_eq_nil in E. exists mg. eexists. simpl. split; auto. split; auto. split; auto.
  rewrite nth_error_upd_eq by (eapply nth_error_lt; eauto). split; [reflexivity|]. simpl. now rewrite E.
Qed.

Lemma write_seen : forall s m k i v s', reachable F s -> shares s m k ->
  step F s (Write F m i v) = Ok F s' ->
  stored F s' k = view F s' m /\ nth_error (stored F s' k) i = Some v.
Proof.
  intros s m k i v s' R SH H.
  assert (SH' : shares s' m k).
  { eapply (shares_run [Write F m i v]); [exact R|exact SH| |].
    - simpl. repeat split; try discriminate; try congruence. destruct (after F s (Write F m i v)); auto.
    - cbn [run]. now rewrite H. }
  split; [now apply shares_stored|]. rewrite (shares_stored _ _ _ SH').
  destruct SH as (mg & bk & A & _ & _ & D & _).
  cbn [step] in H. unfold do_modify, slot in H. rewrite A in H.
  destruct (nth_error (m_sols mg) i) as [a|] eqn:E; [|discriminate]. injection H as <-.
  unfold view. simpl. rewrite A. rewrite nth_error_map, E. simpl. f_equal. apply nth_upd_eq.
  destruct (reachable_inv F s R) as (own & bown & I).
  destruct (I_mgr _ _ _ _ I _ _ A) as (_ & _ & X). apply X. eapply nth_error_In; eauto.
Qed.
End More.
