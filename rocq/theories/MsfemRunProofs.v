From Coq Require Import List Arith Lia Bool Ring Permutation.
From Verif Require Import Util StorageModel StorageSpec StorageProofs MsfemModel MsfemSpec MsfemProofs.
Import ListNotations.

Section Proofs.
Variable F : Scalar.
Add Ring Fring3 : (k_ring F).

Notation state := (state F).
Notation vec := (vec F).
Notation heap := (heap F).
Notation backs := (backs F).
Notation reg := (reg F).
Notation mgrs := (mgrs F).

(** * The backend registered for a cell *)
Definition cell_backend (s : state) (k : nat) : option backend :=
  match assoc k (reg s) with None => None | Some b => nth_error (backs s) b end.

(** Only a save through a handle of the cell, or a clear, changes the
    backend record of a registered cell. *)
Lemma step_backend : forall s o s' k bk,
  reachable F s -> (step F s o = Ok F s' \/ step F s o = Throw F s') ->
  o <> Clear F -> (forall m, o = Save F m -> handle_cell F s m <> Some k) ->
  cell_backend s k = Some bk -> cell_backend s' k = Some bk.
Proof.
  intros s o s' k bk HR HS Hc Hsv HB.
  destruct (reachable_inv _ _ HR) as [own [bown HI]].
  unfold cell_backend in *. destruct (assoc k (reg s)) as [b|] eqn:Ea; [|discriminate].
  destruct o as [key num len|m i v|m i c|m|m|m| |]; simpl in HS.
  - destruct (do_new_spec F s own bown key num len HI)
      as [s1 [own1 [bown1 [mg [E [Hi [Ho [Hm [Hk [Hn [Hs [Ha [Hst [Hv [Hnth [Hlen [Hr [Hrr Hbb]]]]]]]]]]]]]]]]]].
    rewrite E in HS. destruct HS as [HS|HS]; inversion HS; subst s'.
    rewrite Hrr by congruence. rewrite Ea. auto.
  - unfold do_modify in HS. destruct (slot F s m i); destruct HS as [HS|HS]; inversion HS; subst s'.
    cbn. now rewrite Ea.
  - unfold do_modify in HS. destruct (slot F s m i); destruct HS as [HS|HS]; inversion HS; subst s'.
    cbn. now rewrite Ea.
  - unfold do_save in HS. destruct (nth_error (mgrs s) m) as [mg|] eqn:Em; [|destruct HS; discriminate].
    destruct (nth_error (backs s) (m_back mg)) as [bk'|] eqn:Eb; [|destruct HS; discriminate].
    destruct (b_alive bk'); [|destruct HS; discriminate].
    destruct HS as [HS|HS]; inversion HS; subst s'. cbn. rewrite Ea.
    rewrite nth_error_upd_neq; auto.
    intro C. apply (Hsv m eq_refl). unfold handle_cell. rewrite Em. simpl. f_equal.
    destruct (I_mgr _ _ _ _ HI m mg Em) as [_ [B _]].
    destruct (inv_assoc _ _ _ _ _ _ HI Ea) as [B' _]. congruence.
  - unfold do_load in HS. destruct (nth_error (mgrs s) m) as [mg|] eqn:Em; [|destruct HS; discriminate].
    destruct (nth_error (backs s) (m_back mg)) as [bk'|] eqn:Eb; [|destruct HS; discriminate].
    destruct (b_alive bk'); [|destruct HS; discriminate].
    destruct (load_loop F _ _ _ _ _); destruct HS as [HS|HS]; inversion HS; subst s'; cbn; now rewrite Ea.
  - unfold do_drop in HS. destruct (nth_error (mgrs s) m) as [mg|] eqn:Em; [|destruct HS; discriminate].
    destruct HS as [HS|HS]; inversion HS; subst s'; cbn; now rewrite Ea.
  - congruence.
  - destruct HS as [HS|HS]; inversion HS; subst s'. now rewrite Ea.
Qed.

(** Stored data of a cell together with its pairwise distinct addresses. *)
Definition ready (s : state) (k len : nat) (sols : list vec) : Prop :=
  exists bk, cell_backend s k = Some bk /\ b_len bk = len /\ NoDup (b_funs bk) /\
             stored F s k = sols.

Lemma ready_other : forall s o s' k len sols,
  reachable F s -> (step F s o = Ok F s' \/ step F s o = Throw F s') -> o <> Clear F ->
  op_cell F s o <> Some k -> ready s k len sols -> ready s' k len sols.
Proof.
  intros s o s' k len sols HR HS Hc Ho [bk [H1 [H2 [H3 H4]]]].
  exists bk. split.
  - eapply step_backend; eauto. intros m ->. exact Ho.
  - split; auto. split; auto.
    assert (HA : after F s o = Some s') by (unfold after; destruct HS as [->| ->]; auto).
    destruct (isolation F s o s' k HR HA Hc Ho) as [E _]. congruence.
Qed.

Lemma ready_fresh_read : forall s key num l k len sols s',
  reachable F s -> run_act F s (ReadFresh F key num l) = Some s' ->
  ready s k len sols -> reachable F s' /\ ready s' k len sols.
Proof.
  intros s key num l k len sols s' HR HA [bk [H1 [H2 [H3 H4]]]].
  split; [eapply reachable_run_act; eauto|].
  destruct (fresh_load F s key num l HR) as [s1 [s2 [E1 [E2 [E3 [E4 [E5 _]]]]]]].
  unfold run_act, after in HA. rewrite E1 in HA.
  assert (s2 = s').
  { destruct E2 as [E2|E2]; rewrite E2 in HA; inversion HA; auto. }
  subst s2. exists bk. split.
  - assert (HR1 : reachable F s1) by (eapply reachable_step; eauto).
    eapply (step_backend s1); eauto; try discriminate.
    eapply (step_backend s); eauto; discriminate.
  - split; auto. split; auto. now rewrite E5.
Qed.

Lemma ready_fresh_reads : forall reads s s',
  reachable F s ->
  run_acts F s (map (fun t => ReadFresh F (fst (fst t)) (snd (fst t)) (snd t)) reads) = Some s' ->
  reachable F s' /\ forall k len sols, ready s k len sols -> ready s' k len sols.
Proof.
  induction reads as [|[[k n] l] reads IH]; intros s s' HR H; cbn [map run_acts fst snd] in H.
  - inversion H; subst. auto.
  - destruct (run_act F s (ReadFresh F k n l)) as [s1|] eqn:E; [|discriminate].
    assert (HR1 : reachable F s1) by (eapply reachable_run_act; eauto).
    destruct (IH s1 s' HR1 H) as [A B]. split; auto.
    intros k' len sols Hr. apply B.
    destruct (ready_fresh_read _ _ _ _ _ _ _ _ HR E Hr); auto.
Qed.

(** * Interleaved local solves (C14) *)
Inductive phase : Type :=
| Idle
| Open (len : nat) (vs : list vec)
| Done (len : nat) (vs : list vec).

Definition ptrans (p : phase) (i : instr F) : option phase :=
  match p, i with
  | Idle, INew _ num len => Some (Open len (repeat (vzero F len) num))
  | Open len vs, IZero _ j =>
      match nth_error vs j with
      | Some v => Some (Open len (upd vs j (vscale F (k0 F) v)))
      | None => None
      end
  | Open len vs, IWrite _ j v =>
      match nth_error vs j with
      | Some _ => Some (Open len (upd vs j v))
      | None => None
      end
  | Open len vs, ISave _ => Some (Done len vs)
  | _, _ => None
  end.

Fixpoint ptrans_all (p : phase) (l : list (instr F)) : option phase :=
  match l with
  | [] => Some p
  | i :: r => match ptrans p i with None => None | Some p' => ptrans_all p' r end
  end.

Definition rel_phase (s : state) (e : env) (k : nat) (p : phase) : Prop :=
  match p with
  | Idle => assoc k e = None /\ assoc k (reg s) = None
  | Open len vs => exists m mg bk, assoc k e = Some m /\ nth_error (mgrs s) m = Some mg /\
       m_key mg = k /\ assoc k (reg s) = Some (m_back mg) /\
       nth_error (backs s) (m_back mg) = Some bk /\ b_len bk = len /\ b_funs bk = [] /\
       NoDup (m_sols mg) /\ view F s m = vs
  | Done len vs => ready s k len vs
  end.

(** A step on another cell. *)
Lemma rel_other : forall s o s' e e' k p,
  reachable F s -> step F s o = Ok F s' -> o <> Clear F -> op_cell F s o <> Some k ->
  assoc k e' = assoc k e -> rel_phase s e k p -> rel_phase s' e' k p.
Proof.
  intros s o s' e e' k p HR HS Hc Ho He HP.
  destruct (reachable_inv _ _ HR) as [own [bown HI]].
  destruct (step_frame F s own bown o s' HI (or_introl HS)) as [own' [bown' [HI' Hf]]].
  destruct (Hf Hc k Ho) as [A [B C]].
  destruct p as [|len vs|len vs]; cbn [rel_phase] in *.
  - destruct HP as [H1 H2]. split; congruence.
  - destruct HP as [m [mg [bk [H1 [H2 [H3 [H4 [H5 [H6 [H7 [H8 H9]]]]]]]]]]].
    assert (Hh : handle_cell F s m = Some k) by (unfold handle_cell; rewrite H2; simpl; congruence).
    destruct (C m Hh) as [C1 C2].
    exists m, mg, bk. split; [congruence|]. split; [congruence|]. split; [auto|].
    split; [congruence|]. split; [|split; [auto|split; [auto|split; [auto|congruence]]]].
    assert (Hb : cell_backend s' k = Some bk).
    { eapply step_backend; eauto. intros m' ->. exact Ho.
      unfold cell_backend. now rewrite H4. }
    unfold cell_backend in Hb. rewrite B, H4 in Hb. exact Hb.
  - eapply ready_other; eauto.
Qed.

Lemma modify_own : forall s own bown m mg j w f,
  inv F s own bown -> nth_error (mgrs s) m = Some mg -> NoDup (m_sols mg) ->
  nth_error (view F s m) j = Some w ->
  exists h, do_modify F s m j f = Ok F (with_heap F s h) /\
    view F (with_heap F s h) m = upd (view F s m) j (f w).
Proof.
  intros s own bown m mg j w f HI Em ND Ew.
  unfold do_modify, slot. rewrite Em. unfold view in *. rewrite Em in Ew.
  rewrite nth_error_map in Ew. destruct (nth_error (m_sols mg) j) as [a|] eqn:Ea; [|discriminate].
  simpl in Ew. inversion Ew; subst w. eexists. split; [reflexivity|].
  cbn. rewrite Em. rewrite <- map_upd with (f := fun a => a) || idtac.
  destruct (I_mgr _ _ _ _ HI m mg Em) as [_ [_ C]].
  apply nth_error_ext. intros i.
  destruct (Nat.eq_dec i j) as [->|Hd].
  - rewrite nth_error_map, Ea. simpl.
    rewrite nth_error_upd_eq by (rewrite map_length; eapply nth_error_lt; eauto).
    rewrite nth_upd_eq; auto. apply C. eapply nth_error_In; eauto.
  - rewrite nth_error_upd_neq by auto. rewrite !nth_error_map.
    destruct (nth_error (m_sols mg) i) as [b|] eqn:Eb; auto. simpl.
    rewrite nth_upd_neq; auto. intros ->. apply Hd.
    eapply NoDup_nth_error; eauto; [eapply nth_error_lt; eauto|congruence].
Qed.

(** One instruction of cell [k]. *)
Lemma exec1_own : forall s e k i p p',
  reachable F s -> rel_phase s e k p -> ptrans p i = Some p' ->
  exists o s' e', exec1 F (s, e) (k, i) = Some (s', e') /\ step F s o = Ok F s' /\
    o <> Clear F /\ op_cell F s o = Some k /\
    (forall k', k' <> k -> assoc k' e' = assoc k' e) /\ rel_phase s' e' k p'.
Proof.
  intros s e k i p p' HR HP HT.
  destruct (reachable_inv _ _ HR) as [own [bown HI]].
  destruct p as [|len vs|len vs]; destruct i as [num len'|j|j v|]; cbn [ptrans] in HT; try discriminate.
  - (* INew *)
    inversion HT; subst p'. destruct HP as [H1 H2].
    exists (New F k num len'). unfold exec1. cbn [fst snd].
    unfold step. unfold do_new, get_backend. rewrite H2.
    cbn [StorageModel.backs StorageModel.heap StorageModel.reg StorageModel.mgrs].
    rewrite nth_error_snoc. cbn [b_len].
    eexists. eexists. split; [reflexivity|]. split; [reflexivity|].
    split; [discriminate|]. split; [reflexivity|]. split.
    + intros k' Hk. cbn. destruct (Nat.eqb_spec k' k); [congruence|reflexivity].
    + cbn [rel_phase]. exists (length (mgrs s)). eexists. eexists. cbn.
      rewrite !Nat.eqb_refl. split; [reflexivity|]. rewrite nth_error_snoc.
      split; [reflexivity|]. cbn. split; [reflexivity|]. split; [reflexivity|].
      rewrite nth_error_snoc. split; [reflexivity|]. split; [reflexivity|]. split; [reflexivity|].
      split; [apply seq_NoDup|]. unfold view. cbn. rewrite nth_error_snoc. cbn.
      clear. apply nth_error_ext. intros i. rewrite nth_error_map.
      destruct (Nat.lt_ge_cases i num) as [Hl|Hl].
      * assert (Es : nth_error (seq (length (heap s)) num) i = Some (length (heap s) + i)).
        { rewrite (nth_error_nth' _ 0) by (rewrite seq_length; auto). now rewrite seq_nth. }
        rewrite Es. simpl. rewrite nth_error_repeat by auto. f_equal.
        rewrite nth_app_r. apply nth_error_val. now rewrite nth_error_repeat.
      * rewrite (proj2 (nth_error_None (seq _ _) i)) by (rewrite seq_length; auto).
        rewrite (proj2 (nth_error_None (repeat _ _) i)) by (rewrite repeat_length; auto). reflexivity.
  - (* IZero *)
    destruct (nth_error vs j) as [w|] eqn:Ew; inversion HT; subst p'.
    destruct HP as [m [mg [bk [H1 [H2 [H3 [H4 [H5 [H6 [H7 [H8 H9]]]]]]]]]]].
    assert (Ew' : nth_error (view F s m) j = Some w) by congruence.
    destruct (modify_own s own bown m mg j w (vscale F (k0 F)) HI H2 H8 Ew') as [h [G1 G2]].
    exists (Scale F m j (k0 F)), (with_heap F s h), e. unfold exec1. cbn [fst snd step].
    rewrite H1. cbn [step]. rewrite G1. split; [reflexivity|]. split; [reflexivity|].
    split; [discriminate|]. split.
    { cbn. unfold handle_cell. rewrite H2. simpl. congruence. }
    split; [auto|]. exists m, mg, bk. cbn. rewrite G2, H9. repeat split; auto.
  - (* IWrite *)
    destruct (nth_error vs j) as [w|] eqn:Ew; inversion HT; subst p'.
    destruct HP as [m [mg [bk [H1 [H2 [H3 [H4 [H5 [H6 [H7 [H8 H9]]]]]]]]]]].
    assert (Ew' : nth_error (view F s m) j = Some w) by congruence.
    destruct (modify_own s own bown m mg j w (fun _ => v) HI H2 H8 Ew') as [h [G1 G2]].
    exists (Write F m j v), (with_heap F s h), e. unfold exec1. cbn [fst snd step].
    rewrite H1. cbn [step]. rewrite G1. split; [reflexivity|]. split; [reflexivity|].
    split; [discriminate|]. split.
    { cbn. unfold handle_cell. rewrite H2. simpl. congruence. }
    split; [auto|]. exists m, mg, bk. cbn. rewrite G2, H9. repeat split; auto.
  - (* ISave *)
    inversion HT; subst p'.
    destruct HP as [m [mg [bk [H1 [H2 [H3 [H4 [H5 [H6 [H7 [H8 H9]]]]]]]]]]].
    destruct (inv_assoc _ _ _ _ _ _ HI H4) as [Eb [bk' [Hbk Hal]]].
    rewrite H5 in Hbk. inversion Hbk; subst bk'.
    exists (Save F m). unfold exec1. cbn [fst snd]. rewrite H1. cbn [step]. unfold do_save.
    rewrite H2, H5, Hal. eexists. eexists. split; [reflexivity|]. split; [reflexivity|].
    split; [discriminate|]. split.
    { cbn. unfold handle_cell. rewrite H2. simpl. congruence. }
    split; [auto|]. cbn [rel_phase]. unfold ready, cell_backend, stored. cbn. rewrite H4.
    rewrite nth_error_upd_eq by (eapply nth_error_lt; eauto).
    eexists. split; [reflexivity|]. cbn. split; [auto|]. rewrite H7. simpl. split; [auto|].
    rewrite <- H9. unfold view. rewrite H2. reflexivity.
Qed.

(** Simulation: the phases of all cells follow their own instructions. *)
Lemma exec_sim : forall tr s e (ph : nat -> phase),
  reachable F s -> (forall k, rel_phase s e k (ph k)) ->
  (forall k, exists p, ptrans_all (ph k) (proj k tr) = Some p) ->
  exists s' e', exec F (s, e) tr = Some (s', e') /\ reachable F s' /\
   forall k p, ptrans_all (ph k) (proj k tr) = Some p -> rel_phase s' e' k p.
Proof.
  induction tr as [|[k i] tr IH]; intros s e ph HR HP HT.
  - exists s, e. split; [reflexivity|]. split; auto.
    intros k p H. cbn in H. inversion H; subst. auto.
  - destruct (HT k) as [pk Hk]. unfold proj in Hk. cbn [filter fst] in Hk.
    rewrite Nat.eqb_refl in Hk. cbn [map snd ptrans_all] in Hk.
    destruct (ptrans (ph k) i) as [p1|] eqn:E1; [|discriminate].
    destruct (exec1_own s e k i (ph k) p1 HR (HP k) E1)
      as [o [s1 [e1 [A1 [A2 [A3 [A4 [A5 A6]]]]]]]].
    cbn [exec]. rewrite A1.
    set (ph1 := fun k' => if Nat.eqb k' k then p1 else ph k').
    assert (Hproj : forall k', ptrans_all (ph k') (proj k' ((k, i) :: tr)) = ptrans_all (ph1 k') (proj k' tr)).
    { intros k'. unfold proj, ph1. cbn [filter fst].
      destruct (Nat.eqb_spec k' k) as [->|Hd].
      - rewrite Nat.eqb_refl. cbn [map snd ptrans_all]. now rewrite E1.
      - destruct (Nat.eqb_spec k k'); [congruence|]. reflexivity. }
    destruct (IH s1 e1 ph1) as [s' [e' [B1 [B2 B3]]]].
    + eapply reachable_step; eauto.
    + intros k'. unfold ph1. destruct (Nat.eqb_spec k' k) as [->|Hd]; auto.
      eapply (rel_other s o s1 e e1 k'); auto. congruence.
    + intros k'. destruct (HT k') as [p Hp]. exists p. now rewrite <- Hproj.
    + exists s', e'. split; auto. split; auto. intros k' p Hp. apply B3. now rewrite <- Hproj.
Qed.

(** Effect of a cell's complete program. *)
Lemma ptrans_zeros : forall n i len vs r,
  i + n <= length vs -> (forall v, In v vs -> v = vzero F len) ->
  ptrans_all (Open len vs) (map (IZero F) (seq i n) ++ r) = ptrans_all (Open len vs) r.
Proof.
  induction n as [|n IH]; intros i len vs r H HZ; [reflexivity|].
  cbn [seq map app ptrans_all ptrans].
  destruct (nth_error vs i) as [v|] eqn:E; [|apply nth_error_None in E; lia].
  assert (Ev : v = vzero F len) by (apply HZ; eapply nth_error_In; eauto).
  assert (Eu : upd vs i (vscale F (k0 F) v) = vs).
  { subst v. rewrite (vscale0_vzero F). apply nth_error_ext. intros j.
    destruct (Nat.eq_dec j i) as [->|Hd].
    - rewrite nth_error_upd_eq by (eapply nth_error_lt; eauto). auto.
    - now rewrite nth_error_upd_neq by auto. }
  rewrite Eu. apply IH; auto. lia.
Qed.

Lemma ptrans_writes : forall l i len vs r,
  i + length l = length vs ->
  ptrans_all (Open len vs) (writes F i l ++ r) = ptrans_all (Open len (firstn i vs ++ l)) r.
Proof.
  induction l as [|v l IH]; intros i len vs r H; cbn [length] in H.
  - cbn. rewrite app_nil_r, firstn_all2 by lia. reflexivity.
  - cbn [writes app ptrans_all ptrans].
    destruct (nth_error vs i) as [w|] eqn:E; [|apply nth_error_None in E; lia].
    rewrite IH by (rewrite upd_length; lia).
    rewrite (firstn_S_nth_error _ _ _ v) by (apply nth_error_upd_eq; lia).
    rewrite firstn_upd_ge by lia. rewrite <- app_assoc. reflexivity.
Qed.

Lemma ptrans_prog : forall (c : cell F) sols p,
  dims_ok F c -> solver_functions F c sols -> cell_prog F c = Some p ->
  ptrans_all Idle p = Some (Done (c_len F c) sols).
Proof.
  intros c sols p D HS HP. unfold cell_prog in HP. unfold solver_functions in HS.
  rewrite HS in HP. inversion HP; subst p.
  destruct (solver_slots F c (fresh_slots F c) sols D) as [L _]; auto.
  { unfold fresh_slots. apply repeat_length. }
  { intros v Hv. apply repeat_spec in Hv. subst. apply vzero_length. }
  cbn [ptrans_all ptrans]. rewrite ptrans_zeros.
  - rewrite ptrans_writes.
    + reflexivity.
    + rewrite repeat_length. unfold c_num. lia.
  - rewrite repeat_length. lia.
  - intros v Hv. now apply repeat_spec in Hv.
Qed.

Definition start_phase : nat -> phase := fun _ => Idle.

(** C14. *)
Lemma parallel_solve : forall cs tr s0,
  NoDup (map (c_key F) cs) -> (forall c, In c cs -> dims_ok F c) ->
  empty_store F s0 -> interleaving F cs tr ->
  exists s1 e1, exec F (s0, []) tr = Some (s1, e1) /\ reachable F s1 /\
    (forall c sols, In c cs -> solver_functions F c sols -> ready s1 (c_key F c) (c_len F c) sols) /\
    (forall k, ~ In k (map (c_key F) cs) -> stored F s1 k = []).
Proof.
  intros cs tr s0 ND HD [HR HE] [HT1 HT2].
  assert (Hrun : forall c, In c cs -> exists sols, solver_functions F c sols).
  { intros c Hc. specialize (HT1 c Hc). unfold cell_prog in HT1. unfold solver_functions.
    destruct (solve_all_on_single_cell F c (fresh_slots F c)) as [l|]; [eauto|discriminate]. }
  assert (Hph : forall c sols, In c cs -> solver_functions F c sols ->
     ptrans_all Idle (proj (c_key F c) tr) = Some (Done (c_len F c) sols)).
  { intros c sols Hc Hs. eapply ptrans_prog; eauto. }
  destruct (exec_sim tr s0 [] start_phase) as [s1 [e1 [A [B C]]]]; auto.
  - intros k. cbn. rewrite HE. auto.
  - intros k. unfold start_phase.
    destruct (in_dec Nat.eq_dec k (map (c_key F) cs)) as [Hin|Hn].
    + apply in_map_iff in Hin as [c [<- Hc]]. destruct (Hrun c Hc) as [sols Hs].
      eexists. eapply Hph; eauto.
    + rewrite HT2 by auto. eexists; reflexivity.
  - exists s1, e1. split; auto. split; auto. split.
    + intros c sols Hc Hs. apply (C (c_key F c) (Done (c_len F c) sols)). now apply Hph.
    + intros k Hk. specialize (C k Idle). rewrite HT2 in C by auto. destruct (C eq_refl) as [_ C2].
      unfold stored. now rewrite C2.
Qed.

Lemma parallel_solve_stored : forall cs tr s0,
  NoDup (map (c_key F) cs) -> (forall c, In c cs -> dims_ok F c) ->
  empty_store F s0 -> interleaving F cs tr ->
  exists s1 e1, exec F (s0, []) tr = Some (s1, e1) /\ reachable F s1 /\
    (forall c sols, In c cs -> solver_functions F c sols ->
       stored F s1 (c_key F c) = sols /\
       forall len, fresh_read F s1 (c_key F c) (c_num F c) len = Some sols) /\
    (forall k, ~ In k (map (c_key F) cs) -> stored F s1 k = []).
Proof.
  intros cs tr s0 ND HD HE HI.
  destruct (parallel_solve cs tr s0 ND HD HE HI) as [s1 [e1 [A [B [C D]]]]].
  exists s1, e1. split; auto. split; auto. split; auto.
  intros c sols Hc Hs. destruct (C c sols Hc Hs) as [bk [_ [_ [_ E]]]]. split; auto.
  intros len. rewrite fresh_read_spec by auto. rewrite E.
  destruct (solver_slots F c (fresh_slots F c) sols (HD c Hc)) as [L _]; auto.
  { unfold fresh_slots. apply repeat_length. }
  { intros v Hv. apply repeat_spec in Hv. subst. apply vzero_length. }
  unfold c_num. rewrite (proj2 (Nat.leb_le _ _)) by lia. rewrite firstn_all2 by lia. reflexivity.
Qed.

End Proofs.
