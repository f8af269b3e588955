From Coq Require Import List Arith Lia Bool Ring.
From Verif Require Import Util StorageModel StorageSpec.
Import ListNotations.

Section Proofs.
Variable F : Scalar.
Add Ring Fring : (k_ring F).

Notation state := (state F).
Notation vec := (vec F).
Notation heap := (heap F).
Notation backs := (backs F).
Notation reg := (reg F).
Notation mgrs := (mgrs F).

(** * Scaling *)
Lemma vscale0 : forall v : vec, vscale F (k0 F) v = zeroed F v.
Proof. intro v. apply map_ext. intro x. ring. Qed.

Lemma zeroed_idem : forall v : vec, zeroed F (zeroed F v) = zeroed F v.
Proof. intro v. unfold zeroed. rewrite map_map. reflexivity. Qed.

Definition zero_all (l : list nat) (h : list vec) : list vec :=
  fold_left (fun h a => upd h a (vscale F (k0 F) (nth a h []))) l h.

Lemma zero_all_length : forall l h, length (zero_all l h) = length h.
Proof.
  induction l as [|a l IH]; intros h; simpl; auto.
  unfold zero_all in *; simpl. rewrite IH. apply upd_length.
Qed.

Lemma zero_all_notin : forall l h a, ~ In a l -> nth a (zero_all l h) [] = nth a h [].
Proof.
  induction l as [|b l IH]; intros h a H; simpl; auto.
  unfold zero_all in *; simpl in *. rewrite IH by tauto.
  apply nth_upd_neq. intro E; apply H; auto.
Qed.

Lemma nth_upd_zero : forall h a b,
  nth b (upd h a (zeroed F (nth a h []))) [] =
  if Nat.eqb a b then zeroed F (nth b h []) else nth b h [].
Proof.
  intros. destruct (Nat.eqb_spec a b).
  - subst. destruct (Nat.lt_ge_cases b (length h)).
    + now apply nth_upd_eq.
    + rewrite upd_out by auto. rewrite nth_overflow by auto. reflexivity.
  - now apply nth_upd_neq.
Qed.

Lemma zero_all_in : forall l h a, In a l ->
  nth a (zero_all l h) [] = zeroed F (nth a h []).
Proof.
  induction l as [|b l IH]; intros h a H; [destruct H|].
  unfold zero_all in *; simpl. rewrite vscale0.
  destruct (in_dec Nat.eq_dec a l) as [I|I].
  - rewrite IH by auto. rewrite nth_upd_zero.
    destruct (Nat.eqb b a); auto. apply zeroed_idem.
  - fold (zero_all l (upd h b (zeroed F (nth b h [])))).
    rewrite zero_all_notin by auto. rewrite nth_upd_zero.
    destruct H as [H|H]; [|tauto]. subst. now rewrite Nat.eqb_refl.
Qed.

(** * The load loop *)
Lemma skipn_S_upd : forall A (l : list A) i x, skipn (S i) (upd l i x) = skipn (S i) l.
Proof.
  induction l as [|y t IH]; intros [|i] x; auto. exact (IH i x).
Qed.

Lemma load_loop_general : forall funs n i h sols,
  match load_loop F funs n i h sols with
  | LOk _ h' sols' | LThrow _ h' sols' =>
      exists l, h' = zero_all l h /\ incl l (skipn i sols) /\
      (forall a, In a sols' -> In a sols \/ In a funs)
  | LUB _ => True
  end.
Proof.
  induction n as [|n IH]; intros i h sols; simpl.
  - exists []. simpl. split; [reflexivity|]. split; [intros x []|]. auto.
  - destruct (nth_error sols i) as [a|] eqn:Ea; auto.
    assert (Ha : skipn i sols = a :: skipn (S i) sols).
    { clear -Ea. revert i Ea. induction sols as [|x t IH]; intros [|i] Ea; simpl in *; try discriminate.
      - congruence. - now apply IH. }
    destruct (nth_error funs i) as [b|] eqn:Eb.
    + specialize (IH (S i) (upd h a (vscale F (k0 F) (nth a h []))) (upd sols i b)).
      pose proof (skipn_S_upd _ sols i b) as Hs.
      destruct (load_loop F funs n (S i) _ _) as [h' s'|h' s'|]; auto.
      * destruct IH as [l [E1 [E2 E3]]]. exists (a :: l). split; [exact E1|].
        split.
        -- rewrite Ha. rewrite Hs in E2. intros x [<-|Hx]; [left; auto|right; auto].
        -- intros x Hx. destruct (E3 x Hx) as [Hx'|]; auto.
           destruct (In_upd _ _ _ _ _ Hx') as [->|]; auto. right. eapply nth_error_In; eauto.
      * destruct IH as [l [E1 [E2 E3]]]. exists (a :: l). split; [exact E1|].
        split.
        -- rewrite Ha. rewrite Hs in E2. intros x [<-|Hx]; [left; auto|right; auto].
        -- intros x Hx. destruct (E3 x Hx) as [Hx'|]; auto.
           destruct (In_upd _ _ _ _ _ Hx') as [->|]; auto. right. eapply nth_error_In; eauto.
    + exists [a]. split; [reflexivity|]. split; auto.
      rewrite Ha. intros x [<-|[]]. left; auto.
Qed.

Lemma skipn_nth_cons : forall A (l : list A) i a,
  nth_error l i = Some a -> skipn i l = a :: skipn (S i) l.
Proof.
  induction l as [|x t IH]; intros [|i] a H; simpl in *; try discriminate.
  - congruence.
  - now apply IH.
Qed.

Lemma firstn_upd_ge : forall A (l : list A) i x n, n <= i -> firstn n (upd l i x) = firstn n l.
Proof.
  induction l as [|y t IH]; intros [|i] x [|n] H; simpl; auto; try lia.
  f_equal. apply IH; lia.
Qed.

Lemma load_loop_ok : forall funs n i h sols,
  i + n <= length sols -> i + n <= length funs ->
  load_loop F funs n i h sols =
  LOk F (zero_all (firstn n (skipn i sols)) h)
      (firstn i sols ++ firstn n (skipn i funs) ++ skipn (i + n) sols).
Proof.
  induction n as [|n IH]; intros i h sols H1 H2.
  - simpl. rewrite Nat.add_0_r. simpl. rewrite firstn_skipn. reflexivity.
  - simpl load_loop.
    destruct (nth_error sols i) as [a|] eqn:Ea; [|apply nth_error_None in Ea; lia].
    destruct (nth_error funs i) as [b|] eqn:Eb; [|apply nth_error_None in Eb; lia].
    rewrite IH by (rewrite ?upd_length; lia).
    rewrite (skipn_nth_cons _ _ _ _ Ea), (skipn_nth_cons _ _ _ _ Eb).
    rewrite !firstn_cons. f_equal.
    + rewrite skipn_S_upd. reflexivity.
    + rewrite (firstn_S_nth_error _ _ _ b) by (apply nth_error_upd_eq; lia).
      rewrite firstn_upd_ge by lia. rewrite <- app_assoc. cbn [app]. do 3 f_equal.
      replace (i + S n) with (n + S i) by lia.
      replace (S i + n) with (n + S i) by lia.
      rewrite <- (skipn_skipn _ n (S i) sols), <- (skipn_skipn _ n (S i) (upd sols i b)). now rewrite skipn_S_upd.
Qed.

Lemma load_loop_throw : forall funs n i h sols,
  i + n <= length sols -> i <= length funs -> length funs < i + n ->
  exists h' sols', load_loop F funs n i h sols = LThrow F h' sols'.
Proof.
  induction n as [|n IH]; intros i h sols H1 H2 H3; [lia|].
  simpl load_loop.
  destruct (nth_error sols i) as [a|] eqn:Ea; [|apply nth_error_None in Ea; lia].
  destruct (nth_error funs i) as [b|] eqn:Eb; [|eauto].
  apply IH; rewrite ?upd_length; try lia.
  apply nth_error_lt in Eb. lia.
Qed.

(** * Ownership invariant *)
Record inv (s : state) (own bown : nat -> nat) : Prop := {
  I_mgr : forall m mg, nth_error (mgrs s) m = Some mg ->
     m_back mg < length (backs s) /\ bown (m_back mg) = m_key mg /\
     (forall a, In a (m_sols mg) -> a < length (heap s) /\ own a = m_key mg);
  I_back : forall b bk, nth_error (backs s) b = Some bk ->
     forall a, In a (b_funs bk) -> a < length (heap s) /\ own a = bown b;
  I_reg : forall k b, In (k, b) (reg s) ->
     bown b = k /\ exists bk, nth_error (backs s) b = Some bk /\ b_alive bk = true;
  I_nodup : NoDup (map fst (reg s));
  I_live : forall b bk, nth_error (backs s) b = Some bk -> b_alive bk = true ->
     In (bown b, b) (reg s)
}.

Lemma inv_init : inv (init F) (fun _ => 0) (fun _ => 0).
Proof.
  constructor; simpl; intros.
  - destruct m; discriminate.
  - destruct b; discriminate.
  - tauto.
  - constructor.
  - destruct b; discriminate.
Qed.

Lemma inv_assoc : forall s own bown k b,
  inv s own bown -> assoc k (reg s) = Some b ->
  bown b = k /\ exists bk, nth_error (backs s) b = Some bk /\ b_alive bk = true.
Proof. intros. eapply I_reg; eauto. now apply assoc_In. Qed.

(** get_backend *)
Lemma get_backend_spec : forall s own bown key len,
  inv s own bown ->
  let (s1, b) := get_backend F s key len in
  exists bown1,
    inv s1 own bown1 /\ heap s1 = heap s /\ mgrs s1 = mgrs s /\
    assoc key (reg s1) = Some b /\
    (forall b', b' < length (backs s) -> bown1 b' = bown b') /\
    (forall k, stored F s1 k = stored F s k) /\
    (forall k, k <> key -> assoc k (reg s1) = assoc k (reg s)) /\
    (forall b' bk, nth_error (backs s) b' = Some bk -> nth_error (backs s1) b' = Some bk) /\
    (assoc key (reg s) <> None -> s1 = s).
Proof.
  intros s own bown key len H. unfold get_backend.
  destruct (assoc key (reg s)) as [b|] eqn:E.
  - exists bown. split; [exact H|]. repeat split; auto.
  - set (b := length (backs s)).
    exists (fun x => if Nat.eqb x b then key else bown x).
    assert (Hlt : forall b', b' < b -> (if Nat.eqb b' b then key else bown b') = bown b').
    { intros. destruct (Nat.eqb_spec b' b); auto; lia. }
    assert (Hold : forall b' bk, nth_error (backs s) b' = Some bk ->
      nth_error (backs s ++ [{| b_alive := true; b_len := len; b_funs := [] |}]) b' = Some bk).
    { intros. rewrite nth_error_app1; auto. eapply nth_error_lt; eauto. }
    assert (Hnew : forall b' bk,
      nth_error (backs s ++ [{| b_alive := true; b_len := len; b_funs := [] |}]) b' = Some bk ->
      (nth_error (backs s) b' = Some bk /\ b' < b) \/
      (b' = b /\ bk = {| b_alive := true; b_len := len; b_funs := [] |})).
    { intros b' bk Hb. destruct (Nat.lt_ge_cases b' b).
      - left. rewrite nth_error_app1 in Hb by auto. auto.
      - right. rewrite nth_error_app2 in Hb by auto.
        assert (b' - length (backs s) = 0).
        { apply nth_error_lt in Hb. simpl in Hb. fold b in Hb. fold b. lia. }
        fold b in H1. fold b in Hb. rewrite H1 in Hb. simpl in Hb. split; [lia|congruence]. }
    split; [|split; [reflexivity|split; [reflexivity|split; [|split; [|split; [|split; [|split]]]]]]].
    + constructor; cbn [StorageModel.heap StorageModel.backs StorageModel.reg StorageModel.mgrs].
      * intros m mg Hm. destruct (I_mgr _ _ _ H m mg Hm) as [A [B C]].
        rewrite app_length; simpl. split; [lia|]. split; auto. rewrite Hlt; auto.
      * intros b' bk Hb a Ha. destruct (Hnew _ _ Hb) as [[Hb' Hl]|[-> ->]].
        -- rewrite Hlt by auto. eapply I_back; eauto.
        -- simpl in Ha; tauto.
      * intros k b' [Hk|Hk].
        -- inversion Hk; subst. rewrite Nat.eqb_refl. split; auto.
           exists {| b_alive := true; b_len := len; b_funs := [] |}. split; auto.
           unfold b. rewrite nth_error_app2 by lia. now rewrite Nat.sub_diag.
        -- destruct (I_reg _ _ _ H k b' Hk) as [A [bk [B C]]].
           rewrite Hlt by (eapply nth_error_lt; eauto). split; auto. exists bk; auto.
      * simpl. constructor; [|eapply I_nodup; eauto]. now apply assoc_None.
      * intros b' bk Hb Ha. destruct (Hnew _ _ Hb) as [[Hb' Hl]|[-> ->]].
        -- rewrite Hlt by auto. right. eapply I_live; eauto.
        -- rewrite Nat.eqb_refl. left; auto.
    + cbn. now rewrite Nat.eqb_refl.
    + exact Hlt.
    + intros k. unfold stored. cbn. destruct (Nat.eqb_spec k key).
      * subst. rewrite E. unfold b. rewrite nth_error_app2 by lia.
        rewrite Nat.sub_diag. reflexivity.
      * destruct (assoc k (reg s)) as [b'|] eqn:Ek; auto.
        destruct (inv_assoc _ _ _ _ _ H Ek) as [_ [bk [Hb _]]].
        rewrite (Hold _ _ Hb), Hb. reflexivity.
    + intros k Hk. cbn. destruct (Nat.eqb_spec k key); [congruence|reflexivity].
    + exact Hold.
    + intros C; congruence.
Qed.

(** do_new *)
Lemma do_new_spec : forall s own bown key num len,
  inv s own bown ->
  exists s' own' bown' mg,
    do_new F s key num len = Ok F s' /\ inv s' own' bown' /\
    (forall a, a < length (heap s) -> own' a = own a) /\
    mgrs s' = mgrs s ++ [mg] /\ m_key mg = key /\ m_num mg = num /\
    m_sols mg = seq (length (heap s)) num /\
    assoc key (reg s') = Some (m_back mg) /\
    (forall k, stored F s' k = stored F s k) /\
    (forall m, m < length (mgrs s) -> view F s' m = view F s m) /\
    (forall a, a < length (heap s) -> nth a (heap s') [] = nth a (heap s) []) /\
    length (heap s') = length (heap s) + num /\
    (forall k, k <> key -> assoc k (reg s') = assoc k (reg s)) /\
    (forall k, assoc k (reg s) <> None -> assoc k (reg s') = assoc k (reg s)) /\
    (forall b bk, nth_error (backs s) b = Some bk -> nth_error (backs s') b = Some bk).
Proof.
  intros s own bown key num len H. unfold do_new.
  pose proof (get_backend_spec s own bown key len H) as G.
  destruct (get_backend F s key len) as [s1 b] eqn:EG.
  destruct G as [bown1 [Hi [Hh [Hm [Ha [Hb [Hst [Hk [Hbb Hsame]]]]]]]]].
  destruct (inv_assoc _ _ _ _ _ Hi Ha) as [Ebk [bk [Hbk Hal]]].
  rewrite Hbk.
  set (mg := {| m_key := key; m_back := b; m_num := num; m_sols := seq (length (heap s1)) num |}).
  set (s' := {| StorageModel.heap := heap s1 ++ repeat (vzero F (b_len bk)) num;
                StorageModel.backs := backs s1; StorageModel.reg := reg s1;
                StorageModel.mgrs := mgrs s1 ++ [mg] |}).
  exists s', (fun a => if Nat.ltb a (length (heap s)) then own a else key), bown1, mg.
  assert (Hnth : forall a, a < length (heap s) -> nth a (heap s') [] = nth a (heap s) []).
  { intros a Hlt. subst s'; cbn. rewrite app_nth1 by (rewrite Hh; auto). now rewrite Hh. }
  assert (Hmap : forall l, (forall a, In a l -> a < length (heap s)) ->
     map (fun a => nth a (heap s') []) l = map (fun a => nth a (heap s) []) l).
  { intros l Hl. apply map_ext_in. intros a Hin. apply Hnth; auto. }
  split; [reflexivity|].
  split; [|split; [|split; [|split; [|split; [|split; [|split; [|split; [|split; [|split; [|split; [|split; [|split]]]]]]]]]]]].
  - constructor; subst s'; cbn [StorageModel.heap StorageModel.backs StorageModel.reg StorageModel.mgrs].
    + intros m mg0 Hmg.
      destruct (Nat.lt_ge_cases m (length (mgrs s1))) as [Hlt|Hge].
      * rewrite nth_error_app1 in Hmg by auto.
        destruct (I_mgr _ _ _ Hi m mg0 Hmg) as [A [B C]]. split; auto. split; auto.
        intros a Hin. destruct (C a Hin) as [C1 C2]. rewrite app_length. split; [lia|].
        rewrite Hh in C1. apply Nat.ltb_lt in C1. rewrite C1. auto.
      * rewrite nth_error_app2 in Hmg by auto.
        destruct (m - length (mgrs s1)) as [|j]; simpl in Hmg; [|destruct j; discriminate].
        inversion Hmg; subst mg0; subst mg. cbn [m_back m_key m_sols]. split; [eapply nth_error_lt; eauto|]. split; auto.
        intros a Hin. apply in_seq in Hin. rewrite app_length, repeat_length. split; [lia|].
        rewrite Hh in Hin. destruct (Nat.ltb_spec a (length (heap s))); auto; lia.
    + intros b' bk' Hb' a Hin. destruct (I_back _ _ _ Hi b' bk' Hb' a Hin) as [C1 C2].
      rewrite app_length. split; [lia|]. rewrite Hh in C1. apply Nat.ltb_lt in C1. rewrite C1. auto.
    + eapply I_reg; eauto.
    + eapply I_nodup; eauto.
    + eapply I_live; eauto.
  - intros a Hlt. apply Nat.ltb_lt in Hlt. now rewrite Hlt.
  - subst s'; cbn. now rewrite Hm.
  - reflexivity.
  - reflexivity.
  - subst mg; cbn. now rewrite Hh.
  - subst s'; cbn. exact Ha.
  - intros k. rewrite <- (Hst k). unfold stored. replace (reg s') with (reg s1) by reflexivity.
    destruct (assoc k (reg s1)) as [b'|] eqn:Ek; auto.
    replace (backs s') with (backs s1) by reflexivity.
    destruct (nth_error (backs s1) b') as [bk'|] eqn:Eb'; auto.
    rewrite Hmap; [now rewrite Hh|].
    intros a Hin. rewrite <- Hh. eapply I_back; eauto.
  - intros m Hlt. unfold view. subst s'; cbn [StorageModel.mgrs].
    rewrite nth_error_app1 by (rewrite Hm; auto). rewrite Hm.
    destruct (nth_error (mgrs s) m) as [mg0|] eqn:Em; auto.
    apply Hmap. intros a Hin. eapply I_mgr; eauto.
  - exact Hnth.
  - subst s'; cbn. rewrite app_length, repeat_length. now rewrite Hh.
  - exact Hk.
  - intros k Hne. subst s'; cbn [StorageModel.reg].
    destruct (Nat.eq_dec k key) as [->|Hd]; [|now apply Hk].
    rewrite Hsame by auto. reflexivity.
  - exact Hbb.
Qed.

(** Heap modification confined to addresses owned by one key. *)
Definition heap_local (own : nat -> nat) (k : nat) (h h' : list vec) : Prop :=
  length h' = length h /\ forall a, own a <> k -> nth a h' [] = nth a h [].

Lemma stored_heap_local : forall s own bown k k' h,
  inv s own bown -> heap_local own k (heap s) h -> k' <> k ->
  forall s', heap s' = h -> reg s' = reg s ->
  (forall b, bown b = k' -> nth_error (backs s') b = nth_error (backs s) b) ->
  stored F s' k' = stored F s k'.
Proof.
  intros s own bown k k' h H [HL1 HL2] Hne s' E1 E2 E3. unfold stored. rewrite E2.
  destruct (assoc k' (reg s)) as [b|] eqn:Ek; auto.
  destruct (inv_assoc _ _ _ _ _ H Ek) as [Eb _].
  rewrite E3 by auto.
  destruct (nth_error (backs s) b) as [bk|] eqn:Ebk; auto.
  apply map_ext_in. intros a Hin. rewrite E1. apply HL2.
  destruct (I_back _ _ _ H b bk Ebk a Hin). congruence.
Qed.

Lemma view_heap_local : forall s own bown k k' h m,
  inv s own bown -> heap_local own k (heap s) h -> k' <> k ->
  forall s', heap s' = h -> nth_error (mgrs s') m = nth_error (mgrs s) m ->
  handle_cell F s m = Some k' ->
  view F s' m = view F s m.
Proof.
  intros s own bown k k' h m H [HL1 HL2] Hne s' E1 E2 E3. unfold view. rewrite E2.
  unfold handle_cell in E3.
  destruct (nth_error (mgrs s) m) as [mg|] eqn:Em; auto.
  simpl in E3. inversion E3; subst k'.
  apply map_ext_in. intros a Hin. rewrite E1. apply HL2.
  destruct (I_mgr _ _ _ H m mg Em) as [_ [_ C]]. destruct (C a Hin). congruence.
Qed.

Lemma upd_local : forall own k (h : list vec) a v,
  own a = k -> heap_local own k h (upd h a v).
Proof.
  intros. split; [apply upd_length|]. intros b Hb. apply nth_upd_neq. congruence.
Qed.

Lemma zero_all_local : forall own k l (h : list vec),
  (forall a, In a l -> own a = k) -> heap_local own k h (zero_all l h).
Proof.
  intros. split; [apply zero_all_length|].
  intros a Ha. apply zero_all_notin. intro C. apply Ha. auto.
Qed.

(** Changing only the heap (same length) keeps the invariant. *)
Lemma inv_heap : forall s own bown h,
  inv s own bown -> length h = length (heap s) -> inv (with_heap F s h) own bown.
Proof.
  intros s own bown h H E. constructor; cbn.
  - intros. rewrite E. eapply I_mgr; eauto.
  - intros. rewrite E. eapply I_back; eauto.
  - eapply I_reg; eauto.
  - eapply I_nodup; eauto.
  - eapply I_live; eauto.
Qed.

Lemma inv_set_sols : forall s own bown m mg h sols,
  inv s own bown -> nth_error (mgrs s) m = Some mg -> length h = length (heap s) ->
  (forall a, In a sols -> a < length (heap s) /\ own a = m_key mg) ->
  inv (set_sols F s m mg h sols) own bown.
Proof.
  intros s own bown m mg h sols H Em E Hs. constructor; cbn.
  - intros m' mg' Hm'. rewrite E. destruct (Nat.eq_dec m m') as [->|Hd].
    + rewrite nth_error_upd_eq in Hm' by (eapply nth_error_lt; eauto).
      inversion Hm'; subst mg'; cbn.
      destruct (I_mgr _ _ _ H m' mg Em) as [A [B C]]. repeat split; auto; apply Hs; auto.
    + rewrite nth_error_upd_neq in Hm' by auto. eapply I_mgr; eauto.
  - intros. rewrite E. eapply I_back; eauto.
  - eapply I_reg; eauto.
  - eapply I_nodup; eauto.
  - eapply I_live; eauto.
Qed.

Lemma load_loop_local : forall s own bown m mg bk h sols,
  inv s own bown -> nth_error (mgrs s) m = Some mg ->
  nth_error (backs s) (m_back mg) = Some bk ->
  (load_loop F (b_funs bk) (m_num mg) 0 (heap s) (m_sols mg) = LOk F h sols \/
   load_loop F (b_funs bk) (m_num mg) 0 (heap s) (m_sols mg) = LThrow F h sols) ->
  heap_local own (m_key mg) (heap s) h /\
  (forall a, In a sols -> a < length (heap s) /\ own a = m_key mg).
Proof.
  intros s own bown m mg bk h sols H Em Eb HL.
  pose proof (load_loop_general (b_funs bk) (m_num mg) 0 (heap s) (m_sols mg)) as G.
  destruct (I_mgr _ _ _ H m mg Em) as [A [B C]].
  assert (G' : exists l, h = zero_all l (heap s) /\ incl l (skipn 0 (m_sols mg)) /\
      (forall a, In a sols -> In a (m_sols mg) \/ In a (b_funs bk))).
  { destruct HL as [HL|HL]; rewrite HL in G; exact G. }
  destruct G' as [l [E1 [E2 E3]]]. simpl in E2. subst h. split.
  - apply zero_all_local. intros a Hin. apply C. now apply E2.
  - intros a Hin. destruct (E3 a Hin) as [Hi|Hi]; auto.
    destruct (I_back _ _ _ H _ _ Eb a Hi). split; auto. congruence.
Qed.

(** Main frame lemma: one step preserves the invariant and, if it addresses
    cell [k], leaves all other cells alone. *)
Lemma step_frame : forall s own bown o s',
  inv s own bown -> (step F s o = Ok F s' \/ step F s o = Throw F s') ->
  exists own' bown', inv s' own' bown' /\
  (o <> Clear F -> forall k', op_cell F s o <> Some k' ->
     stored F s' k' = stored F s k' /\
     assoc k' (reg s') = assoc k' (reg s) /\
     (forall m, handle_cell F s m = Some k' -> view F s' m = view F s m /\
                nth_error (mgrs s') m = nth_error (mgrs s) m)).
Proof.
  intros s own bown o s' H HS.
  destruct o as [key num len|m i v|m i c|m|m|m| |]; simpl in HS.
  - (* New *)
    destruct (do_new_spec s own bown key num len H)
      as [s1 [own1 [bown1 [mg [E [Hi [Ho [Hm [Hk [Hn [Hs [Ha [Hst [Hv [Hnth [Hlen [Hr _]]]]]]]]]]]]]]]]].
    rewrite E in HS. destruct HS as [HS|HS]; inversion HS; subst s1.
    exists own1, bown1. split; auto. intros _ k' Hne. simpl in Hne.
    split; [apply Hst|]. split; [apply Hr; congruence|].
    intros m Hc. unfold handle_cell in Hc.
    destruct (nth_error (mgrs s) m) as [mg'|] eqn:Em; [|discriminate].
    split.
    + apply Hv. eapply nth_error_lt; eauto.
    + rewrite Hm, nth_error_app1; auto. eapply nth_error_lt; eauto.
  - (* Write *)
    unfold do_modify, slot in HS.
    destruct (nth_error (mgrs s) m) as [mg|] eqn:Em; [|destruct HS; discriminate].
    destruct (nth_error (m_sols mg) i) as [a|] eqn:Ea; [|destruct HS; discriminate].
    destruct HS as [HS|HS]; inversion HS; subst s'. clear HS.
    destruct (I_mgr _ _ _ H m mg Em) as [A [B C]].
    destruct (C a (nth_error_In _ _ Ea)) as [C1 C2].
    exists own, bown. split; [apply inv_heap; auto; apply upd_length|].
    intros _ k' Hne. unfold op_cell, handle_cell in Hne. rewrite Em in Hne; simpl in Hne.
    assert (k' <> m_key mg) by congruence.
    split; [|split; auto].
    + eapply stored_heap_local; eauto. apply upd_local. exact C2.
    + intros m' Hc. split; auto. eapply view_heap_local; eauto. apply upd_local. exact C2.
  - (* Scale *)
    unfold do_modify, slot in HS.
    destruct (nth_error (mgrs s) m) as [mg|] eqn:Em; [|destruct HS; discriminate].
    destruct (nth_error (m_sols mg) i) as [a|] eqn:Ea; [|destruct HS; discriminate].
    destruct HS as [HS|HS]; inversion HS; subst s'. clear HS.
    destruct (I_mgr _ _ _ H m mg Em) as [A [B C]].
    destruct (C a (nth_error_In _ _ Ea)) as [C1 C2].
    exists own, bown. split; [apply inv_heap; auto; apply upd_length|].
    intros _ k' Hne. unfold op_cell, handle_cell in Hne. rewrite Em in Hne; simpl in Hne.
    assert (k' <> m_key mg) by congruence.
    split; [|split; auto].
    + eapply stored_heap_local; eauto. apply upd_local. exact C2.
    + intros m' Hc. split; auto. eapply view_heap_local; eauto. apply upd_local. exact C2.
  - (* Save *)
    unfold do_save in HS.
    destruct (nth_error (mgrs s) m) as [mg|] eqn:Em; [|destruct HS; discriminate].
    destruct (nth_error (backs s) (m_back mg)) as [bk|] eqn:Eb; [|destruct HS; discriminate].
    destruct (b_alive bk) eqn:Eal; [|destruct HS; discriminate].
    destruct HS as [HS|HS]; inversion HS; subst s'. clear HS.
    destruct (I_mgr _ _ _ H m mg Em) as [A [B C]].
    exists own, bown. split.
    + constructor; cbn.
      * intros m' mg' Hm'. rewrite upd_length. eapply I_mgr; eauto.
      * intros b bk' Hb a Hin. destruct (Nat.eq_dec (m_back mg) b) as [<-|Hd].
        -- rewrite nth_error_upd_eq in Hb by auto. inversion Hb; subst bk'. cbn in Hin.
           apply in_app_or in Hin. destruct Hin as [Hin|Hin].
           ++ eapply I_back; eauto.
           ++ destruct (C a Hin). split; auto. congruence.
        -- rewrite nth_error_upd_neq in Hb by auto. eapply I_back; eauto.
      * intros k b Hin. destruct (I_reg _ _ _ H k b Hin) as [R1 [bk' [R2 R3]]].
        split; auto. destruct (Nat.eq_dec (m_back mg) b) as [<-|Hd].
        -- eexists. rewrite nth_error_upd_eq by auto. split; reflexivity.
        -- exists bk'. rewrite nth_error_upd_neq by auto. auto.
      * eapply I_nodup; eauto.
      * intros b bk' Hb Hal. destruct (Nat.eq_dec (m_back mg) b) as [<-|Hd].
        -- eapply I_live; eauto.
        -- rewrite nth_error_upd_neq in Hb by auto. eapply I_live; eauto.
    + intros _ k' Hne. unfold op_cell, handle_cell in Hne. rewrite Em in Hne; simpl in Hne.
      assert (Hk : k' <> m_key mg) by congruence.
      assert (HLl : heap_local own (m_key mg) (heap s) (heap s)) by (split; auto).
      split; [|split; auto].
      * eapply (stored_heap_local s own bown (m_key mg) k' (heap s)); eauto.
        cbn. intros b Hbo. apply nth_error_upd_neq. congruence.
  - (* Load *)
    unfold do_load in HS.
    destruct (nth_error (mgrs s) m) as [mg|] eqn:Em; [|destruct HS; discriminate].
    destruct (nth_error (backs s) (m_back mg)) as [bk|] eqn:Eb; [|destruct HS; discriminate].
    destruct (b_alive bk) eqn:Eal; [|destruct HS; discriminate].
    assert (Hex : exists h sols, s' = set_sols F s m mg h sols /\
      (load_loop F (b_funs bk) (m_num mg) 0 (heap s) (m_sols mg) = LOk F h sols \/
       load_loop F (b_funs bk) (m_num mg) 0 (heap s) (m_sols mg) = LThrow F h sols)).
    { destruct (load_loop F (b_funs bk) (m_num mg) 0 (heap s) (m_sols mg)) as [h sols|h sols|];
        destruct HS as [HS|HS]; inversion HS; eauto. }
    destruct Hex as [h [sols [-> HL]]].
    destruct (load_loop_local _ _ _ _ _ _ _ _ H Em Eb HL) as [L1 L2].
    exists own, bown. split.
    + apply inv_set_sols; auto. apply L1.
    + intros _ k' Hne. unfold op_cell, handle_cell in Hne. rewrite Em in Hne; simpl in Hne.
      assert (Hk : k' <> m_key mg) by congruence.
      split; [|split; auto].
      * eapply stored_heap_local; eauto.
      * intros m' Hc.
        assert (Hmm : m <> m').
        { intros ->. unfold handle_cell in Hc. rewrite Em in Hc; simpl in Hc. congruence. }
        assert (Hn : nth_error (mgrs (set_sols F s m mg h sols)) m' = nth_error (mgrs s) m').
        { cbn. apply nth_error_upd_neq. auto. }
        split; auto. eapply view_heap_local; eauto.
  - (* Drop *)
    unfold do_drop in HS.
    destruct (nth_error (mgrs s) m) as [mg|] eqn:Em; [|destruct HS; discriminate].
    destruct HS as [HS|HS]; inversion HS; subst s'. clear HS.
    exists own, bown. split.
    + apply inv_set_sols; auto. intros a [].
    + intros _ k' Hne. unfold op_cell, handle_cell in Hne. rewrite Em in Hne; simpl in Hne.
      assert (Hk : k' <> m_key mg) by congruence.
      assert (HLl : heap_local own (m_key mg) (heap s) (heap s)) by (split; auto).
      split; [|split; auto].
      * eapply stored_heap_local; eauto.
      * intros m' Hc.
        assert (Hmm : m <> m').
        { intros ->. unfold handle_cell in Hc. rewrite Em in Hc; simpl in Hc. congruence. }
        assert (Hn : nth_error (mgrs (set_sols F s m mg (heap s) [])) m' = nth_error (mgrs s) m').
        { cbn. apply nth_error_upd_neq. auto. }
        split; auto. eapply view_heap_local; eauto.
  - (* Clear *)
    destruct HS as [HS|HS]; inversion HS; subst s'. exists own, bown. split; [|congruence].
    constructor; cbn.
    + intros. rewrite map_length. eapply I_mgr; eauto.
    + intros b bk Hb a Hin. rewrite nth_error_map in Hb.
      destruct (nth_error (backs s) b) as [bk0|] eqn:E; simpl in Hb; [|discriminate].
      inversion Hb; subst bk. cbn in Hin. eapply I_back; eauto.
    + tauto.
    + constructor.
    + intros b bk Hb Hal. rewrite nth_error_map in Hb.
      destruct (nth_error (backs s) b) as [bk0|] eqn:E; simpl in Hb; [|discriminate].
      inversion Hb; subst bk. discriminate.
  - (* Fail *)
    destruct HS as [HS|HS]; inversion HS; subst s'. exists own, bown. split; auto.
Qed.

Lemma run_inv : forall ops s own bown s',
  inv s own bown -> run F s ops = Some s' -> exists own' bown', inv s' own' bown'.
Proof.
  induction ops as [|o r IH]; intros s own bown s' H HR; simpl in HR.
  - inversion HR; subst; eauto.
  - destruct (step F s o) as [s1|s1|] eqn:E; try discriminate.
    + destruct (step_frame s own bown o s1 H (or_introl E)) as [own1 [bown1 [Hi _]]]. eauto.
    + destruct (step_frame s own bown o s1 H (or_intror E)) as [own1 [bown1 [Hi _]]]. eauto.
Qed.

Lemma reachable_inv : forall s, reachable F s -> exists own bown, inv s own bown.
Proof. intros s [ops H]. eapply run_inv; eauto. apply inv_init. Qed.

Lemma reachable_step : forall s o s', reachable F s ->
  (step F s o = Ok F s' \/ step F s o = Throw F s') -> reachable F s'.
Proof.
  intros s o s' [ops H] HS. exists (ops ++ [o]).
  revert H. generalize (init F). induction ops as [|o' r IH]; intros s0 H; simpl in *.
  - inversion H; subst. destruct HS as [->| ->]; reflexivity.
  - destruct (step F s0 o'); auto; discriminate.
Qed.

Lemma reachable_after : forall s o s', reachable F s -> after F s o = Some s' -> reachable F s'.
Proof.
  intros s o s' H HA. unfold after in HA.
  destruct (step F s o) as [s1|s1|] eqn:E; inversion HA; subst.
  - eapply reachable_step; eauto.
  - eapply reachable_step; eauto.
Qed.

Lemma reachable_run_act : forall s a s', reachable F s -> run_act F s a = Some s' -> reachable F s'.
Proof.
  intros s [o|key num len] s' H HA; unfold run_act in HA.
  - eapply reachable_after; eauto.
  - destruct (after F s (New F key num len)) as [s1|] eqn:E; [|discriminate].
    eapply reachable_after; [|eauto]. eapply reachable_after; eauto.
Qed.

(** * C02 isolation *)
Lemma isolation : forall s o s' k',
  reachable F s -> after F s o = Some s' -> o <> Clear F -> op_cell F s o <> Some k' ->
  stored F s' k' = stored F s k' /\
  (forall m, handle_cell F s m = Some k' -> view F s' m = view F s m).
Proof.
  intros s o s' k' HR HA Hc Ho.
  destruct (reachable_inv _ HR) as [own [bown H]].
  assert (HS : step F s o = Ok F s' \/ step F s o = Throw F s').
  { unfold after in HA. destruct (step F s o); inversion HA; auto. }
  destruct (step_frame s own bown o s' H HS) as [own' [bown' [Hi Hf]]].
  destruct (Hf Hc k' Ho) as [A [B C]]. split; auto. intros m Hm. apply C; auto.
Qed.

(** A fresh handle followed by one load. *)
Lemma fresh_load : forall s k num len,
  reachable F s ->
  exists s1 s2,
    step F s (New F k num len) = Ok F s1 /\
    (step F s1 (Load F (handles F s)) = Ok F s2 \/ step F s1 (Load F (handles F s)) = Throw F s2) /\
    (num <= length (stored F s k) <-> step F s1 (Load F (handles F s)) = Ok F s2) /\
    (num <= length (stored F s k) -> view F s2 (handles F s) = firstn num (stored F s k)) /\
    (forall k', stored F s2 k' = stored F s k') /\
    (forall m, m < handles F s -> view F s2 m = view F s m) /\
    handles F s2 = S (handles F s) /\
    live_for F s2 (handles F s) k.
Proof.
  intros s k num len HR.
  destruct (reachable_inv _ HR) as [own [bown H]].
  destruct (do_new_spec s own bown k num len H)
      as [s1 [own1 [bown1 [mg [E [Hi [Ho [Hm [Hk [Hn [Hs [Ha [Hst [Hv [Hnth [Hlen [Hr [Hrr Hbb]]]]]]]]]]]]]]]]]].
  exists s1. simpl step.
  assert (Hmg : nth_error (mgrs s1) (handles F s) = Some mg).
  { rewrite Hm. unfold handles. rewrite nth_error_app2 by lia. now rewrite Nat.sub_diag. }
  destruct (inv_assoc _ _ _ _ _ Hi Ha) as [Eb [bk [Hbk Hal]]].
  assert (Hst1 : stored F s k = map (fun a => nth a (heap s1) []) (b_funs bk)).
  { rewrite <- Hst. unfold stored. now rewrite Ha, Hbk. }
  assert (Hln : length (stored F s k) = length (b_funs bk)).
  { rewrite Hst1. apply map_length. }
  assert (Hsl : length (m_sols mg) = num) by (rewrite Hs; apply seq_length).
  (* addresses of the new slots are not stored anywhere *)
  assert (Hfresh : forall b' bk' a, nth_error (backs s1) b' = Some bk' ->
     In a (b_funs bk') -> a < length (heap s)).
  { intros b' bk' a Hb' Hin.
    destruct (nth_error (backs s) b') as [bk0|] eqn:E0.
    - pose proof (Hbb _ _ E0) as E1. rewrite Hb' in E1. inversion E1; subst.
      eapply I_back; eauto.
    - assert (Hf : b_funs bk' = []).
      { clear -E E0 Hb'. unfold do_new, get_backend in E.
        destruct (assoc k (reg s)) as [bb|] eqn:Ek.
        - destruct (nth_error (backs s) bb); inversion E; subst s1. cbn in Hb'. congruence.
        - cbn [StorageModel.backs StorageModel.heap StorageModel.mgrs StorageModel.reg] in E.
          rewrite nth_error_app2 in E by lia. rewrite Nat.sub_diag in E. simpl in E.
          inversion E; subst s1. cbn in Hb'.
          apply nth_error_None in E0. rewrite nth_error_app2 in Hb' by auto.
          destruct (b' - length (backs s)) as [|j]; simpl in Hb'; [|destruct j; discriminate].
          inversion Hb'. reflexivity. }
      rewrite Hf in Hin. destruct Hin. }
  unfold do_load. rewrite Hmg, Hbk, Hal, Hn.
  assert (Hgen : forall h sols s2,
    (exists l, h = zero_all l (heap s1) /\ incl l (m_sols mg)) ->
    s2 = set_sols F s1 (handles F s) mg h sols ->
    (forall k', stored F s2 k' = stored F s k') /\
    (forall m, m < handles F s -> view F s2 m = view F s m) /\
    handles F s2 = S (handles F s) /\ live_for F s2 (handles F s) k /\
    (forall a, a < length (heap s) -> nth a h [] = nth a (heap s1) [])).
  { intros h sols s2 [l [-> Hl]] ->.
    assert (Hkeep : forall a, a < length (heap s) ->
       nth a (zero_all l (heap s1)) [] = nth a (heap s1) []).
    { intros a Hlt. apply zero_all_notin. intro C. apply Hl in C. rewrite Hs in C.
      apply in_seq in C. lia. }
    split; [|split; [|split; [|split]]]; auto.
    - intros k'. rewrite <- (Hst k'). unfold stored. cbn.
      destruct (assoc k' (reg s1)) as [b'|]; auto.
      destruct (nth_error (backs s1) b') as [bk'|] eqn:E'; auto.
      apply map_ext_in. intros a Hin. apply Hkeep. eapply Hfresh; eauto.
    - intros m Hlt. rewrite <- (Hv m) by auto. unfold view. cbn.
      rewrite nth_error_upd_neq by lia.
      destruct (nth_error (mgrs s1) m) as [mg'|] eqn:E'; auto.
      apply map_ext_in. intros a Hin. apply Hkeep.
      rewrite Hm, nth_error_app1 in E' by auto. eapply (I_mgr _ _ _ H); eauto.
    - unfold handles. cbn. rewrite upd_length, Hm, app_length. simpl. lia.
    - exists {| m_key := m_key mg; m_back := m_back mg; m_num := m_num mg; m_sols := sols |}.
      cbn. rewrite nth_error_upd_eq by (eapply nth_error_lt; eauto).
      repeat split; auto. }
  destruct (Nat.le_gt_cases num (length (b_funs bk))) as [Hle|Hgt].
  - rewrite load_loop_ok by lia.
    eexists. split; [exact E|]. split; [left; reflexivity|].
    split; [split; [intros _; reflexivity|intros _; lia]|].
    assert (Hincl : incl (firstn num (skipn 0 (m_sols mg))) (m_sols mg)).
    { intros x Hx. simpl in Hx. rewrite <- (firstn_skipn num). apply in_or_app. auto. }
    specialize (Hgen (zero_all (firstn num (skipn 0 (m_sols mg))) (heap s1))
      (firstn 0 (m_sols mg) ++ firstn num (skipn 0 (b_funs bk)) ++ skipn (0 + num) (m_sols mg)) _
      (ex_intro _ _ (conj eq_refl Hincl)) eq_refl).
    destruct Hgen as [G1 [G2 [G3 [G4 G5]]]]. split; [|split; [|split; [|split]]]; auto.
    intros _. unfold view. cbn [StorageModel.mgrs set_sols].
    rewrite nth_error_upd_eq by (eapply nth_error_lt; eauto). cbn.
    rewrite Hst1, firstn_map. rewrite skipn_all2 by lia. rewrite app_nil_r.
    apply map_ext_in. intros a Hin. apply G5.
    eapply Hfresh; eauto. rewrite <- (firstn_skipn num). apply in_or_app; auto.
  - destruct (load_loop_throw (b_funs bk) num 0 (heap s1) (m_sols mg)) as [h [sols HT]]; try lia.
    rewrite HT. eexists. split; [exact E|]. split; [right; reflexivity|].
    split; [split; [intro; lia|intro C; discriminate]|].
    split; [intro; lia|].
    pose proof (load_loop_general (b_funs bk) num 0 (heap s1) (m_sols mg)) as G.
    rewrite HT in G. destruct G as [l [G1 [G2 G3]]]. simpl in G2.
    destruct (Hgen h sols _ (ex_intro _ l (conj G1 G2)) eq_refl) as [g1 [g2 [g3 [g4 g5]]]].
    auto.
Qed.

Lemma fresh_read_spec : forall s k num len,
  reachable F s ->
  fresh_read F s k num len =
  (if Nat.leb num (length (stored F s k)) then Some (firstn num (stored F s k)) else None).
Proof.
  intros s k num len HR.
  destruct (fresh_load s k num len HR) as [s1 [s2 [E1 [E2 [E3 [E4 _]]]]]].
  unfold fresh_read. rewrite E1.
  destruct (Nat.leb_spec num (length (stored F s k))) as [Hl|Hl].
  - rewrite (proj1 E3 Hl). f_equal. auto.
  - destruct E2 as [E2|E2].
    + apply E3 in E2. lia.
    + now rewrite E2.
Qed.

(** * C03 *)
Lemma read_cycles : forall l s,
  reachable F s ->
  exists s', run_acts F s (map (fun t => ReadFresh F (fst (fst t)) (snd (fst t)) (snd t)) l) = Some s' /\
   reachable F s' /\
  (forall k, stored F s' k = stored F s k) /\
  (forall m, m < handles F s -> view F s' m = view F s m).
Proof.
  induction l as [|[[k n] len] l IH]; intros s HR; simpl.
  - exists s; auto.
  - destruct (fresh_load s k n len HR) as [s1 [s2 [E1 [E2 [E3 [E4 [E5 [E6 [E7 E8]]]]]]]]].
    assert (EA : after F s (New F k n len) = Some s1) by (unfold after; rewrite E1; auto).
    assert (EB : after F s1 (Load F (handles F s)) = Some s2).
    { unfold after. destruct E2 as [->| ->]; auto. }
    rewrite EA, EB.
    assert (HR2 : reachable F s2).
    { eapply reachable_after; [|exact EB]. eapply reachable_after; eauto. }
    destruct (IH s2 HR2) as [s' [G0 [G1 [G2 G3]]]].
    exists s'. split; auto. split; auto. split.
    + intro k'. now rewrite G2.
    + intros m Hm. rewrite G3 by lia. auto.
Qed.

(** * C01 *)
Lemma leaves_alone_stored : forall l k s s',
  reachable F s -> leaves_alone F k s l -> run_acts F s l = Some s' ->
  reachable F s' /\ stored F s' k = stored F s k.
Proof.
  induction l as [|a l IH]; intros k s s' HR HL HRun; simpl in *.
  - inversion HRun; subst; auto.
  - destruct HL as [HL1 HL2].
    destruct (run_act F s a) as [s1|] eqn:E; [|discriminate].
    pose proof (reachable_run_act _ _ _ HR E) as HR1.
    destruct (IH k s1 s' HR1 HL2 HRun) as [G1 G2]. split; auto. rewrite G2.
    destruct a as [o|key num len].
    + destruct HL1 as [A B]. unfold run_act in E. eapply isolation; eauto.
    + unfold run_act in E.
      destruct (fresh_load s key num len HR) as [t1 [t2 [E1 [E2 [E3 [E4 [E5 _]]]]]]].
      assert (EA : after F s (New F key num len) = Some t1) by (unfold after; rewrite E1; auto).
      rewrite EA in E.
      assert (EB : after F t1 (Load F (handles F s)) = Some t2).
      { unfold after. destruct E2 as [->| ->]; auto. }
      rewrite EB in E. inversion E; subst. apply E5.
Qed.

Lemma live_save : forall s m k,
  reachable F s -> live_for F s m k ->
  exists s1, step F s (Save F m) = Ok F s1 /\
    stored F s1 k = stored F s k ++ view F s m /\
    (forall m', view F s1 m' = view F s m').
Proof.
  intros s m k HR [mg [Em [Ek Ea]]].
  destruct (reachable_inv _ HR) as [own [bown H]].
  destruct (inv_assoc _ _ _ _ _ H Ea) as [Eb [bk [Hbk Hal]]].
  simpl. unfold do_save. rewrite Em, Hbk, Hal. eexists. split; [reflexivity|]. split.
  - unfold stored. cbn. rewrite Ea.
    rewrite nth_error_upd_eq by (eapply nth_error_lt; eauto). rewrite Hbk. cbn.
    unfold view. rewrite Em. now rewrite map_app.
  - reflexivity.
Qed.

Lemma roundtrip : forall s0 m k,
  reachable F s0 -> live_for F s0 m k -> stored F s0 k = [] ->
  exists s1, step F s0 (Save F m) = Ok F s1 /\
  forall l s2, leaves_alone F k s1 l -> run_acts F s1 l = Some s2 ->
  forall len, fresh_read F s2 k (length (view F s0 m)) len = Some (view F s0 m).
Proof.
  intros s0 m k HR HL HE.
  destruct (live_save s0 m k HR HL) as [s1 [E1 [E2 E3]]].
  exists s1. split; auto. intros l s2 HA HRun len.
  assert (HR1 : reachable F s1) by (eapply reachable_step; eauto).
  destruct (leaves_alone_stored _ _ _ _ HR1 HA HRun) as [HR2 E].
  rewrite fresh_read_spec by auto. rewrite E, E2, HE. simpl.
  rewrite Nat.leb_refl. now rewrite firstn_all.
Qed.

(** * C04 *)
Lemma load_throw_iff : forall s m k,
  reachable F s -> live_for F s m k -> length (view F s m) >= handle_num F s m ->
  ((exists s', step F s (Load F m) = Throw F s') <-> length (stored F s k) < handle_num F s m) /\
  ((exists s', step F s (Load F m) = Ok F s') <-> handle_num F s m <= length (stored F s k)).
Proof.
  intros s m k HR [mg [Em [Ek Ea]]] HL.
  destruct (reachable_inv _ HR) as [own [bown H]].
  destruct (inv_assoc _ _ _ _ _ H Ea) as [Eb [bk [Hbk Hal]]].
  unfold view in HL. unfold handle_num in *. rewrite Em in *. rewrite map_length in HL.
  simpl. unfold do_load. rewrite Em, Hbk, Hal.
  unfold stored. rewrite Ea, Hbk, map_length.
  destruct (Nat.le_gt_cases (m_num mg) (length (b_funs bk))) as [Hle|Hgt].
  - rewrite load_loop_ok by lia. split; split; intros; try lia; eauto.
    destruct H0; discriminate.
  - destruct (load_loop_throw (b_funs bk) (m_num mg) 0 (heap s) (m_sols mg)) as [h [sols HT]]; try lia.
    rewrite HT. split; split; intros; try lia; eauto.
    destruct H0; discriminate.
Qed.

(** * C05 *)
(** After a successful load the handle's slots are the stored functions. *)
Definition aliased (s : state) (m k : nat) : Prop :=
  exists mg bk, nth_error (mgrs s) m = Some mg /\ m_key mg = k /\
    assoc k (reg s) = Some (m_back mg) /\
    nth_error (backs s) (m_back mg) = Some bk /\ b_alive bk = true /\
    m_num mg <= length (b_funs bk) /\ m_sols mg = firstn (m_num mg) (b_funs bk).

Lemma load_aliased : forall s m k s1,
  reachable F s -> live_for F s m k -> length (view F s m) = handle_num F s m ->
  step F s (Load F m) = Ok F s1 -> aliased s1 m k.
Proof.
  intros s m k s1 HR [mg [Em [Ek Ea]]] HL HS.
  destruct (reachable_inv _ HR) as [own [bown H]].
  destruct (inv_assoc _ _ _ _ _ H Ea) as [Eb [bk [Hbk Hal]]].
  unfold view in HL. unfold handle_num in *. rewrite Em in *. rewrite map_length in HL.
  simpl in HS. unfold do_load in HS. rewrite Em, Hbk, Hal in HS.
  destruct (Nat.le_gt_cases (m_num mg) (length (b_funs bk))) as [Hle|Hgt].
  - rewrite load_loop_ok in HS by lia. inversion HS; subst s1. clear HS.
    eexists. exists bk. cbn.
    rewrite nth_error_upd_eq by (eapply nth_error_lt; eauto).
    split; [reflexivity|]. cbn. repeat split; auto.
    rewrite skipn_all2 by lia. now rewrite app_nil_r.
  - destruct (load_loop_throw (b_funs bk) (m_num mg) 0 (heap s) (m_sols mg)) as [h [sols HT]]; try lia.
    rewrite HT in HS. discriminate.
Qed.

Lemma aliased_load : forall s m k,
  aliased s m k ->
  exists s', step F s (Load F m) = Ok F s' /\ aliased s' m k /\
    view F s' m = map (zeroed F) (view F s m) /\
    firstn (handle_num F s m) (stored F s' k) = map (zeroed F) (firstn (handle_num F s m) (stored F s k)) /\
    length (stored F s' k) = length (stored F s k) /\
    handle_num F s' m = handle_num F s m.
Proof.
  intros s m k [mg [bk [Em [Ek [Ea [Hbk [Hal [Hn Hs]]]]]]]].
  assert (Hsl : length (m_sols mg) = m_num mg) by (rewrite Hs, firstn_length; lia).
  simpl. unfold do_load. rewrite Em, Hbk, Hal.
  rewrite load_loop_ok by lia. eexists. split; [reflexivity|].
  assert (Hz : forall l, incl l (m_sols mg) ->
     map (fun a => nth a (zero_all (firstn (m_num mg) (skipn 0 (m_sols mg))) (heap s)) []) l =
     map (zeroed F) (map (fun a => nth a (heap s) []) l)).
  { intros l Hl. rewrite map_map. apply map_ext_in. intros a Hin. apply zero_all_in.
    simpl. rewrite firstn_all2 by lia. auto. }
  assert (Hsols : firstn 0 (m_sols mg) ++ firstn (m_num mg) (skipn 0 (b_funs bk)) ++
                  skipn (0 + m_num mg) (m_sols mg) = m_sols mg).
  { simpl. rewrite skipn_all2 by lia. rewrite app_nil_r. auto. }
  rewrite Hsols. split; [|split; [|split; [|split]]].
  - eexists. exists bk. cbn. rewrite nth_error_upd_eq by (eapply nth_error_lt; eauto).
    split; [reflexivity|]. cbn. repeat split; auto.
  - unfold view. cbn [StorageModel.mgrs set_sols].
    rewrite nth_error_upd_eq by (eapply nth_error_lt; eauto). rewrite Em. cbn [m_sols].
    cbn [StorageModel.heap set_sols]. apply Hz. apply incl_refl.
  - unfold stored, handle_num. cbn [StorageModel.reg StorageModel.backs StorageModel.heap set_sols].
    rewrite Ea, Hbk, Em. rewrite !firstn_map. apply Hz. rewrite Hs. apply incl_refl.
  - unfold stored. cbn [StorageModel.reg StorageModel.backs StorageModel.heap set_sols].
    rewrite Ea, Hbk. now rewrite !map_length.
  - unfold handle_num. cbn. rewrite nth_error_upd_eq by (eapply nth_error_lt; eauto).
    now rewrite Em.
Qed.

Lemma save_aliased : forall s m k s1,
  reachable F s -> live_for F s m k -> stored F s k = [] ->
  length (view F s m) = handle_num F s m ->
  step F s (Save F m) = Ok F s1 -> aliased s1 m k.
Proof.
  intros s m k s1 HR [mg [Em [Ek Ea]]] HE HL HS.
  destruct (reachable_inv _ HR) as [own [bown H]].
  destruct (inv_assoc _ _ _ _ _ H Ea) as [Eb [bk [Hbk Hal]]].
  unfold view, handle_num in HL. rewrite Em in HL. rewrite map_length in HL.
  unfold stored in HE. rewrite Ea, Hbk in HE.
  apply map_eq_nil in HE.
  simpl in HS. unfold do_save in HS. rewrite Em, Hbk, Hal in HS. inversion HS; subst s1.
  exists mg. eexists. cbn. rewrite nth_error_upd_eq by (eapply nth_error_lt; eauto).
  split; [exact Em|]. split; [exact Ek|]. split; [exact Ea|]. split; [reflexivity|].
  cbn. rewrite HE. simpl. split; auto. split; [lia|]. rewrite firstn_all2; auto; lia.
Qed.

(** [n] further loads through the same handle. *)
Lemma aliased_loads : forall n s m k,
  aliased s m k -> reachable F s ->
  exists s', run_block F s (repeat (Load F m) (S n)) = Ok F s' /\ reachable F s' /\
    view F s' m = map (zeroed F) (view F s m) /\
    firstn (handle_num F s m) (stored F s' k) = map (zeroed F) (firstn (handle_num F s m) (stored F s k)) /\
    length (stored F s' k) = length (stored F s k).
Proof.
  induction n as [|n IH]; intros s m k HA HR.
  - destruct (aliased_load s m k HA) as [s' [E [G1 [G2 [G3 [G4 G5]]]]]].
    exists s'. simpl repeat. cbn [run_block]. rewrite E. repeat split; auto.
    eapply reachable_step; eauto.
  - destruct (aliased_load s m k HA) as [s1 [E [G1 [G2 [G3 [G4 G5]]]]]].
    assert (HR1 : reachable F s1) by (eapply reachable_step; eauto).
    destruct (IH s1 m k G1 HR1) as [s' [E' [H0 [H1 [H2 H3]]]]].
    exists s'. change (repeat (Load F m) (S (S n))) with (Load F m :: repeat (Load F m) (S n)).
    cbn [run_block]. rewrite E. split; [exact E'|]. split; auto. rewrite G5 in H2.
    split; [|split].
    + rewrite H1, G2, map_map. apply map_ext. apply zeroed_idem.
    + rewrite H2, G3, map_map. apply map_ext. apply zeroed_idem.
    + now rewrite H3.
Qed.

Lemma aliased_lengths : forall s m k, aliased s m k ->
  handle_num F s m <= length (stored F s k) /\
  view F s m = firstn (handle_num F s m) (stored F s k).
Proof.
  intros s m k [mg [bk [Em [Ek [Ea [Hbk [Hal [Hn Hs]]]]]]]].
  unfold handle_num, stored, view. rewrite Em, Ea, Hbk. rewrite map_length. split; auto.
  rewrite firstn_map. now rewrite Hs.
Qed.

(** Second and later loads zero the store. *)
Lemma repeated_load_destroys : forall n s m k s1,
  reachable F s -> live_for F s m k -> length (view F s m) = handle_num F s m ->
  step F s (Load F m) = Ok F s1 ->
  view F s1 m = firstn (handle_num F s1 m) (stored F s1 k) /\
  exists s2, run_block F s1 (repeat (Load F m) (S n)) = Ok F s2 /\
    view F s2 m = map (zeroed F) (view F s1 m) /\
    forall len, fresh_read F s2 k (handle_num F s1 m) len = Some (map (zeroed F) (view F s1 m)).
Proof.
  intros n s m k s1 HR HL Hlen HS.
  pose proof (load_aliased _ _ _ _ HR HL Hlen HS) as HA.
  assert (HR1 : reachable F s1) by (eapply reachable_step; eauto).
  destruct (aliased_lengths _ _ _ HA) as [HA1 HA2]. split; auto.
  destruct (aliased_loads n s1 m k HA HR1) as [s2 [E [G0 [G1 [G2 G3]]]]].
  exists s2. split; auto. split; auto. intros len.
  rewrite fresh_read_spec by auto. rewrite G3.
  rewrite (proj2 (Nat.leb_le _ _) HA1). f_equal. rewrite G2. now rewrite <- HA2.
Qed.

Lemma load_after_save_destroys : forall n s m k s1,
  reachable F s -> live_for F s m k -> stored F s k = [] ->
  length (view F s m) = handle_num F s m ->
  step F s (Save F m) = Ok F s1 ->
  exists s2, run_block F s1 (repeat (Load F m) (S n)) = Ok F s2 /\
    view F s2 m = map (zeroed F) (view F s m) /\
    forall len, fresh_read F s2 k (handle_num F s m) len = Some (map (zeroed F) (view F s m)).
Proof.
  intros n s m k s1 HR HL HE Hlen HS.
  pose proof (save_aliased _ _ _ _ HR HL HE Hlen HS) as HA.
  assert (HR1 : reachable F s1) by (eapply reachable_step; eauto).
  destruct (aliased_lengths _ _ _ HA) as [HA1 HA2].
  destruct (live_save s m k HR HL) as [s1' [E1 [E2 E3]]]. rewrite HS in E1. inversion E1; subst s1'.
  assert (Hn : handle_num F s1 m = handle_num F s m).
  { simpl in HS. unfold do_save in HS. unfold handle_num.
    destruct (nth_error (mgrs s) m) as [mg|] eqn:Em; [|discriminate].
    destruct (nth_error (backs s) (m_back mg)) as [bk|]; [|discriminate].
    destruct (b_alive bk); inversion HS. subst s1. cbn. now rewrite Em. }
  destruct (aliased_loads n s1 m k HA HR1) as [s2 [E [G0 [G1 [G2 G3]]]]].
  exists s2. split; auto. rewrite (E3 m) in G1. split; auto. intros len.
  rewrite fresh_read_spec by auto. rewrite G3. rewrite Hn in *.
  rewrite (proj2 (Nat.leb_le _ _) HA1). f_equal. rewrite G2. rewrite <- HA2. now rewrite E3.
Qed.

(** Saves keep every handle of the cell live. *)
Lemma save_live : forall s m s1 m' k, step F s (Save F m) = Ok F s1 ->
  live_for F s m' k -> live_for F s1 m' k.
Proof.
  intros s m s1 m' k HS [mg [E [Ek Ea]]]. exists mg.
  simpl in HS. unfold do_save in HS.
  destruct (nth_error (mgrs s) m) as [mg0|]; [|discriminate].
  destruct (nth_error (backs s) (m_back mg0)) as [bk|]; [|discriminate].
  destruct (b_alive bk); [|discriminate]. inversion HS; subst s1. cbn. auto.
Qed.

Lemma many_saves_ignored : forall ms s k n,
  reachable F s -> (forall m, In m ms -> live_for F s m k) -> n <= length (stored F s k) ->
  exists s1, run_block F s (map (Save F) ms) = Ok F s1 /\
    forall len, fresh_read F s1 k n len = Some (firstn n (stored F s k)).
Proof.
  intros ms s k n HR HL Hn.
  enough (exists s1, run_block F s (map (Save F) ms) = Ok F s1 /\ reachable F s1 /\
    exists rest, stored F s1 k = stored F s k ++ rest) as [s1 [E [R1 [rest Er]]]].
  { exists s1. split; auto. intros len. rewrite fresh_read_spec by auto.
    rewrite Er, app_length. rewrite (proj2 (Nat.leb_le n _)) by lia.
    now rewrite firstn_app_le by auto. }
  clear Hn. revert s HR HL. induction ms as [|m ms IH]; intros s HR HL; cbn [map run_block].
  - exists s. split; auto. split; auto. exists []. now rewrite app_nil_r.
  - destruct (live_save s m k HR (HL m (or_introl eq_refl))) as [s1 [E1 [E2 E3]]].
    rewrite E1. destruct (IH s1) as [s2 [G1 [G2 [rest G3]]]].
    + eapply reachable_step; eauto.
    + intros m' Hm'. eapply save_live; eauto. apply HL. now right.
    + exists s2. split; auto. split; auto. exists (view F s m ++ rest).
      now rewrite G3, E2, app_assoc.
Qed.

(** A successful load shows the cell's stored functions. *)
Lemma load_ok_view : forall s m k s1,
  reachable F s -> live_for F s m k -> length (view F s m) = handle_num F s m ->
  step F s (Load F m) = Ok F s1 ->
  view F s1 m = firstn (handle_num F s m) (stored F s1 k).
Proof.
  intros s m k s1 HR HL Hlen HS.
  destruct (repeated_load_destroys 0 s m k s1 HR HL Hlen HS) as [E _]. rewrite E. f_equal.
  simpl in HS. unfold do_load in HS. unfold handle_num.
  destruct (nth_error (mgrs s) m) as [mg0|] eqn:Em; [|discriminate].
  destruct (nth_error (backs s) (m_back mg0)) as [bk|]; [|discriminate].
  destruct (b_alive bk); [|discriminate].
  destruct (load_loop F (b_funs bk) (m_num mg0) 0 (heap s) (m_sols mg0)); inversion HS; subst s1.
  cbn. rewrite nth_error_upd_eq by (eapply nth_error_lt; eauto). reflexivity.
Qed.

(** * C07 *)
Lemma run_block_reachable : forall ops s s',
  reachable F s -> (run_block F s ops = Ok F s' \/ run_block F s ops = Throw F s') -> reachable F s'.
Proof.
  induction ops as [|o r IH]; intros s s' HR HS; simpl in HS.
  - destruct HS as [HS|HS]; inversion HS; subst; auto.
  - destruct (step F s o) as [s1|s1|] eqn:E.
    + apply (IH s1); auto. eapply reachable_step; eauto.
    + destruct HS as [HS|HS]; inversion HS; subst. eapply reachable_step; eauto.
    + destruct HS; discriminate.
Qed.

Lemma guarded_clean : forall s body s',
  reachable F s -> (guarded F s body = Ok F s' \/ guarded F s body = Throw F s') ->
  reachable F s' /\ (forall k, stored F s' k = []) /\ (forall m k, ~ live_for F s' m k) /\
  (forall k n len, fresh_read F s' k (S n) len = None).
Proof.
  intros s body s' HR HS. unfold guarded in HS.
  assert (Hex : exists s1, s' = do_clear F s1 /\ reachable F s1).
  { destruct (run_block F s body) as [s1|s1|] eqn:E.
    - exists s1. destruct HS as [HS|HS]; inversion HS. split; auto.
      eapply run_block_reachable; eauto.
    - exists s1. destruct HS as [HS|HS]; inversion HS. split; auto.
      eapply run_block_reachable; eauto.
    - destruct HS; discriminate. }
  destruct Hex as [s1 [-> HR1]].
  assert (HRc : reachable F (do_clear F s1)) by (eapply (reachable_step s1 (Clear F)); simpl; eauto).
  split; auto. split; [reflexivity|]. split.
  - intros m k [mg [_ [_ C]]]. discriminate.
  - intros. rewrite fresh_read_spec by auto. reflexivity.
Qed.

End Proofs.
