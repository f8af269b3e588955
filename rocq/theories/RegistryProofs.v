(** Proofs for the concurrent registry (C08-C10, C66). *)
From Coq Require Import List Arith Lia Bool.
From Verif Require Import Util RegistryModel RegistrySpec.
Import ListNotations.

Lemma tset_eq : forall f t x, tset f t x t = x.
Proof. intros. unfold tset. now rewrite Nat.eqb_refl. Qed.

Lemma tset_neq : forall f t x u, u <> t -> tset f t x u = f u.
Proof. intros. unfold tset. destruct (Nat.eqb_spec u t); congruence. Qed.

(** Phases in which a thread owns the mutex. *)
Definition holding (p : pc) : Prop :=
  match p with Locked _ | Inserting _ _ | Leaving _ _ => True | _ => False end.

(** Key whose lookup failed and that the thread will try to insert. *)
Definition pending (p : pc) (k : nat) : Prop :=
  match p with
  | Missed k' | Locked k' | Inserting k' _ => k = k'
  | _ => False
  end.

Record inv (m0 : list (nat * nat)) (progs : nat -> list nat) (s : rstate) : Prop := {
  i_keys : NoDup (map fst (r_map s));
  i_objs : NoDup (map snd (r_map s));
  i_old : forall k o, In (k, o) (r_map s) -> o < r_next s;
  i_fresh : forall t k o, t_pc (r_thr s t) = Inserting k o ->
            o < r_next s /\ ~ In o (map snd (r_map s));
  i_m0 : incl m0 (r_map s);
  i_done : forall t k o, In (k, o) (t_done (r_thr s t)) -> In (k, o) (r_map s);
  i_leave : forall t k o, t_pc (r_thr s t) = Leaving k o -> In (k, o) (r_map s);
  i_lock : forall t, holding (t_pc (r_thr s t)) <-> r_lock s = Some t;
  i_pend : forall t k, pending (t_pc (r_thr s t)) k ->
           ~ In k (map fst m0) /\
           exists l1 l2, r_log s = l1 ++ EMiss t k :: l2 /\
             (In k (map fst (r_map s)) -> exists t', t' <> t /\ In (EIns t' k) l1);
  i_log : forall t k, In (EIns t k) (r_log s) ->
          In k (map fst (r_map s)) /\ In k (progs t);
  i_order : forall t, rev (map fst (t_done (r_thr s t))) ++ current (t_pc (r_thr s t))
                      ++ t_todo (r_thr s t) = progs t
}.

Lemma inv_init : forall m0 n0 progs, start_ok m0 n0 -> inv m0 progs (rinit m0 n0 progs).
Proof.
  intros m0 n0 progs (H1 & H2 & H3).
  split; simpl; auto; try tauto; try discriminate; try apply incl_refl.
  intros t; split; [tauto|discriminate].
Qed.

Ltac dthr u t :=
  destruct (Nat.eq_dec u t) as [->|?];
  [rewrite ?tset_eq in *; cbn [t_pc t_todo t_done set_pc] in * | rewrite ?tset_neq in * by assumption].

Lemma inv_with_pc_free : forall m0 progs s t x,
  inv m0 progs s ->
  ~ holding (t_pc (r_thr s t)) -> ~ holding (t_pc x) ->
  (forall k, ~ pending (t_pc x) k) ->
  (forall k o, In (k, o) (t_done x) -> In (k, o) (r_map s)) ->
  rev (map fst (t_done x)) ++ current (t_pc x) ++ t_todo x = progs t ->
  inv m0 progs (with_thr s t x).
Proof.
  intros m0 progs s t x I Hh Hx Hp Hd Ho. destruct I.
  split; simpl; auto.
  - intros u k o H. dthr u t; [rewrite H in Hx; simpl in Hx; tauto|eauto].
  - intros u k o H. dthr u t; eauto.
  - intros u k o H. dthr u t; [rewrite H in Hx; simpl in Hx; tauto|eauto].
  - intros u. dthr u t; [|auto]. specialize (i_lock0 t). tauto.
  - intros u k H. dthr u t; [exfalso; eapply Hp; eauto|eauto].
  - intros u. dthr u t; auto.
Qed.

Lemma inv_step : forall debug m0 progs t s s',
  inv m0 progs s -> fire debug t s = Some s' -> inv m0 progs s'.
Proof.
  intros debug m0 progs t s s' I F. unfold fire in F.
  destruct (r_abort s); [discriminate|].
  destruct (t_pc (r_thr s t)) as [|k|k|k|k o|k o] eqn:P.
  - destruct (t_todo (r_thr s t)) as [|k r] eqn:T; [discriminate|].
    injection F as <-. apply inv_with_pc_free; simpl; auto.
    + rewrite P; simpl; tauto.
    + apply (i_done _ _ _ I).
    + generalize (i_order _ _ _ I t). rewrite P, T. simpl. auto.
  - destruct (assoc k (r_map s)) as [o|] eqn:A.
    + injection F as <-. apply inv_with_pc_free; simpl; auto.
      * rewrite P; simpl; tauto.
      * intros k' o' [E|H]; [injection E as -> ->; now apply assoc_In|].
        eapply i_done; eauto.
      * generalize (i_order _ _ _ I t). rewrite P. simpl.
        rewrite <- app_assoc. simpl. auto.
    + injection F as <-. pose proof (proj1 (assoc_None _ _ _) A) as N. destruct I.
      split; simpl; auto.
      * intros u k' o H. dthr u t; [discriminate|eauto].
      * intros u k' o H. dthr u t; eauto.
      * intros u k' o H. dthr u t; [discriminate|eauto].
      * intros u. dthr u t; auto. specialize (i_lock0 t). rewrite P in i_lock0. simpl in *. tauto.
      * intros u k' H. dthr u t.
        -- simpl in H. subst k'. split.
           ++ intros H. apply N. apply in_map_iff in H. destruct H as ([a b] & E & H).
              simpl in E; subst a. apply in_map_iff. exists (k, b). split; auto.
           ++ exists [], (r_log s). split; auto. tauto.
        -- destruct (i_pend0 u k' H) as (H1 & l1 & l2 & E & H2). split; auto.
           exists (EMiss t k :: l1), l2. split; [rewrite E; reflexivity|].
           intros H3. destruct (H2 H3) as (t' & ? & ?). exists t'. split; auto. now right.
      * intros u k' [H|H]; [discriminate|eauto].
      * intros u. dthr u t; auto. generalize (i_order0 t). rewrite P. simpl. auto.
  - destruct (r_lock s) as [u0|] eqn:L; [discriminate|]. injection F as <-. destruct I.
    assert (NH : forall u, ~ holding (t_pc (r_thr s u))).
    { intros u H. apply i_lock0 in H. congruence. }
    split; simpl; auto.
    + intros u k' o H. dthr u t; [discriminate|eauto].
    + intros u k' o H. dthr u t; eauto.
    + intros u k' o H. dthr u t; [discriminate|eauto].
    + intros u. dthr u t; simpl; [tauto|]. split; [intros H; elim (NH _ H)|congruence].
    + intros u k' H. dthr u t; [|eauto]. simpl in H; subst. apply i_pend0. rewrite P; simpl; auto.
    + intros u. dthr u t; auto. generalize (i_order0 t). rewrite P. simpl. auto.
  - injection F as <-. destruct I.
    assert (L : r_lock s = Some t) by (apply i_lock0; rewrite P; simpl; auto).
    split; simpl; auto.
    + intros k' o H. specialize (i_old0 _ _ H). lia.
    + intros u k' o H. dthr u t.
      * simpl in H. injection H as _ <-. split; [lia|]. intros H.
        apply in_map_iff in H. destruct H as ([a b] & E & H). simpl in E. subst b.
        specialize (i_old0 _ _ H). lia.
      * destruct (i_fresh0 _ _ _ H). split; auto; lia.
    + intros u k' o H. dthr u t; eauto.
    + intros u k' o H. dthr u t; [discriminate|eauto].
    + intros u. dthr u t; simpl; [tauto|auto].
    + intros u k' H. dthr u t; [|eauto]. simpl in H; subst. apply i_pend0. rewrite P; simpl; auto.
    + intros u. dthr u t; auto. generalize (i_order0 t). rewrite P. simpl. auto.
  - assert (L : r_lock s = Some t) by (apply (i_lock _ _ _ I); rewrite P; simpl; auto).
    assert (OH : forall u, u <> t -> ~ holding (t_pc (r_thr s u))).
    { intros u Hu H. apply (i_lock _ _ _ I) in H. congruence. }
    destruct (assoc k (r_map s)) as [o'|] eqn:A.
    + destruct debug; injection F as <-; destruct I; [split; simpl; auto|].
      split; simpl; auto.
      * intros u k' o1 H. dthr u t; [discriminate|eauto].
      * intros u k' o1 H. dthr u t; eauto.
      * intros u k' o1 H. dthr u t; [|eauto]. simpl in H. injection H as <- <-. now apply assoc_In.
      * intros u. dthr u t; simpl; [tauto|auto].
      * intros u k' H. dthr u t; [simpl in H; tauto|eauto].
      * intros u. dthr u t; auto. generalize (i_order0 t). rewrite P. simpl. auto.
    + injection F as <-. pose proof (proj1 (assoc_None _ _ _) A) as N. destruct I.
      destruct (i_fresh0 _ _ _ P) as (O1 & O2).
      split; simpl; auto.
      * constructor; auto.
      * constructor; auto.
      * intros k' o' [E|H]; [injection E as <- <-; auto|eauto].
      * intros u k' o1 H. dthr u t; [discriminate|].
        elim (OH u); auto. rewrite H; simpl; auto.
      * intros a H. right. auto.
      * intros u k' o1 H. dthr u t; right; eauto.
      * intros u k' o1 H. dthr u t; [simpl in H; injection H as <- <-; auto|right; eauto].
      * intros u. dthr u t; simpl; [tauto|auto].
      * intros u k' H. dthr u t; [simpl in H; tauto|].
        destruct (i_pend0 u k' H) as (H1 & l1 & l2 & E & H2). split; auto.
        exists (EIns t k :: l1), l2. split; [rewrite E; reflexivity|].
        intros [->|H3]; [exists t; split; [congruence|now left]|].
        destruct (H2 H3) as (t' & ? & ?). exists t'. split; auto. now right.
      * intros u k' [E|H].
        -- injection E as <- <-. split; auto. rewrite <- (i_order0 t), P. simpl.
           apply in_or_app. right. now left.
        -- destruct (i_log0 _ _ H). auto.
      * intros u. dthr u t; auto. generalize (i_order0 t). rewrite P. simpl. auto.
  - injection F as <-. destruct I.
    assert (L : r_lock s = Some t) by (apply i_lock0; rewrite P; simpl; auto).
    assert (OH : forall u, u <> t -> ~ holding (t_pc (r_thr s u))).
    { intros u Hu H. apply i_lock0 in H. congruence. }
    split; simpl; auto.
    + intros u k' o1 H. dthr u t; [discriminate|eauto].
    + intros u k' o1 H. dthr u t; [|eauto]. simpl in H. destruct H as [E|H]; [|eauto].
      injection E as <- <-. eauto.
    + intros u k' o1 H. dthr u t; [discriminate|eauto].
    + intros u. dthr u t; simpl; [split; [tauto|discriminate]|].
      split; [intros H; elim (OH u); auto|discriminate].
    + intros u k' H. dthr u t; [simpl in H; tauto|eauto].
    + intros u. dthr u t; auto. generalize (i_order0 t). rewrite P. simpl.
      rewrite <- app_assoc. simpl. auto.
Qed.

Lemma rrun_app : forall debug l1 l2 s,
  rrun debug s (l1 ++ l2) =
  match rrun debug s l1 with None => None | Some s' => rrun debug s' l2 end.
Proof.
  induction l1; simpl; intros; auto. destruct (fire debug a s); auto.
Qed.

Lemma inv_run : forall debug m0 progs sched s s',
  inv m0 progs s -> rrun debug s sched = Some s' -> inv m0 progs s'.
Proof.
  induction sched; simpl; intros s s' I R; [congruence|].
  destruct (fire debug a s) eqn:F; [|discriminate].
  eapply IHsched; [eapply inv_step; eauto|eauto].
Qed.

Lemma inv_reach : forall debug m0 n0 progs s,
  start_ok m0 n0 -> rreach debug m0 n0 progs s -> inv m0 progs s.
Proof.
  intros debug m0 n0 progs s H (sched & R). eapply inv_run; [apply inv_init; eauto|eauto].
Qed.

Lemma map_mono_step : forall debug t s s',
  fire debug t s = Some s' -> incl (r_map s) (r_map s').
Proof.
  intros debug t s s' F a H. unfold fire in F. destruct (r_abort s); [discriminate|].
  destruct (t_pc (r_thr s t)).
  - destruct (t_todo _); [discriminate|]. injection F as <-; auto.
  - destruct (assoc _ _); injection F as <-; auto.
  - destruct (r_lock s); [discriminate|]. injection F as <-; auto.
  - injection F as <-; auto.
  - destruct (assoc _ _); [destruct debug|]; injection F as <-; simpl; auto.
  - injection F as <-; auto.
Qed.

Lemma map_mono : forall debug sched s s',
  rrun debug s sched = Some s' -> incl (r_map s) (r_map s').
Proof.
  induction sched; simpl; intros s s' R; [injection R as <-; intros x H; exact H|].
  destruct (fire debug a s) eqn:F; [|discriminate].
  eapply incl_tran; [eapply map_mono_step; eauto|eauto].
Qed.

(** C08 *)
Lemma one_object : forall debug m0 n0 progs s,
  start_ok m0 n0 -> rreach debug m0 n0 progs s ->
  (forall k o o', registered s k o -> registered s k o' -> o = o') /\
  (forall k k' o, registered s k o -> registered s k' o -> k = k') /\
  (forall t k o, In (k, o) (t_done (r_thr s t)) -> registered s k o) /\
  (forall t, exists rest, progs t = rev (map fst (t_done (r_thr s t))) ++ rest) /\
  (forall sched s' k o, rrun debug s sched = Some s' -> registered s k o -> registered s' k o).
Proof.
  intros debug m0 n0 progs s H R. pose proof (inv_reach _ _ _ _ _ H R) as I.
  repeat split.
  - intros k o o' A B. apply (In_assoc _ _ _ _ (i_keys _ _ _ I)) in A, B. congruence.
  - intros k k' o A B. pose proof (i_objs _ _ _ I) as ND. unfold registered in *.
    revert ND A B. generalize (r_map s) as l. induction l as [|[a b] l IH]; simpl; [tauto|].
    intros ND. inversion ND as [|? ? NI ND']; subst.
    intros [A|A] [B|B]; try congruence; auto.
    + injection A as -> ->. exfalso. apply NI. apply in_map_iff. exists (k', o). auto.
    + injection B as -> ->. exfalso. apply NI. apply in_map_iff. exists (k, o). auto.
  - apply (i_done _ _ _ I).
  - intros t. eexists. symmetry. apply (i_order _ _ _ I).
  - intros sched s' k o E. apply (map_mono _ _ _ _ E).
Qed.

(** C09 *)
Lemma abort_origin : forall debug m0 n0 progs s,
  rreach debug m0 n0 progs s -> r_abort s = true ->
  debug = true /\ exists t k o, t_pc (r_thr s t) = Inserting k o /\ In k (map fst (r_map s)).
Proof.
  intros debug m0 n0 progs s (sched & R) A.
  destruct (@exists_last _ sched) as (l & t & ->).
  { intros ->. simpl in R. injection R as <-. discriminate. }
  rewrite rrun_app in R. destruct (rrun debug _ l) as [s1|]; [|discriminate].
  simpl in R. destruct (fire debug t s1) as [s2|] eqn:F; [|discriminate].
  injection R as ->. unfold fire in F. destruct (r_abort s1) eqn:A1; [discriminate|].
  destruct (t_pc (r_thr s1 t)) as [|k|k|k|k o|k o] eqn:P.
  - destruct (t_todo _); [discriminate|]. injection F as <-; simpl in A; congruence.
  - destruct (assoc _ _); injection F as <-; simpl in A; congruence.
  - destruct (r_lock s1); [discriminate|]. injection F as <-; simpl in A; congruence.
  - injection F as <-; simpl in A; congruence.
  - destruct (assoc k (r_map s1)) as [o'|] eqn:B.
    + destruct debug; injection F as <-; simpl in *; [|congruence].
      split; auto. exists t, k, o. split; auto. apply assoc_In in B.
      apply in_map_iff. exists (k, o'). auto.
    + injection F as <-; simpl in A; congruence.
  - injection F as <-; simpl in A; congruence.
Qed.

Lemma pending_in_prog : forall m0 progs s t k,
  inv m0 progs s -> pending (t_pc (r_thr s t)) k -> In k (progs t).
Proof.
  intros m0 progs s t k I P. rewrite <- (i_order _ _ _ I t).
  apply in_or_app. right. apply in_or_app. left.
  destruct (t_pc (r_thr s t)); simpl in *; try tauto; subst; auto.
Qed.

Lemma abort_needs_sharing : forall debug m0 n0 progs s,
  start_ok m0 n0 -> rreach debug m0 n0 progs s -> r_abort s = true ->
  debug = true /\
  exists t t' k, t <> t' /\ In k (progs t) /\ In k (progs t') /\ ~ In k (map fst m0) /\
                 inserted_after_miss s t t' k.
Proof.
  intros debug m0 n0 progs s H R A.
  destruct (abort_origin _ _ _ _ _ R A) as (D & t & k & o & P & K). split; auto.
  pose proof (inv_reach _ _ _ _ _ H R) as I.
  assert (PP : pending (t_pc (r_thr s t)) k) by (rewrite P; reflexivity).
  destruct (i_pend _ _ _ I t k PP) as (N0 & l1 & l2 & E & W).
  destruct (W K) as (t' & NE & IN).
  exists t, t', k. repeat split; auto.
  - eapply pending_in_prog; eauto.
  - eapply (i_log _ _ _ I). rewrite E. apply in_or_app. left. eauto.
  - apply in_split in IN. destruct IN as (a & b & ->). exists a, b, l2.
    rewrite E, <- app_assoc. reflexivity.
Qed.

Lemma abort_exact : forall m0 n0 progs s t k o,
  start_ok m0 n0 -> rreach true m0 n0 progs s -> r_abort s = false ->
  t_pc (r_thr s t) = Inserting k o ->
  ((exists s', fire true t s = Some s' /\ r_abort s' = true) <->
   exists t', t' <> t /\ inserted_after_miss s t t' k).
Proof.
  intros m0 n0 progs s t k o H R NA P. pose proof (inv_reach _ _ _ _ _ H R) as I.
  unfold fire. rewrite NA, P. split.
  - intros (s' & F & A). destruct (assoc k (r_map s)) as [o'|] eqn:B.
    + assert (PP : pending (t_pc (r_thr s t)) k) by (rewrite P; reflexivity).
      destruct (i_pend _ _ _ I t k PP) as (N0 & l1 & l2 & E & W).
      destruct W as (t' & NE & IN).
      { apply assoc_In in B. apply in_map_iff. exists (k, o'). auto. }
      exists t'. split; auto. apply in_split in IN. destruct IN as (a & b & ->).
      exists a, b, l2. rewrite E, <- app_assoc. reflexivity.
    + injection F as <-. discriminate.
  - intros (t' & NE & a & b & c & E).
    assert (K : In k (map fst (r_map s))).
    { eapply (i_log _ _ _ I t'). rewrite E. apply in_or_app. right. now left. }
    destruct (assoc k (r_map s)) as [o'|] eqn:B.
    + eexists. split; reflexivity.
    + apply assoc_None in B. tauto.
Qed.

(** Schedule of C09: both threads miss, then both insert. *)
Definition clash (t t' : nat) : list nat := [t; t; t'; t'; t; t; t; t; t'; t'; t'].

Lemma clash_aborts : forall n0 progs t t' k r r',
  t <> t' -> progs t = k :: r -> progs t' = k :: r' ->
  exists s, rrun true (rinit [] n0 progs) (clash t t') = Some s /\ r_abort s = true.
Proof.
  intros n0 progs t t' k r r' NE P P'. unfold clash.
  assert (E1 : Nat.eqb t t' = false) by (apply Nat.eqb_neq; auto).
  assert (E2 : Nat.eqb t' t = false) by (apply Nat.eqb_neq; auto).
  cbn [rrun]. unfold fire, with_thr, set_pc, tset, rinit.
  repeat (cbn -[Nat.eqb]; rewrite ?E1, ?E2, ?Nat.eqb_refl, ?P, ?P').
  eexists. split; reflexivity.
Qed.

(** C10 *)
Lemma race_needs : forall debug m0 n0 progs s,
  start_ok m0 n0 -> rreach debug m0 n0 progs s -> racing s ->
  exists t t' k', t <> t' /\ progs t <> [] /\ In k' (progs t') /\ ~ In k' (map fst m0).
Proof.
  intros debug m0 n0 progs s H R (t & t' & k & k' & o' & NE & P & P').
  pose proof (inv_reach _ _ _ _ _ H R) as I.
  exists t, t', k'. repeat split; auto.
  - rewrite <- (i_order _ _ _ I t), P. simpl. intros E. apply app_eq_nil in E.
    destruct E; discriminate.
  - eapply pending_in_prog; eauto. rewrite P'. reflexivity.
  - eapply (i_pend _ _ _ I t'). rewrite P'. reflexivity.
Qed.

Lemma reach_insert : forall debug l t s,
  r_abort s = false -> r_lock s = None -> t_pc (r_thr s t) = Ready ->
  t_todo (r_thr s t) = l ->
  (exists k, In k l /\ ~ In k (map fst (r_map s))) ->
  exists sched s' k o, rrun debug s sched = Some s' /\ r_abort s' = false /\
    t_pc (r_thr s' t) = Inserting k o /\
    forall u, u <> t -> r_thr s' u = r_thr s u.
Proof.
  induction l as [|a l IH]; intros t s NA L P T (k & Hin & N); [destruct Hin|].
  destruct (assoc a (r_map s)) as [o|] eqn:A.
  - (* hit: two steps, then the rest *)
    set (s1 := with_thr s t {| t_pc := Reading a; t_todo := l; t_done := t_done (r_thr s t) |}).
    set (s2 := with_thr s1 t {| t_pc := Ready; t_todo := l;
                                t_done := (a, o) :: t_done (r_thr s t) |}).
    assert (F1 : fire debug t s = Some s1) by (unfold fire; rewrite NA, P, T; reflexivity).
    assert (F2 : fire debug t s1 = Some s2).
    { unfold fire, s2, s1. simpl. rewrite NA, tset_eq. simpl. rewrite A. reflexivity. }
    destruct (IH t s2) as (sched & s' & k' & o' & R & NA' & P' & Q).
    + exact NA.
    + exact L.
    + unfold s2; simpl. now rewrite tset_eq.
    + unfold s2; simpl. now rewrite tset_eq.
    + exists k. split; auto. destruct Hin as [->|]; auto.
      exfalso. apply N. apply assoc_In in A. apply in_map_iff. exists (k, o). auto.
    + exists (t :: t :: sched), s', k', o'. repeat split; auto.
      * simpl. rewrite F1. simpl. rewrite F2. exact R.
      * intros u Hu. rewrite Q by auto. unfold s2, s1; simpl. now rewrite !tset_neq.
  - exists [t; t; t; t]. cbn [rrun]. unfold fire at 1. rewrite NA, P, T.
    cbn [rrun]. unfold fire at 1. simpl. rewrite NA, tset_eq. simpl. rewrite A.
    unfold fire at 1. simpl. rewrite tset_eq. simpl. rewrite L.
    unfold fire at 1. simpl. rewrite tset_eq. simpl.
    do 3 eexists. split; [reflexivity|]. simpl. split; auto. rewrite tset_eq. simpl.
    split; [reflexivity|]. intros u Hu. now rewrite !tset_neq.
Qed.

Lemma race_reachable : forall debug m0 n0 progs t t' k',
  t <> t' -> progs t <> [] -> In k' (progs t') -> ~ In k' (map fst m0) ->
  exists s, rreach debug m0 n0 progs s /\ r_abort s = false /\ racing s.
Proof.
  intros debug m0 n0 progs t t' k' NE P Hin N.
  destruct (reach_insert debug (progs t') t' (rinit m0 n0 progs))
    as (sched & s & k & o & R & NA & P' & Q); simpl; eauto.
  destruct (progs t) as [|a l] eqn:E; [congruence|].
  set (s' := with_thr s t {| t_pc := Reading a; t_todo := l; t_done := t_done (r_thr s t) |}).
  exists s'. split; [|split].
  - exists (sched ++ [t]). rewrite rrun_app, R. simpl. unfold fire. rewrite NA.
    replace (t_pc (r_thr s t)) with Ready by (rewrite Q by auto; reflexivity).
    replace (t_todo (r_thr s t)) with (a :: l) by (rewrite Q by auto; simpl; auto).
    reflexivity.
  - exact NA.
  - exists t, t', a, k, o. split; auto. unfold s'; simpl. rewrite tset_eq. simpl. split; auto.
    rewrite tset_neq by auto. exact P'.
Qed.

(** C66: no deadlock, bounded number of steps. *)
Lemma progress : forall debug m0 n0 progs s,
  start_ok m0 n0 -> rreach debug m0 n0 progs s -> r_abort s = false ->
  (exists t, ~ finished s t) -> exists u s', fire debug u s = Some s'.
Proof.
  intros debug m0 n0 progs s H R NA (t & NF). pose proof (inv_reach _ _ _ _ _ H R) as I.
  assert (HH : forall u, holding (t_pc (r_thr s u)) -> exists s', fire debug u s = Some s').
  { intros u. unfold fire. rewrite NA.
    destruct (t_pc (r_thr s u)); simpl; try tauto; intros _; try (eexists; reflexivity).
    destruct (assoc k (r_map s)); [destruct debug|]; eexists; reflexivity. }
  destruct (t_pc (r_thr s t)) eqn:P.
  - exists t. unfold fire. rewrite NA, P. destruct (t_todo (r_thr s t)) eqn:T;
      [elim NF; split; auto|eexists; reflexivity].
  - exists t. unfold fire. rewrite NA, P. destruct (assoc k (r_map s)); eexists; reflexivity.
  - destruct (r_lock s) as [u|] eqn:L.
    + exists u. apply HH. apply (i_lock _ _ _ I). auto.
    + exists t. unfold fire. rewrite NA, P, L. eexists; reflexivity.
  - exists t. apply HH. rewrite P. simpl; auto.
  - exists t. apply HH. rewrite P. simpl; auto.
  - exists t. apply HH. rewrite P. simpl; auto.
Qed.

(** Steps a thread may still take. *)
Definition left_steps (th : thread) : nat :=
  6 * length (t_todo th) +
  match t_pc th with
  | Ready => 0 | Reading _ => 5 | Missed _ => 4 | Locked _ => 3 | Inserting _ _ => 2
  | Leaving _ _ => 1
  end.

Lemma total_ext : forall f g n, (forall i, i < n -> f i = g i) -> total f n = total g n.
Proof. induction n; simpl; intros; auto. rewrite IHn, H; auto. Qed.

Lemma total_dec : forall f g t n,
  t < n -> (forall i, i <> t -> f i = g i) -> f t < g t -> total f n < total g n.
Proof.
  induction n; simpl; intros L E D; [lia|].
  destruct (Nat.eq_dec t n) as [->|].
  - rewrite (total_ext f g n); [lia|]. intros; apply E; lia.
  - rewrite (E n) by auto. assert (total f n < total g n) by (apply IHn; auto; lia). lia.
Qed.

(** Steps left including the one of an abort. *)
Definition budget (s : rstate) (n : nat) : nat :=
  total (fun t => left_steps (r_thr s t)) n.

Lemma budget_step : forall debug t s s' n,
  (forall u, n <= u -> t_pc (r_thr s u) = Ready /\ t_todo (r_thr s u) = []) ->
  fire debug t s = Some s' ->
  (forall u, n <= u -> t_pc (r_thr s' u) = Ready /\ t_todo (r_thr s' u) = []) /\
  (r_abort s' = true \/ budget s' n < budget s n) /\ budget s' n <= budget s n /\
  r_abort s = false /\ 0 < budget s n.
Proof.
  intros debug t s s' n Hn F.
  assert (T : t < n).
  { destruct (le_lt_dec n t) as [L|]; auto. destruct (Hn t L) as (A & B).
    unfold fire in F. rewrite A, B in F. destruct (r_abort s); discriminate. }
  assert (C : r_abort s = false /\ (forall u, u <> t -> r_thr s' u = r_thr s u) /\
              ((r_abort s' = true /\ r_thr s' t = r_thr s t /\ 0 < left_steps (r_thr s t)) \/
               left_steps (r_thr s' t) < left_steps (r_thr s t))).
  { unfold fire in F. destruct (r_abort s) eqn:AB; [discriminate|]. split; auto.
    unfold left_steps.
    destruct (t_pc (r_thr s t)) as [|k|k|k|k o|k o] eqn:P.
    - destruct (t_todo (r_thr s t)) as [|k r] eqn:TD; [discriminate|]. injection F as <-. simpl.
      rewrite tset_eq. split; [intros; now apply tset_neq|]. right. simpl. lia.
    - destruct (assoc _ _); injection F as <-; simpl; rewrite tset_eq;
        (split; [intros; now apply tset_neq|]); right; simpl; lia.
    - destruct (r_lock s); [discriminate|]. injection F as <-; simpl; rewrite tset_eq;
        (split; [intros; now apply tset_neq|]); right; simpl; lia.
    - injection F as <-; simpl; rewrite tset_eq;
        (split; [intros; now apply tset_neq|]); right; simpl; lia.
    - destruct (assoc _ _); [destruct debug|]; injection F as <-; simpl.
      + split; auto. left. split; auto. split; auto. lia.
      + rewrite tset_eq; (split; [intros; now apply tset_neq|]); right; simpl; lia.
      + rewrite tset_eq; (split; [intros; now apply tset_neq|]); right; simpl; lia.
    - injection F as <-; simpl; rewrite tset_eq;
        (split; [intros; now apply tset_neq|]); right; simpl; lia. }
  destruct C as (C1 & C2 & C3).
  split; [|].
  { intros u L. rewrite C2 by lia. auto. }
  assert (PB : 0 < left_steps (r_thr s t) -> 0 < budget s n).
  { intros Q. unfold budget. assert (left_steps (r_thr s t) <= total (fun t => left_steps (r_thr s t)) n).
    { clear -T. induction n; simpl; [lia|]. destruct (Nat.eq_dec t n); [subst; lia|].
      assert (t < n) by lia. specialize (IHn H). lia. } lia. }
  destruct C3 as [(A & E & Q)|D].
  - assert (budget s' n = budget s n) as ->.
    { unfold budget. apply total_ext. intros i _. destruct (Nat.eq_dec i t) as [->|];
        [rewrite E|rewrite C2 by auto]; auto. }
    auto.
  - assert (budget s' n < budget s n).
    { unfold budget. apply (total_dec _ _ t); auto. intros i Hi. now rewrite C2. }
    repeat split; auto; lia.
Qed.

Lemma run_bounded : forall debug n sched s s',
  (forall u, n <= u -> t_pc (r_thr s u) = Ready /\ t_todo (r_thr s u) = []) ->
  rrun debug s sched = Some s' -> length sched <= budget s n.
Proof.
  induction sched as [|t l IH]; simpl; intros s s' Hn R; [lia|].
  destruct (fire debug t s) as [s1|] eqn:F; [|discriminate].
  destruct (budget_step _ _ _ _ _ Hn F) as (H1 & H2 & H3 & H4 & H5).
  destruct H2 as [A|D].
  - destruct l as [|u l]; [simpl; lia|]. simpl in R. unfold fire in R. rewrite A in R. discriminate.
  - specialize (IH _ _ H1 R). lia.
Qed.

Lemma total_mul : forall c f n, total (fun t => c * f t) n = c * total f n.
Proof. induction n; simpl; intros; [lia|]. rewrite IHn. lia. Qed.

Lemma schedules_bounded : forall debug m0 n0 progs n sched s,
  (forall t, n <= t -> progs t = []) ->
  rrun debug (rinit m0 n0 progs) sched = Some s ->
  length sched <= 6 * total (fun t => length (progs t)) n.
Proof.
  intros debug m0 n0 progs n sched s Hn R.
  assert (length sched <= budget (rinit m0 n0 progs) n).
  { eapply run_bounded; eauto. simpl. auto. }
  assert (budget (rinit m0 n0 progs) n = 6 * total (fun t => length (progs t)) n).
  { rewrite <- total_mul. apply total_ext. intros. unfold left_steps, rinit. simpl. lia. }
  lia.
Qed.

(** A schedule that cannot be continued has completed every lookup. *)
Lemma stuck_complete : forall debug m0 n0 progs s,
  start_ok m0 n0 -> rreach debug m0 n0 progs s -> r_abort s = false ->
  (forall u, fire debug u s = None) ->
  forall t, map fst (rev (t_done (r_thr s t))) = progs t /\
            forall k, In k (progs t) -> exists o, In (k, o) (t_done (r_thr s t)) /\ registered s k o.
Proof.
  intros debug m0 n0 progs s H R NA ST t.
  assert (F : finished s t).
  { destruct (t_pc (r_thr s t)) eqn:P; [destruct (t_todo (r_thr s t)) eqn:T|..].
    1: split; auto.
    all: exfalso; edestruct (progress debug m0 n0 progs s) as (u & s' & E); eauto;
      try (specialize (ST u); congruence);
      exists t; intros (A & B); congruence. }
  destruct F as (A & B). pose proof (inv_reach _ _ _ _ _ H R) as I.
  pose proof (i_order _ _ _ I t) as O. rewrite A, B in O. simpl in O. rewrite app_nil_r in O.
  rewrite map_rev. split; auto. intros k K. rewrite <- O in K. apply in_rev in K.
  apply in_map_iff in K. destruct K as ([a o] & E & K). simpl in E; subst a.
  exists o. split; auto. eapply i_done; eauto.
Qed.
