(** Proofs about timed sections: all runs are enumerated, the enumeration is
    proved complete, and checked. *)
From Coq Require Import List String Bool Arith Lia.
From Verif Require Import TimeModel TimeSpec.
Import ListNotations.
Open Scope string_scope.
Open Scope list_scope.

(** ** All possible runs. *)
Definition answers : list (option exn) := [None; Some DuneExc; Some StdExc; Some OtherExc].
Fixpoint outs (p : prog) : list (list event * option exn) :=
  match p with
  | Skip => [([], None)]
  | Emit e => [([e], None)]
  | Call c => map (fun r => ([Called c r], r)) answers
  | Seq p q =>
    flat_map (fun o => match snd o with
                       | None => map (fun o' => (fst o ++ fst o', snd o')) (outs q)
                       | Some e => [o]
                       end) (outs p)
  | Scoped s p => map (fun o => (Start s :: fst o ++ [Stop s], snd o)) (outs p)
  | Try p => map (fun o => (fst o, match snd o with Some DuneExc => None | r => r end)) (outs p)
  end.

Lemma outs_complete ans p : forall n,
  In (fst (fst (exec ans p n)), snd (exec ans p n)) (outs p).
Proof.
  induction p as [| e | c | p IHp q IHq | s p IHp | p IHp]; intros n; cbn [exec outs].
  - left; reflexivity.
  - left; reflexivity.
  - cbn [fst snd]. apply in_map_iff. exists (ans n). split; [reflexivity|].
    unfold answers. destruct (ans n) as [[]|]; cbn; tauto.
  - apply in_flat_map. specialize (IHp n).
    destruct (exec ans p n) as [[t m] [e|]]; cbn [fst snd] in *.
    + exists (t, Some e). split; [exact IHp|]. left; reflexivity.
    + specialize (IHq m). destruct (exec ans q m) as [[t' m'] r]; cbn [fst snd] in *.
      exists (t, None). split; [exact IHp|]. cbn [fst snd].
      apply in_map_iff. exists (t', r). split; [reflexivity|exact IHq].
  - specialize (IHp n). destruct (exec ans p n) as [[t m] r]; cbn [fst snd] in *.
    apply in_map_iff. exists (t, r). split; [reflexivity|exact IHp].
  - specialize (IHp n). destruct (exec ans p n) as [[t m] r]; cbn [fst snd] in *.
    apply in_map_iff. exists (t, r). split; [destruct r as [[]|]; reflexivity|exact IHp].
Qed.

Definition finish (o : list event * option exn) : list event * ending :=
  match snd o with
  | None => (fst o, Returned)
  | Some OtherExc => (fst o, Killed)
  | Some _ => (fst o ++ [Write], Handled)
  end.

Lemma main_outs p st ans : In (main p st ans) (map finish (outs (body p st))).
Proof.
  apply in_map_iff. unfold main.
  pose proof (outs_complete ans (body p st) 0) as H.
  destruct (exec ans (body p st) 0) as [[t m] r]; cbn [fst snd] in H.
  exists (t, r). split; [|exact H]. unfold finish; cbn [fst snd].
  destruct r as [[]|]; reflexivity.
Qed.

Definition holds (check : program -> settings -> list event * ending -> bool) : Prop :=
  forall p st, forallb (check p st) (map finish (outs (body p st))) = true.
Ltac all_runs := intros [] [[] [] [] []]; vm_compute; reflexivity.

Lemma checked check p st ans : holds check -> check p st (main p st ans) = true.
Proof.
  intros H. specialize (H p st). rewrite forallb_forall in H. apply H. apply main_outs.
Qed.

(** ** Running sections. *)
Definition next (s : section) (b : bool) (e : event) : bool :=
  match e with
  | Start x => if String.eqb x s then true else b
  | Stop x => if String.eqb x s then false else b
  | StopAll => false
  | _ => b
  end.
Definition runningb (t : list event) (s : section) : bool := fold_left (next s) t false.

Lemma runningb_snoc t e s : runningb (t ++ [e]) s = next s (runningb t s) e.
Proof. unfold runningb. rewrite fold_left_app. reflexivity. Qed.

Lemma running_snoc_keep t e s :
  running t s -> e <> Stop s -> e <> StopAll -> running (t ++ [e]) s.
Proof.
  intros (a & b & -> & H1 & H2) H3 H4. exists a, (b ++ [e]).
  split; [rewrite <- app_assoc; reflexivity|].
  split; intros H; apply in_app_or in H as [H|[H|[]]]; auto.
Qed.

Lemma running_snoc_inv t e s :
  running (t ++ [e]) s -> e = Start s \/ (running t s /\ e <> Stop s /\ e <> StopAll).
Proof.
  intros (a & b & E & H1 & H2).
  destruct b as [|y b] using rev_ind.
  - change (a ++ [Start s]) with (a ++ [Start s]) in E.
    apply app_inj_tail in E as [_ ->]. left; reflexivity.
  - clear IHb. change (Start s :: b ++ [y]) with ((Start s :: b) ++ [y]) in E.
    rewrite app_assoc in E. apply app_inj_tail in E as [-> ->].
    right. split; [|split].
    + exists a, b. split; [reflexivity|]. split; intros H; [apply H1|apply H2]; apply in_or_app; auto.
    + intros ->. apply H1. apply in_or_app; right; left; reflexivity.
    + intros ->. apply H2. apply in_or_app; right; left; reflexivity.
Qed.

Lemma runningb_spec t s : runningb t s = true <-> running t s.
Proof.
  induction t as [|e t IH] using rev_ind.
  - split; [discriminate|]. intros (a & b & E & _). destruct a; discriminate.
  - rewrite runningb_snoc. split.
    + intros H. destruct e as [x|x| |x| |c r]; cbn [next] in H.
      * destruct (String.eqb_spec x s) as [->|N].
        -- exists t, []. repeat split; auto.
        -- apply running_snoc_keep; [tauto| |]; discriminate.
      * destruct (String.eqb_spec x s) as [->|N]; [discriminate|].
        apply running_snoc_keep; [tauto| |discriminate]. congruence.
      * discriminate.
      * apply running_snoc_keep; [tauto| |]; discriminate.
      * apply running_snoc_keep; [tauto| |]; discriminate.
      * apply running_snoc_keep; [tauto| |]; discriminate.
    + intros H. apply running_snoc_inv in H as [->|(H & H1 & H2)].
      * cbn [next]. rewrite String.eqb_refl. reflexivity.
      * apply IH in H. destruct e as [x|x| |x| |c r]; cbn [next]; auto.
        { destruct (String.eqb x s); auto. }
        destruct (String.eqb_spec x s) as [->|N]; [congruence|auto].
Qed.

Fixpoint started (t : list event) : list section :=
  match t with [] => [] | Start s :: r => s :: started r | _ :: r => started r end.
Lemma started_spec t s : In s (started t) <-> In (Start s) t.
Proof.
  induction t as [|e t IH]; [reflexivity|].
  destruct e as [x|x| |x| |c r]; cbn [started In]; rewrite IH;
    (split; [intros H; try destruct H as [H|H]|intros [H|H]]); try discriminate; auto; left; congruence.
Qed.
Lemma running_started t s : running t s -> In s (started t).
Proof.
  intros (a & b & -> & _). apply started_spec. apply in_or_app; right; left; reflexivity.
Qed.

(** ** Lawful use. *)
Definition ok_next (pre : list event) (e : event) : bool :=
  match e with
  | Stop s => runningb pre s
  | Ask s => existsb (String.eqb s) (started pre)
  | _ => true
  end.
Fixpoint lawfulb (pre t : list event) : bool :=
  match t with [] => true | e :: r => ok_next pre e && lawfulb (pre ++ [e]) r end.

Lemma lawfulb_at pre t : lawfulb pre t = true -> forall a e b, t = a ++ e :: b -> ok_next (pre ++ a) e = true.
Proof.
  revert pre. induction t as [|x t IH]; intros pre H a e b E.
  - destruct a; discriminate.
  - cbn [lawfulb] in H. apply andb_prop in H as [H1 H2].
    destruct a as [|y a]; cbn in E; injection E as -> ->.
    + rewrite app_nil_r. exact H1.
    + specialize (IH _ H2 a e b eq_refl). rewrite <- app_assoc in IH. exact IH.
Qed.
Lemma lawfulb_spec t : lawfulb [] t = true -> lawful t.
Proof.
  intros H. split; intros a b s E.
  - pose proof (lawfulb_at [] t H _ _ _ E) as K. apply runningb_spec. exact K.
  - pose proof (lawfulb_at [] t H _ _ _ E) as K. cbn in K.
    apply existsb_exists in K as (x & Hx & K). apply String.eqb_eq in K as ->.
    apply started_spec. exact Hx.
Qed.

Lemma lawful_prefix a b : lawful (a ++ b) -> lawful a.
Proof.
  intros [H1 H2]. split; intros c d s ->.
  - apply (H1 c (d ++ b)). rewrite <- app_assoc. reflexivity.
  - apply (H2 c (d ++ b)). rewrite <- app_assoc. reflexivity.
Qed.

Lemma check_lawful : holds (fun _ _ o => lawfulb [] (fst o)).
Proof. all_runs. Qed.

Lemma main_lawful p st ans : lawful (fst (main p st ans)).
Proof. apply lawfulb_spec. apply (checked _ p st ans check_lawful). Qed.

Lemma split_tail {A} (u v a b : list A) (x : A) :
  u ++ v = a ++ x :: b -> ~ In x v -> exists b', u = a ++ x :: b' /\ b = b' ++ v.
Proof.
  revert a. induction u as [|y u IH]; intros a E N.
  - exfalso. apply N. cbn in E. rewrite E. apply in_or_app; right; left; reflexivity.
  - destruct a as [|z a]; cbn in E; injection E as -> E.
    + exists u. split; [reflexivity|congruence].
    + destruct (IH a E N) as (b' & -> & ->). exists b'. split; reflexivity.
Qed.

Lemma interrupted_lawful k t : lawful t -> lawful (interrupted k t).
Proof.
  intros H. unfold interrupted. rewrite <- (firstn_skipn k t) in H. apply lawful_prefix in H.
  destruct H as [H1 H2]. split; intros a b s E.
  - destruct (split_tail _ _ _ _ _ E) as (b' & Eb & _); [intros [K|[K|[]]]; discriminate|].
    exact (H1 _ _ _ Eb).
  - destruct (split_tail _ _ _ _ _ E) as (b' & Eb & _); [intros [K|[K|[]]]; discriminate|].
    exact (H2 _ _ _ Eb).
Qed.
Lemma interrupted_stopped t s : ~ running (t ++ [StopAll]) s.
Proof.
  intros H. apply running_snoc_inv in H as [H|(_ & _ & H)]; [discriminate|]. apply H. reflexivity.
Qed.

(** ** Nesting. *)
Fixpoint nestb (stack : list section) (t : list event) : bool :=
  match t with
  | [] => match stack with [] => true | _ => false end
  | Start s :: r => negb (existsb (String.eqb s) stack) && nestb (s :: stack) r
  | Stop s :: r => match stack with x :: k => String.eqb s x && nestb k r | [] => false end
  | Called _ _ :: r => nestb stack r
  | Ask _ :: r => nestb stack r
  | _ => false
  end.

Lemma nestb_split n : forall t stack x,
  List.length t <= n -> nestb (x :: stack) t = true ->
  exists a b, t = a ++ Stop x :: b /\ nested a /\ nestb stack b = true /\
              (forall s, In s (x :: stack) -> ~ In (Start s) a).
Proof.
  induction n as [|n IH]; intros t stack x Hn H.
  - destruct t; [discriminate|cbn in Hn; lia].
  - destruct t as [|e t]; [discriminate|]. cbn [List.length] in Hn.
    destruct e as [s|s| |s| |c r]; cbn [nestb] in H; try discriminate.
    + apply andb_prop in H as [H1 H2].
      assert (N : ~ In s (x :: stack)).
      { intros K. apply negb_true_iff in H1. cut (existsb (String.eqb s) (x :: stack) = true); [congruence|].
        apply existsb_exists. exists s. split; [exact K|apply String.eqb_refl]. }
      destruct (IH t (x :: stack) s ltac:(lia) H2) as (a & b & -> & Ha & Hb & Na).
      assert (Hl : List.length b <= n).
      { rewrite app_length in Hn. cbn [List.length] in Hn. lia. }
      destruct (IH b stack x Hl Hb) as (a' & b' & -> & Ha' & Hb' & Na').
      exists (Start s :: a ++ Stop s :: a'), b'. split; [|split; [|split]].
      * cbn. rewrite <- app_assoc. reflexivity.
      * constructor; auto. apply Na. left; reflexivity.
      * exact Hb'.
      * intros y Hy [K|K]; [injection K as ->; contradiction|].
        apply in_app_or in K as [K|[K|K]]; [|discriminate|].
        -- apply (Na y); [right; exact Hy|exact K].
        -- apply (Na' y Hy K).
    + apply andb_prop in H as [H1 H2]. apply String.eqb_eq in H1 as ->.
      exists [], t. repeat split; auto; constructor.
    + destruct (IH t stack x ltac:(lia) H) as (a & b & -> & Ha & Hb & Na).
      exists (Ask s :: a), b. repeat split; auto; [constructor; exact Ha|].
      intros y Hy [K|K]; [discriminate|]. exact (Na y Hy K).
    + destruct (IH t stack x ltac:(lia) H) as (a & b & -> & Ha & Hb & Na).
      exists (Called c r :: a), b. repeat split; auto; [constructor; exact Ha|].
      intros y Hy [K|K]; [discriminate|]. exact (Na y Hy K).
Qed.

Lemma nestb_spec t : nestb [] t = true -> nested t.
Proof.
  remember (List.length t) as n eqn:En. revert t En.
  induction n as [n IH] using lt_wf_ind. intros t -> H.
  destruct t as [|e t]; [constructor|].
  destruct e as [s|s| |s| |c r]; cbn [nestb] in H; try discriminate.
  - apply andb_prop in H as [_ H].
    destruct (nestb_split _ t [] s (le_n _) H) as (a & b & -> & Ha & Hb & Na).
    constructor; auto.
    + apply Na. left; reflexivity.
    + apply (IH (List.length b)); auto. cbn. rewrite app_length. cbn. lia.
  - constructor. apply (IH (List.length t)); auto.
  - constructor. apply (IH (List.length t)); auto.
Qed.

(** ** Successful runs. *)
Definition femfail (g : grid) (e : event) : option step :=
  match e with
  | Called (Fem g' st) (Some DuneExc) =>
    match g, g' with Fine, Fine | Coarse, Coarse => Some st | _, _ => None end
  | _ => None
  end.
Fixpoint failed (g : grid) (t : list event) : list step :=
  match t with
  | [] => []
  | e :: r => match femfail g e with Some st => st :: failed g r | None => failed g r end
  end.
Lemma failed_spec g t st : In st (failed g t) <-> In (Called (Fem g st) (Some DuneExc)) t.
Proof.
  induction t as [|e t IH]; [reflexivity|]. cbn [failed In].
  assert (F : femfail g e = Some st <-> e = Called (Fem g st) (Some DuneExc)).
  { split; [|intros ->; destruct g; reflexivity].
    destruct e as [s|s| |s| |c r]; try discriminate.
    destruct c; try discriminate. destruct r as [[]|]; try discriminate.
    destruct g, g0; cbn; try discriminate; congruence. }
  destruct (femfail g e) as [x|] eqn:E; cbn [In]; rewrite IH.
  - split; intros [H|H]; auto.
    + left. apply F. congruence.
    + left. apply F in H. congruence.
  - split; [auto|]. intros [H|H]; [|exact H]. apply F in H. discriminate.
Qed.
Lemma gave_up_failed g t : gave_up g t <-> failed g t <> [].
Proof.
  split.
  - intros (st & H) E. apply failed_spec in H. rewrite E in H. destruct H.
  - intros H. destruct (failed g t) as [|st l] eqn:E; [congruence|].
    exists st. apply failed_spec. rewrite E. left; reflexivity.
Qed.

(** The part before the profile of a successful run is written. *)
Fixpoint before_write (t : list event) : list event :=
  match t with [] => [] | Write :: _ => [] | e :: r => e :: before_write r end.
Definition event_is_report (e : event) : bool :=
  match e with Called Report None => true | _ => false end.
Fixpoint ends_ok (t : list event) : bool :=
  match t with
  | [] => false
  | [Write; e] => event_is_report e
  | Write :: _ => false
  | _ :: r => ends_ok r
  end.
Lemma ends_ok_spec t : ends_ok t = true ->
  t = before_write t ++ [Write; Called Report None] /\ ~ In Write (before_write t).
Proof.
  induction t as [|e t IH]; [discriminate|].
  destruct e as [s|s| |s| |c r]; cbn [ends_ok before_write]; intros H.
  1,2,3,4,6: destruct (IH H) as [E N]; split; [cbn; congruence|intros [K|K]; [discriminate|auto]].
  destruct t as [|x [|y t]]; try discriminate.
  destruct x as [| | | | |[] [|]]; try discriminate. split; [reflexivity|intros []].
Qed.

Definition eqnat_all (f g : section -> nat) (l : list section) : bool :=
  forallb (fun s => Nat.eqb (f s) (g s)) l.

Definition nilb {A} (l : list A) : bool := match l with [] => true | _ => false end.

Definition check_success (p : program) (st : settings) (o : list event * ending) : bool :=
  match snd o with
  | Returned =>
    let u := before_write (fst o) in
    ends_ok (fst o) &&
    (negb (nilb (failed Fine (fst o)) && nilb (failed Coarse (fst o))) ||
     (nestb [] u && eqnat_all (fun s => starts s u) (times (expected p st)) (started u ++ map fst (expected p st))))
  | _ => true
  end.
Lemma check_success_ok : holds check_success.
Proof. all_runs. Qed.

Lemma starts_absent s t : ~ In s (started t) -> starts s t = 0.
Proof.
  induction t as [|e t IH]; [reflexivity|]. destruct e; cbn [started starts In]; auto.
  intros H. destruct (String.eqb_spec s0 s) as [->|N]; [exfalso; apply H; left; reflexivity|].
  apply IH. intros K. apply H. right; exact K.
Qed.
Lemma times_absent s l : ~ In s (map fst l) -> times l s = 0.
Proof.
  induction l as [|[x n] l IH]; [reflexivity|]. cbn. intros H.
  destruct (String.eqb_spec x s) as [->|N]; [exfalso; apply H; left; reflexivity|]. apply IH. tauto.
Qed.

Lemma returned_shape p st ans t : main p st ans = (t, Returned) ->
  t = before_write t ++ [Write; Called Report None] /\ ~ In Write (before_write t).
Proof.
  intros E. pose proof (checked _ p st ans check_success_ok) as H. rewrite E in H.
  unfold check_success in H. cbn [fst snd] in H. apply andb_prop in H as [H _].
  apply ends_ok_spec. exact H.
Qed.

Lemma nilb_false_failed g t : ~ gave_up g t -> nilb (failed g t) = true.
Proof.
  intros H. destruct (failed g t) eqn:E; [reflexivity|]. exfalso. apply H, gave_up_failed. rewrite E. discriminate.
Qed.

Lemma returned_profile p st ans t : main p st ans = (t, Returned) ->
  ~ gave_up Fine t -> ~ gave_up Coarse t ->
  nested (before_write t) /\ forall s, starts s (before_write t) = times (expected p st) s.
Proof.
  intros E G1 G2. pose proof (checked _ p st ans check_success_ok) as H. rewrite E in H.
  unfold check_success in H. cbn [fst snd] in H. apply andb_prop in H as [_ H].
  rewrite (nilb_false_failed _ _ G1), (nilb_false_failed _ _ G2) in H. cbn [andb negb orb] in H.
  apply andb_prop in H as [H1 H2]. split; [apply nestb_spec; exact H1|].
  intros s. destruct (in_dec string_dec s (started (before_write t) ++ map fst (expected p st))) as [I|I].
  - unfold eqnat_all in H2. rewrite forallb_forall in H2. apply Nat.eqb_eq. apply H2. exact I.
  - rewrite starts_absent, times_absent; auto; intros K; apply I; apply in_or_app; auto.
Qed.

(** ** What keeps running. *)
Definition leftb (t : list event) (s : section) : bool :=
  match failed Coarse t with
  | [] => false
  | x :: _ =>
    String.eqb s "fem.apply" ||
    match stage x with Some y => String.eqb s y | None => false end ||
    existsb (fun y => match stage y with Some z => String.eqb s z | None => false end
                      && Nat.leb (position x) (position y)) (failed Fine t)
  end.
Definition check_left (p : program) (st : settings) (o : list event * ending) : bool :=
  match snd o with
  | Returned =>
    let u := before_write (fst o) in
    Nat.leb (List.length (failed Coarse (fst o))) 1 &&
    forallb (fun s => Bool.eqb (runningb u s) (leftb (fst o) s)) (started u ++ by_hand)
  | _ => true
  end.
Lemma check_left_ok : holds check_left.
Proof. all_runs. Qed.

Lemma leftb_by_hand t s : leftb t s = true -> In s by_hand.
Proof.
  unfold leftb. destruct (failed Coarse t) as [|x l]; [discriminate|].
  assert (S : forall y, match stage y with Some z => String.eqb s z | None => false end = true -> In s by_hand).
  { intros y. destruct y; cbn; try discriminate; intros H; apply String.eqb_eq in H; subst; cbn; tauto. }
  intros H. apply orb_prop in H as [H|H]; [apply orb_prop in H as [H|H]|].
  - apply String.eqb_eq in H; subst. cbn. tauto.
  - exact (S x H).
  - apply existsb_exists in H as (y & _ & H). apply andb_prop in H as [H _]. exact (S y H).
Qed.

Lemma left_running p st ans t s : main p st ans = (t, Returned) ->
  (running (before_write t) s <-> leftb t s = true) /\ (List.length (failed Coarse t) <= 1).
Proof.
  intros E. pose proof (checked _ p st ans check_left_ok) as H. rewrite E in H.
  unfold check_left in H. cbn [fst snd] in H. apply andb_prop in H as [L H].
  split; [|apply Nat.leb_le; exact L].
  rewrite forallb_forall in H. split.
  - intros R. assert (I : In s (started (before_write t) ++ by_hand)).
    { apply in_or_app; left. apply running_started; exact R. }
    specialize (H s I). apply runningb_spec in R. rewrite R in H. destruct (leftb t s); auto.
  - intros K. assert (I : In s (started (before_write t) ++ by_hand)).
    { apply in_or_app; right. apply (leftb_by_hand t); exact K. }
    specialize (H s I). rewrite K in H. apply runningb_spec. destruct (runningb (before_write t) s); auto.
Qed.

Lemma stageb s y :
  match stage y with Some z => String.eqb s z | None => false end = true <-> stage y = Some s.
Proof.
  destruct (stage y) as [z|]; [|split; discriminate]. rewrite String.eqb_eq. split; [intros ->; reflexivity|intros [= ->]; reflexivity].
Qed.

Lemma leftb_nil t s : ~ gave_up Coarse t -> leftb t s = false.
Proof.
  intros H. unfold leftb. destruct (failed Coarse t) eqn:E; [reflexivity|].
  exfalso. apply H, gave_up_failed. rewrite E. discriminate.
Qed.

Lemma leftb_spec t s x : List.length (failed Coarse t) <= 1 ->
  In (Called (Fem Coarse x) (Some DuneExc)) t ->
  (leftb t s = true <->
   s = "fem.apply" \/ stage x = Some s \/
   exists y, In (Called (Fem Fine y) (Some DuneExc)) t /\ stage y = Some s /\ position x <= position y).
Proof.
  intros L I. apply failed_spec in I. unfold leftb.
  destruct (failed Coarse t) as [|x' [|? l]]; [destruct I| |cbn in L; lia].
  destruct I as [<-|[]]. rewrite !orb_true_iff, String.eqb_eq, stageb, existsb_exists. split.
  - intros [[H|H]|(y & H1 & H2)]; auto. right; right. apply andb_prop in H2 as [H2 H3].
    exists y. apply failed_spec in H1. apply stageb in H2. apply Nat.leb_le in H3. auto.
  - intros [H|[H|(y & H1 & H2 & H3)]]; auto. right. exists y. split; [apply failed_spec; exact H1|].
    apply andb_true_intro. split; [apply stageb; exact H2|apply Nat.leb_le; exact H3].
Qed.

(** ** Restarted sections. *)
Fixpoint restartsb (pre t : list event) : bool :=
  match t with
  | [] => false
  | e :: r => (match e with Start s => runningb pre s | _ => false end) || restartsb (pre ++ [e]) r
  end.
Fixpoint restarts_one (x : section) (pre t : list event) : bool :=
  match t with
  | [] => false
  | e :: r => (match e with Start s => String.eqb s x && runningb pre s | _ => false end) ||
              restarts_one x (pre ++ [e]) r
  end.
Lemma restartsb_at pre t a b s : t = a ++ Start s :: b -> running (pre ++ a) s -> restartsb pre t = true.
Proof.
  revert pre a. induction t as [|e t IH]; intros pre a E R; [destruct a; discriminate|].
  cbn [restartsb]. destruct a as [|y a]; cbn in E; injection E as -> E.
  - rewrite app_nil_r in R. apply runningb_spec in R. rewrite R. reflexivity.
  - apply orb_true_intro; right. apply (IH _ a E). rewrite <- app_assoc. exact R.
Qed.
Lemma restarts_one_sound x pre t : restarts_one x pre t = true ->
  exists a b, t = a ++ Start x :: b /\ running (pre ++ a) x.
Proof.
  revert pre. induction t as [|e t IH]; intros pre H; [discriminate|].
  cbn [restarts_one] in H. apply orb_prop in H as [H|H].
  - destruct e; try discriminate. apply andb_prop in H as [H1 H2]. apply String.eqb_eq in H1 as ->.
    exists [], t. split; [reflexivity|]. rewrite app_nil_r. apply runningb_spec. exact H2.
  - destruct (IH _ H) as (a & b & -> & R). exists (e :: a), b. split; [reflexivity|].
    rewrite <- app_assoc in R. exact R.
Qed.
Definition check_restart (p : program) (st : settings) (o : list event * ending) : bool :=
  implb (restartsb [] (fst o)) (negb (nilb (failed Fine (fst o)))) &&
  match snd o with
  | Returned => implb (negb (nilb (failed Fine (fst o)))) (restarts_one "fem.apply" [] (fst o))
  | _ => true
  end.
Lemma check_restart_ok : holds check_restart.
Proof. all_runs. Qed.

Lemma restarts_gave_up p st ans s : restarts (fst (main p st ans)) s -> gave_up Fine (fst (main p st ans)).
Proof.
  intros (a & b & E & R). pose proof (checked _ p st ans check_restart_ok) as H.
  unfold check_restart in H. apply andb_prop in H as [H _].
  rewrite (restartsb_at [] _ a b s E R) in H. apply gave_up_failed.
  destruct (failed Fine (fst (main p st ans))); [discriminate|discriminate].
Qed.
Lemma gave_up_restarts p st ans t : main p st ans = (t, Returned) -> gave_up Fine t -> restarts t "fem.apply".
Proof.
  intros E G. pose proof (checked _ p st ans check_restart_ok) as H. rewrite E in H.
  unfold check_restart in H. cbn [fst snd] in H. apply andb_prop in H as [_ H].
  apply gave_up_failed in G. destruct (failed Fine t) eqn:F; [congruence|]. cbn in H.
  destruct (restarts_one_sound _ _ _ H) as (a & b & K & R). exists a, b. split; assumption.
Qed.

(** ** Handled exceptions. *)
Definition is_frame (e : event) : bool :=
  match e with
  | Called Init (Some _) | Called Gather (Some _) | Called Report (Some _) => true
  | _ => false
  end.
Definition is_write (e : event) : bool := match e with Write => true | _ => false end.
Definition report_failed (e : event) : bool := match e with Called Report (Some _) => true | _ => false end.
Definition last_write (t : list event) : bool := is_write (last t StopAll).
Definition check_handled (p : program) (st : settings) (o : list event * ending) : bool :=
  match snd o with
  | Handled =>
    let u := removelast (fst o) in
    last_write (fst o) &&
    (existsb is_frame u || runningb u (whole p)) &&
    forallb (fun s => implb (runningb u s) (existsb (String.eqb s) by_hand)) (started u) &&
    Bool.eqb (existsb is_write u) (existsb report_failed u)
  | Killed => negb (existsb is_write (fst o)) || existsb report_failed (fst o)
  | Returned => true
  end.
Lemma check_handled_ok : holds check_handled.
Proof. all_runs. Qed.

Lemma handled_facts p st ans t : main p st ans = (t, Handled) -> exists u,
  t = u ++ [Write] /\
  (forall s, running u s -> In s by_hand) /\
  ((exists c e, In c [Init; Gather; Report] /\ In (Called c (Some e)) u) \/ running u (whole p)) /\
  (In Write u <-> exists e, In (Called Report (Some e)) u).
Proof.
  intros E. pose proof (checked _ p st ans check_handled_ok) as H. rewrite E in H.
  unfold check_handled in H. cbn [fst snd] in H.
  apply andb_prop in H as [H H4]. apply andb_prop in H as [H H3]. apply andb_prop in H as [H1 H2].
  exists (removelast t). split; [|split; [|split]].
  - assert (N : t <> []) by (intros ->; discriminate).
    rewrite (app_removelast_last StopAll N) at 1. f_equal. unfold last_write in H1.
    destruct (last t StopAll); try discriminate. reflexivity.
  - intros s R. rewrite forallb_forall in H3. pose proof (H3 s (running_started _ _ R)) as K.
    apply runningb_spec in R. rewrite R in K. cbn [implb] in K.
    apply existsb_exists in K as (x & Hx & K). apply String.eqb_eq in K as ->. exact Hx.
  - apply orb_prop in H2 as [H2|H2]; [left|right; apply runningb_spec; exact H2].
    apply existsb_exists in H2 as (e & He & K).
    destruct e as [| | | | |c r]; try discriminate. destruct r as [x|]; [|destruct c; discriminate].
    exists c, x. split; [|exact He]. destruct c; try discriminate; cbn; tauto.
  - apply Bool.eqb_prop in H4. split.
    + intros I. assert (W : existsb is_write (removelast t) = true).
      { apply existsb_exists. exists Write. split; [exact I|reflexivity]. }
      rewrite H4 in W. apply existsb_exists in W as (e & He & K).
      destruct e as [| | | | |c r]; try discriminate. destruct c; try discriminate.
      destruct r as [x|]; [|discriminate]. exists x. exact He.
    + intros (x & I). assert (W : existsb report_failed (removelast t) = true).
      { apply existsb_exists. eexists. split; [exact I|reflexivity]. }
      rewrite <- H4 in W. apply existsb_exists in W as (e & He & K).
      destruct e; try discriminate. exact He.
Qed.

(** ** Tolerated failures. *)
Definition toleratedb (p : program) (e : event) : bool :=
  match e with
  | Called c (Some DuneExc) =>
    match c, p with
    | Prolong, _ | Fem Coarse _, _ | Fem Fine _, Msfem => true
    | _, _ => false
    end
  | Called _ (Some _) => false
  | _ => true
  end.
Definition check_tolerated (p : program) (st : settings) (o : list event * ending) : bool :=
  Bool.eqb (forallb (toleratedb p) (fst o)) (match snd o with Returned => true | _ => false end).
Lemma check_tolerated_ok : holds check_tolerated.
Proof. all_runs. Qed.

Lemma toleratedb_spec p c e : toleratedb p (Called c (Some e)) = true <-> tolerated p c e.
Proof.
  unfold tolerated. split.
  - destruct e; try discriminate. cbn. intros H. split; [reflexivity|].
    destruct c; try discriminate H; auto.
    match goal with |- Fem ?x _ = _ \/ _ => destruct x end; [|right; left; eauto].
    destruct p; [|discriminate H]. right; right; eauto.
  - intros [-> [->|[(st & ->)|(-> & st & ->)]]]; try destruct p; reflexivity.
Qed.

Definition check_prolong (p : program) (st : settings) (o : list event * ending) : bool :=
  implb (existsb (fun e => match e with Called Prolong _ => true | _ => false end) (fst o))
        (match failed Coarse (fst o) with nil => true | _ => false end).
Lemma check_prolong_ok : holds check_prolong.
Proof. all_runs. Qed.

Lemma tolerated_returns p st ans :
  snd (main p st ans) = Returned <->
  forall c e, In (Called c (Some e)) (fst (main p st ans)) -> tolerated p c e.
Proof.
  pose proof (checked _ p st ans check_tolerated_ok) as H. unfold check_tolerated in H.
  apply Bool.eqb_prop in H. split.
  - intros E c e I. rewrite E in H. rewrite forallb_forall in H. apply toleratedb_spec. exact (H _ I).
  - intros A. cut (forallb (toleratedb p) (fst (main p st ans)) = true).
    { intros K. rewrite K in H. destruct (snd (main p st ans)); try discriminate. reflexivity. }
    apply forallb_forall. intros [s|s| |s| |c [e|]] I; try reflexivity.
    apply toleratedb_spec. exact (A c e I).
Qed.

Lemma prolonged p st ans r :
  In (Called Prolong r) (fst (main p st ans)) -> ~ gave_up Coarse (fst (main p st ans)).
Proof.
  intros I G. pose proof (checked _ p st ans check_prolong_ok) as H. unfold check_prolong in H.
  apply gave_up_failed in G.
  replace (existsb _ _) with true in H.
  - destruct (failed Coarse (fst (main p st ans))); [congruence|discriminate].
  - symmetry. apply existsb_exists. exists (Called Prolong r). auto.
Qed.

(** ** Which computations are made, and inside which section. *)
Definition call_dec (a b : call) : {a = b} + {a <> b}.
Proof. decide equality; decide equality. Defined.
Fixpoint last_start (s : section) (pre t : list event) : list event * list event :=
  match t with
  | [] => ([], [])
  | Start x :: r => if String.eqb x s && negb (existsb (String.eqb s) (started r)) then (pre, r) else last_start s (pre ++ [Start x]) r
  | e :: r => last_start s (pre ++ [e]) r
  end.
Definition innermostb (t : list event) (s : section) : bool :=
  runningb t s && existsb (String.eqb s) (started t) &&
  let (a, b) := last_start s [] t in
  forallb (fun x => negb (runningb t x) || String.eqb x s || (runningb a x && negb (existsb (String.eqb x) (started b)))) (started t).
Definition insideb (t : list event) (o : option section) : bool :=
  match o with Some s => innermostb t s | None => forallb (fun x => negb (runningb t x)) (started t) end.
Definition answered (c : call) (r : option exn) : bool :=
  match r with None => true | Some _ => if call_dec c Prolong then true else false end.
Fixpoint madeb (pre t : list event) (l : list (call * option section)) : bool :=
  match t with
  | [] => nilb l
  | Called c r :: u =>
    match l with
    | [] => false
    | (d, o) :: m => (if call_dec c d then true else false) && answered c r && insideb pre o && madeb (pre ++ [Called c r]) u m
    end
  | e :: u => madeb (pre ++ [e]) u l
  end.
Definition check_made (p : program) (st : settings) (o : list event * ending) : bool :=
  match snd o with
  | Returned => negb (nilb (failed Fine (fst o)) && nilb (failed Coarse (fst o))) || madeb [] (fst o) (made p st)
  | _ => true
  end.
Lemma check_made_ok : holds check_made.
Proof. all_runs. Qed.

Lemma existsb_string s l : existsb (String.eqb s) l = true <-> In s l.
Proof.
  rewrite existsb_exists. split; [intros (x & I & E); apply String.eqb_eq in E; now subst|].
  intros I. exists s. split; [exact I|apply String.eqb_refl].
Qed.
Lemma last_start_spec s t : forall pre, In s (started t) ->
  let (a, b) := last_start s pre t in pre ++ t = a ++ Start s :: b.
Proof.
  induction t as [|e t IH]; intros pre I; [destruct I|].
  assert (G : In s (started t) -> let (a, b) := last_start s (pre ++ [e]) t in pre ++ e :: t = a ++ Start s :: b).
  { intros J. specialize (IH (pre ++ [e]) J). rewrite <- app_assoc in IH. exact IH. }
  destruct e as [x| | | | |]; cbn [last_start started] in *; try (now apply G).
  destruct (String.eqb_spec x s) as [->|N]; cbn [andb].
  - destruct (existsb (String.eqb s) (started t)) eqn:X; cbn [negb]; [|reflexivity].
    apply G. now apply existsb_string.
  - apply G. destruct I as [I|I]; [congruence|exact I].
Qed.
Lemma innermostb_spec t s : innermostb t s = true -> innermost t s.
Proof.
  unfold innermostb. intros H. apply andb_prop in H as [H F]. apply andb_prop in H as [R I].
  apply existsb_string in I. apply runningb_spec in R. split; [exact R|].
  pose proof (last_start_spec s t [] I) as L. destruct (last_start s [] t) as (a, b). exists a, b. split; [exact L|].
  intros x Rx N. rewrite forallb_forall in F. specialize (F x (running_started _ _ Rx)).
  apply runningb_spec in Rx. rewrite Rx in F. cbn [negb orb] in F.
  destruct (String.eqb_spec x s) as [E|_]; [contradiction|]. cbn [orb] in F. apply andb_prop in F as [F1 F2].
  split; [now apply runningb_spec|]. intros K. apply started_spec, existsb_string in K. rewrite K in F2. discriminate.
Qed.
Lemma insideb_spec t o : insideb t o = true ->
  match o with Some s => innermost t s | None => forall s, ~ running t s end.
Proof.
  destruct o as [s|]; cbn [insideb]; [apply innermostb_spec|].
  intros H s R. rewrite forallb_forall in H. specialize (H s (running_started _ _ R)).
  apply runningb_spec in R. rewrite R in H. discriminate.
Qed.
Lemma calls_app a b : calls_of (a ++ b) = calls_of a ++ calls_of b.
Proof. induction a as [|e a IH]; [reflexivity|]. destruct e; cbn [calls_of app]; now rewrite IH. Qed.
Lemma madeb_spec t : forall pre l, madeb pre t l = true ->
  calls_of t = map fst l /\
  forall i c o, nth_error l i = Some (c, o) -> exists a b r,
    t = a ++ Called c r :: b /\ List.length (calls_of a) = i /\ (c <> Prolong -> r = None) /\
    match o with Some s => innermost (pre ++ a) s | None => forall s, ~ running (pre ++ a) s end.
Proof.
  induction t as [|e t IH]; intros pre l H.
  - destruct l; [|discriminate]. split; [reflexivity|]. intros [|i] c o E; discriminate.
  - assert (G : calls_of [e] = [] -> madeb (pre ++ [e]) t l = true ->
      calls_of (e :: t) = map fst l /\
      forall i c o, nth_error l i = Some (c, o) -> exists a b r,
        e :: t = a ++ Called c r :: b /\ List.length (calls_of a) = i /\ (c <> Prolong -> r = None) /\
        match o with Some s => innermost (pre ++ a) s | None => forall s, ~ running (pre ++ a) s end).
    { intros Z M. destruct (IH _ _ M) as (C & N). change (e :: t) with ([e] ++ t). rewrite calls_app, Z.
      split; [exact C|]. intros i c o E. destruct (N i c o E) as (a & b & r & -> & L & Q & X).
      exists (e :: a), b, r. split; [reflexivity|]. change (e :: a) with ([e] ++ a). rewrite calls_app, Z.
      split; [exact L|]. split; [exact Q|]. rewrite app_assoc. exact X. }
    destruct e as [x|x| |x| |c r]; cbn [madeb] in H; try (now apply G).
    destruct l as [|(d, o) m]; [discriminate|].
    apply andb_prop in H as [H M]. apply andb_prop in H as [H X]. apply andb_prop in H as [E A].
    destruct (call_dec c d) as [<-|]; [|discriminate].
    destruct (IH _ _ M) as (C & N). cbn [calls_of map fst]. split; [now rewrite C|].
    intros [|i] c' o' E'.
    + cbn in E'. injection E' as <- <-. exists [], t, r. split; [reflexivity|]. split; [reflexivity|].
      split; [|rewrite app_nil_r; now apply insideb_spec].
      intros Np. destruct r; [|reflexivity]. cbn in A. destruct (call_dec c Prolong); [contradiction|discriminate].
    + cbn in E'. destruct (N i c' o' E') as (a & b & r' & -> & L & Q & X').
      exists (Called c r :: a), b, r'. split; [reflexivity|]. cbn [calls_of List.length]. split; [now rewrite L|].
      split; [exact Q|]. rewrite <- app_assoc in X'. exact X'.
Qed.
Lemma returned_made p st ans t : main p st ans = (t, Returned) -> ~ gave_up Fine t -> ~ gave_up Coarse t ->
  madeb [] t (made p st) = true.
Proof.
  intros E G1 G2. pose proof (checked _ p st ans check_made_ok) as H. rewrite E in H.
  unfold check_made in H. cbn [fst snd] in H.
  rewrite (nilb_false_failed _ _ G1), (nilb_false_failed _ _ G2) in H. exact H.
Qed.
