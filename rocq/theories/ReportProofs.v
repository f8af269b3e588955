(** Proofs about the printed report and the shared file. *)
From Coq Require Import List Arith Ascii String Bool Reals Lra Lia Sorted.
From Verif Require Import Util ErrorModel ErrorSpec ErrorProofs ReportModel ReportSpec.
Import ListNotations.
Open Scope nat_scope.
Open Scope string_scope.

Section Text.
Variables F V : Type.
Variables (diff : F -> F -> F) (l2 h1s : F -> V) (zero : F) (div : V -> V -> V) (exceeds : V -> bool).

(** The printed lines in terms of the entries of the report. *)
Definition shown (P : string -> V -> Prop) (lab : string) (v : V) : Prop :=
  (exists k, In (k, lab) labels /\ P k v /\
     (k = "msfem_fem_L2" -> forall n, P "msfem_L2" n -> exceeds n = false)) \/
  (exists e n, lab = relative_coarse /\ P "msfem_coarse_fem_L2" e /\ P "msfem_L2" n /\ v = div e n) \/
  (exists e n, lab = relative_fine /\ P "msfem_fem_L2" e /\ P "msfem_L2" n /\ exceeds n = true /\ v = div e n).

Definition body exact ms fem coarse : list (line V) :=
  match analytical_text F V diff l2 h1s exact ms fem coarse,
        discrete_text F V diff l2 h1s div exceeds ms fem coarse with
  | Some a, Some d => (a ++ d)%list
  | _, _ => []
  end.

Lemma body_some : forall exact ms fem coarse, exists a d,
  analytical_text F V diff l2 h1s exact ms fem coarse = Some a /\
  discrete_text F V diff l2 h1s div exceeds ms fem coarse = Some d.
Proof.
  intros exact ms fem coarse.
  destruct exact, ms, fem; eexists; eexists; split; cbv; reflexivity.
Qed.

Lemma shown_iff : forall exact ms fem coarse lab v,
  In (Entry lab v) (body exact ms fem coarse) <->
  shown (entry F V diff l2 h1s exact ms fem coarse) lab v.
Proof.
  intros exact ms fem coarse lab v. split.
  - intros H. destruct exact as [u|], ms as [f|], fem as [g|];
      cbv [body analytical_text discrete_text register_analytical register_discrete both bind emplace
           assoc_str String.eqb Ascii.eqb Bool.eqb app append] in H;
      try (destruct (exceeds (l2 f)) eqn:X);
      repeat (destruct H as [H|H]; [inversion H; subst; clear H;
        first [ left; eexists; split; [cbv [labels]; repeat (first [left; reflexivity | right]); fail|];
                split; [econstructor; reflexivity|];
                first [ intro; discriminate
                      | intros _ n' P'; inversion P'; subst; congruence ]
              | right; left; eexists; eexists; split; [reflexivity|]; split; [econstructor; reflexivity|];
                split; [econstructor; reflexivity|reflexivity]
              | right; right; eexists; eexists; split; [reflexivity|]; split; [econstructor; reflexivity|];
                split; [econstructor; reflexivity|]; split; [assumption|reflexivity] ] |]);
      try contradiction H.
  - intros [(k & L & P & X) | [(e & n & -> & P & Q & ->) | (e & n & -> & P & Q & X & ->)]].
    + destruct exact as [u'|], ms as [f'|], fem as [g'|]; inversion P; subst; try discriminate;
      repeat match goal with H : Some _ = Some _ |- _ => inversion H; subst; clear H end;
      repeat (destruct L as [L|L]; [inversion L; subst; clear L|]); try contradiction L;
      cbv [body analytical_text discrete_text register_analytical register_discrete both bind emplace
           assoc_str String.eqb Ascii.eqb Bool.eqb app append];
      try (rewrite (X eq_refl _ (E_m_l F V diff l2 h1s _ _ _ _ _ eq_refl)));
      try (match goal with |- context [exceeds ?n] => destruct (exceeds n) eqn:Y end);
      cbv [In]; repeat (first [left; reflexivity | right]).
    + destruct exact as [u'|], ms as [f'|], fem as [g'|]; inversion P; inversion Q; subst; try discriminate;
      repeat match goal with H : Some _ = Some _ |- _ => inversion H; subst; clear H end;
      cbv [body analytical_text discrete_text register_analytical register_discrete both bind emplace
           assoc_str String.eqb Ascii.eqb Bool.eqb app append];
      cbv [In]; repeat (first [left; reflexivity | right]).
    + destruct exact as [u'|], ms as [f'|], fem as [g'|]; inversion P; inversion Q; subst; try discriminate;
      repeat match goal with H : Some _ = Some _ |- _ => inversion H; subst; clear H end;
      cbv [body analytical_text discrete_text register_analytical register_discrete both bind emplace
           assoc_str String.eqb Ascii.eqb Bool.eqb app append]; rewrite X;
      cbv [In]; repeat (first [left; reflexivity | right]).
Qed.
End Text.

Lemma report_body : forall F V diff l2 h1s zero div exceeds exact fem cs ms matched csv,
  print F V diff l2 h1s zero exact fem cs ms matched = Report csv ->
  exists m f c,
    printed F V diff l2 h1s zero div exceeds exact fem cs ms matched =
      (heading V ++ body F V diff l2 h1s div exceeds exact m f c)%list /\
    (forall k v, In (k, v) csv <-> entry F V diff l2 h1s exact m f c k v) /\
    StronglySorted key_lt (map fst csv).
Proof.
  intros F V diff l2 h1s zero div exceeds exact fem cs ms matched csv H.
  assert (D : forall m f c, collect F V diff l2 h1s exact m f c = Some csv ->
    (forall k v, In (k, v) csv <-> entry F V diff l2 h1s exact m f c k v) /\ StronglySorted key_lt (map fst csv)).
  { intros m f c E. destruct (collect_spec F V diff l2 h1s exact m f c) as (csv' & A & B & C).
    rewrite A in E. inversion E; subst. auto. }
  assert (G : forall m f c,
    match collect F V diff l2 h1s exact m f c with Some csv => Report csv | None => Raised end = Report csv ->
    match analytical_text F V diff l2 h1s exact m f c, discrete_text F V diff l2 h1s div exceeds m f c with
    | Some a, Some d => (heading V ++ a ++ d)%list | _, _ => heading V end =
      (heading V ++ body F V diff l2 h1s div exceeds exact m f c)%list /\
    (forall k v, In (k, v) csv <-> entry F V diff l2 h1s exact m f c k v) /\
    StronglySorted key_lt (map fst csv)).
  { intros m f c E. split.
    - unfold body. destruct (body_some F V diff l2 h1s div exceeds exact m f c) as (a & d & -> & ->). reflexivity.
    - apply D. destruct (collect F V diff l2 h1s exact m f c); inversion E; reflexivity. }
  unfold print in H. unfold printed.
  destruct cs as [c| |]; try discriminate;
  (destruct ms as [p|]; [destruct matched; [|discriminate]; destruct p as [m| |]; try discriminate|]);
  match goal with H : match collect _ _ _ _ _ _ ?m ?f ?c with _ => _ end = _ |- _ => exists m, f, c end;
  apply G; exact H.
Qed.

(** A report printed in full has every label once. *)
Lemma labels_once : forall F V diff l2 h1s div exceeds exact m f c,
  NoDup (flat_map (fun l => match l with Entry lab _ => [lab] | _ => [] end)
           (heading V ++ body F V diff l2 h1s div exceeds exact m f c)).
Proof.
  intros. destruct exact as [u|], m as [g|], f as [h|];
  cbv [body analytical_text discrete_text register_analytical register_discrete both bind emplace
       assoc_str String.eqb Ascii.eqb Bool.eqb app append heading];
  try (destruct (exceeds (l2 g))); cbn [flat_map app];
  repeat (constructor; [cbv [In]; intuition discriminate|]); constructor.
Qed.

Lemma heading_only : forall F V diff l2 h1s zero div exceeds exact fem cs ms matched,
  (forall csv, print F V diff l2 h1s zero exact fem cs ms matched <> Report csv) ->
  printed F V diff l2 h1s zero div exceeds exact fem cs ms matched = heading V.
Proof.
  intros F V diff l2 h1s zero div exceeds exact fem cs ms matched H.
  assert (C : forall m f c, exists csv, collect F V diff l2 h1s exact m f c = Some csv).
  { intros m f c. destruct (collect_spec F V diff l2 h1s exact m f c) as (csv & E & _). eauto. }
  unfold print in H. unfold printed.
  destruct cs as [c| |]; try reflexivity;
  (destruct ms as [p|]; [destruct matched; [|reflexivity]; destruct p as [m| |]; try reflexivity|]);
  match type of H with context [collect _ _ _ _ _ _ ?m ?f ?c] =>
    exfalso; destruct (C m f c) as (csv & E); rewrite E in H; apply (H csv); reflexivity end.
Qed.

(** Reports with the same entries are equal. *)
Lemma key_lt_trans : forall a b c, key_lt a b -> key_lt b c -> key_lt a c.
Proof.
  unfold key_lt. induction a as [|x a IH]; intros [|y b] [|z c] H H'; simpl in *; try discriminate; auto.
  unfold Ascii.compare in *.
  destruct (N.compare_spec (N_of_ascii x) (N_of_ascii y)) as [E|E|E]; try discriminate;
  destruct (N.compare_spec (N_of_ascii y) (N_of_ascii z)) as [E'|E'|E']; try discriminate;
  destruct (N.compare_spec (N_of_ascii x) (N_of_ascii z)) as [E''|E''|E'']; try lia; eauto.
Qed.
Lemma key_lt_irrefl : forall a, ~ key_lt a a.
Proof.
  unfold key_lt. intros a H. assert (C : String.compare a a = Eq); [|congruence].
  clear H. induction a as [|x a IH]; simpl; auto. unfold Ascii.compare. now rewrite N.compare_refl.
Qed.
Lemma sorted_same : forall V (l l' : list (string * V)),
  StronglySorted key_lt (map fst l) -> StronglySorted key_lt (map fst l') ->
  (forall p, In p l <-> In p l') -> l = l'.
Proof.
  intros V. induction l as [|(k, v) l IH]; intros l' S S' E.
  - destruct l' as [|p l']; auto. exfalso. destruct (proj2 (E p)). left; reflexivity.
  - destruct l' as [|(k', v') l']; [exfalso; destruct (proj1 (E (k, v))); left; reflexivity|].
    cbn [map fst] in S, S'. inversion S as [|? ? S1 F1]; subst. inversion S' as [|? ? S2 F2]; subst.
    rewrite Forall_forall in F1, F2.
    assert (B1 : forall q, In q l -> key_lt k (fst q)) by (intros q I; apply F1, in_map, I).
    assert (B2 : forall q, In q l' -> key_lt k' (fst q)) by (intros q I; apply F2, in_map, I).
    assert (H : (k, v) = (k', v')).
    { destruct (proj1 (E (k, v)) (or_introl eq_refl)) as [H|H]; auto.
      destruct (proj2 (E (k', v')) (or_introl eq_refl)) as [H'|H']; auto. exfalso.
      apply B2 in H. apply B1 in H'. cbn [fst] in *. eapply key_lt_irrefl, key_lt_trans; eauto. }
    inversion H; subst k' v'. f_equal. apply IH; auto.
    intros q. split; intros I.
    + destruct (proj1 (E q) (or_intror I)) as [<-|]; auto. exfalso. apply B1 in I. eapply key_lt_irrefl; eauto.
    + destruct (proj2 (E q) (or_intror I)) as [<-|]; auto. exfalso. apply B2 in I. eapply key_lt_irrefl; eauto.
Qed.

(** The label table is one to one and has no quotients. *)
Lemma labels_inj : forall k k' lab, In (k, lab) labels -> In (k', lab) labels -> k = k'.
Proof.
  intros k k' lab H H'. cbv [labels In] in H, H'.
  repeat (destruct H as [H|H]; [inversion H; subst; clear H;
    repeat (destruct H' as [H'|H']; [first [discriminate H' | inversion H'; reflexivity]|]); contradiction|]).
  contradiction.
Qed.
Lemma labels_not_relative : forall k lab, In (k, lab) labels -> lab <> relative_coarse /\ lab <> relative_fine.
Proof.
  intros k lab H. cbv [labels In] in H.
  repeat (destruct H as [H|H]; [inversion H; subst; split; discriminate|]). contradiction.
Qed.
Lemma entry_label : forall F V diff l2 h1s exact m f c k (v : V),
  entry F V diff l2 h1s exact m f c k v -> exists lab, In (k, lab) labels.
Proof. intros F V diff l2 h1s exact m f c k v H. destruct H; eexists; cbv [labels In]; repeat (first [left; reflexivity | right]). Qed.
Lemma entry_norm : forall F V diff l2 h1s exact m f c (v : V),
  entry F V diff l2 h1s exact m f c "msfem_fem_L2" v -> exists n, entry F V diff l2 h1s exact m f c "msfem_L2" n.
Proof. intros F V diff l2 h1s exact m f c v H. inversion H; subst. eexists. econstructor. reflexivity. Qed.
Lemma entry_fun : forall F V diff l2 h1s exact m f c k (v w : V),
  entry F V diff l2 h1s exact m f c k v -> entry F V diff l2 h1s exact m f c k w -> v = w.
Proof.
  intros F V diff l2 h1s exact m f c k v w H H'.
  destruct H; inversion H'; congruence.
Qed.

Lemma same_text_same_entries :
  forall V (div : V -> V -> V) exceeds
    F diff l2 h1s exact m f c F' diff' l2' h1s' exact' m' f' c',
  (forall a b n, exceeds n = true -> div a n = div b n -> a = b) ->
  body F V diff l2 h1s div exceeds exact m f c = body F' V diff' l2' h1s' div exceeds exact' m' f' c' ->
  forall k v, entry F V diff l2 h1s exact m f c k v -> entry F' V diff' l2' h1s' exact' m' f' c' k v.
Proof.
  intros V div exceeds F diff l2 h1s exact m f c F' diff' l2' h1s' exact' m' f' c' X B k v E.
  set (P := entry F V diff l2 h1s exact m f c) in *. set (Q := entry F' V diff' l2' h1s' exact' m' f' c') in *.
  assert (T : forall lab w, shown V div exceeds P lab w -> shown V div exceeds Q lab w).
  { intros lab w H. apply shown_iff in H. rewrite B in H. apply shown_iff in H. exact H. }
  assert (G : forall k v, P k v -> (k = "msfem_fem_L2" -> forall n, P "msfem_L2" n -> exceeds n = false) -> Q k v).
  { clear k v E. intros k v E H. destruct (entry_label _ _ _ _ _ _ _ _ _ _ _ E) as (lab & L).
    destruct (labels_not_relative _ _ L) as (N1 & N2).
    destruct (T lab v) as [(k' & L' & E' & _)|[(e & n & A & _)|(e & n & A & _)]];
      [left; exists k; auto| |contradiction|contradiction].
    now rewrite (labels_inj _ _ _ L L'). }
  destruct (string_dec k "msfem_fem_L2") as [->|N]; [|apply G; auto; intros; contradiction].
  destruct (entry_norm _ _ _ _ _ _ _ _ _ _ E) as (n & En). fold P in En.
  destruct (exceeds n) eqn:Y.
  - destruct (T relative_fine (div v n)) as [(k' & L' & _)|[(e & n' & A & _)|(e & n' & _ & E' & En' & Y' & D)]].
    + right. right. exists v, n. auto.
    + destruct (labels_not_relative _ _ L') as (_ & N). now destruct N.
    + discriminate.
    + assert (n' = n).
      { eapply entry_fun; [exact En'|]. apply G; auto. discriminate. }
      subst n'. apply X in D; auto. subst e. exact E'.
  - apply G; auto. intros _ n' En'. assert (n' = n) by (eapply entry_fun; eauto). now subst.
Qed.

Lemma same_text_same_file :
  forall V (div : V -> V -> V) exceeds
    F diff l2 h1s zero exact fem cs ms matched csv F' diff' l2' h1s' zero' exact' fem' cs' ms' matched' csv',
  (forall a b n, exceeds n = true -> div a n = div b n -> a = b) ->
  print F V diff l2 h1s zero exact fem cs ms matched = Report csv ->
  print F' V diff' l2' h1s' zero' exact' fem' cs' ms' matched' = Report csv' ->
  printed F V diff l2 h1s zero div exceeds exact fem cs ms matched =
    printed F' V diff' l2' h1s' zero' div exceeds exact' fem' cs' ms' matched' ->
  csv = csv'.
Proof.
  intros V div exceeds F diff l2 h1s zero exact fem cs ms matched csv
    F' diff' l2' h1s' zero' exact' fem' cs' ms' matched' csv' X H H' E.
  destruct (report_body F V diff l2 h1s zero div exceeds _ _ _ _ _ _ H) as (m & f & c & A & B & C).
  destruct (report_body F' V diff' l2' h1s' zero' div exceeds _ _ _ _ _ _ H') as (m' & f' & c' & A' & B' & C').
  rewrite A, A' in E. apply app_inv_head in E.
  apply sorted_same; auto. intros (k, v). rewrite B, B'.
  split; eapply same_text_same_entries; eauto.
Qed.

(** * The shared file *)
Local Open Scope nat_scope.
Lemma nth_firstn : forall A n (l : list A) i, i < n -> nth_error (firstn n l) i = nth_error l i.
Proof. induction n; intros [|x l] [|i] H; simpl; auto; try lia. apply IHn. lia. Qed.
Lemma nth_skipn : forall A n (l : list A) i, nth_error (skipn n l) i = nth_error l (n + i).
Proof. induction n; intros [|x l] i; simpl; auto. now destruct i. Qed.

Lemma nth_write : forall file pos bs i, bs <> [] ->
  nth_error (write_at file pos bs) i =
  if i <? pos then (if i <? List.length file then nth_error file i else Some Ascii.zero)
  else if i <? pos + List.length bs then nth_error bs (i - pos) else nth_error file i.
Proof.
  intros file pos bs i N. unfold write_at. destruct bs as [|b0 bs0]; [congruence|].
  set (bs := (b0 :: bs0)) in *. clearbody bs. clear N.
  assert (L : List.length (firstn pos (file ++ repeat Ascii.zero (pos - List.length file))%list) = pos).
  { rewrite firstn_length, app_length, repeat_length. lia. }
  destruct (Nat.ltb_spec i pos) as [A|A].
  - rewrite nth_error_app1 by lia. rewrite nth_firstn by lia.
    destruct (Nat.ltb_spec i (List.length file)) as [B|B].
    + rewrite nth_error_app1 by lia. reflexivity.
    + rewrite nth_error_app2 by lia. apply nth_error_repeat. lia.
  - rewrite nth_error_app2 by lia. rewrite L.
    destruct (Nat.ltb_spec i (pos + List.length bs)) as [B|B].
    + rewrite nth_error_app1 by lia. reflexivity.
    + rewrite nth_error_app2 by lia. rewrite nth_skipn. f_equal. lia.
Qed.

(** Texts and what is left of them. *)
Definition holds (t : list ascii) (w : writer) : Prop :=
  match w with
  | Waiting ps => List.concat ps = t
  | Writing pos ps => pos <= List.length t /\ List.concat ps = skipn pos t
  end.
Definition opened (w : writer) : Prop := exists pos ps, w = Writing pos ps.

Lemma piece_of : forall (t : list ascii) pos p ps i, pos <= List.length t -> List.concat (p :: ps) = skipn pos t ->
  i < List.length p -> nth_error t (pos + i) = nth_error p i.
Proof.
  intros t pos p ps i L E I. rewrite <- nth_skipn, <- E. simpl. apply nth_error_app1. exact I.
Qed.
Lemma rest_of : forall (t : list ascii) pos p ps, pos <= List.length t -> List.concat (p :: ps) = skipn pos t ->
  pos + List.length p <= List.length t /\ List.concat ps = skipn (pos + List.length p) t.
Proof.
  intros t pos p ps L E. simpl in E.
  assert (A : List.length p + List.length (List.concat ps) = List.length t - pos).
  { rewrite <- app_length, E, skipn_length. reflexivity. }
  split; [lia|]. rewrite Nat.add_comm, <- skipn_skipn, <- E.
  rewrite skipn_app, skipn_all, Nat.sub_diag. reflexivity.
Qed.
Lemma call_holds : forall file t w, holds t w -> holds t (snd (call file w)).
Proof.
  intros file t [ps|pos [|p ps]] H; simpl in *; auto.
  - split; [lia|exact H].
  - destruct H as (L & E). apply rest_of; auto.
Qed.

Lemma Forall2_nth : forall A B (R : A -> B -> Prop) l l' i b,
  Forall2 R l l' -> nth_error l' i = Some b -> exists a, nth_error l i = Some a /\ R a b.
Proof.
  intros A B R l l' i b H. revert i. induction H as [|x y l l' X H IH]; intros [|i] E; simpl in *; try discriminate.
  - inversion E; subst. eauto.
  - eauto.
Qed.
Lemma Forall2_upd : forall A B (R : A -> B -> Prop) l l' i a b,
  Forall2 R l l' -> nth_error l i = Some a -> R a b -> Forall2 R l (upd l' i b).
Proof.
  intros A B R l l' i a b H. revert i. induction H as [|x y l l' X H IH]; intros [|i] E Rab; simpl in *; try discriminate.
  - inversion E; subst. constructor; auto.
  - constructor; auto.
Qed.

(** Every byte comes from a text. *)
Lemma bytes_inv : forall texts sched file ws, Forall2 holds texts ws ->
  let '(file', ws') := writes sched file ws in
  Forall2 holds texts ws' /\
  ((forall i b, nth_error file i = Some b -> comes_from texts i b) ->
   forall i b, nth_error file' i = Some b -> comes_from texts i b) /\
  (Exists opened ws -> Exists opened ws') /\
  (Exists opened ws' -> Exists opened ws \/ forall i b, nth_error file' i = Some b -> comes_from texts i b).
Proof.
  intros texts sched. induction sched as [|q sched IH]; intros file ws H; simpl; auto.
  destruct (nth_error ws q) as [w|] eqn:Q; [|apply IH; exact H].
  destruct (call file w) as (file1, w1) eqn:C.
  destruct (Forall2_nth _ _ _ _ _ _ _ H Q) as (t & T & Hw).
  assert (H1 : Forall2 holds texts (upd ws q w1)).
  { eapply Forall2_upd; eauto. replace w1 with (snd (call file w)) by (rewrite C; reflexivity).
    now apply call_holds. }
  assert (B : (forall i b, nth_error file i = Some b -> comes_from texts i b) ->
              forall i b, nth_error file1 i = Some b -> comes_from texts i b).
  { intros G i b E. destruct w as [ps|pos [|p ps]]; simpl in C; inversion C; subst; clear C.
    - now destruct i.
    - now apply G.
    - destruct p as [|p0 p1]; [now apply G|]. set (p := p0 :: p1) in *.
      rewrite nth_write in E by (unfold p; discriminate).
      destruct (Nat.ltb_spec i pos) as [A|A].
      + destruct (Nat.ltb_spec i (List.length file)); [now apply G|]. left. congruence.
      + destruct (Nat.ltb_spec i (pos + List.length p)) as [A'|A']; [|now apply G].
        right. exists t. split; [eapply nth_error_In; eauto|]. destruct Hw as (L & X).
        replace i with (pos + (i - pos)) by lia. rewrite (piece_of t pos p ps) by (auto; lia). exact E. }
  assert (O : Exists opened (upd ws q w1)).
  { apply Exists_exists. exists w1. split.
    - eapply nth_error_In. apply nth_error_upd_eq. eapply nth_error_lt; eauto.
    - destruct w as [ps|pos [|p ps]]; simpl in C; inversion C; subst; unfold opened; eauto. }
  specialize (IH file1 (upd ws q w1) H1). destruct (writes sched file1 (upd ws q w1)) as (file', ws') eqn:W.
  destruct IH as (I1 & I2 & I3 & I4). split; [exact I1|]. split; [intros G; apply I2, B, G|].
  split; [intros _; auto|]. intros _.
  destruct w as [ps|pos ps].
  - right. apply I2. simpl in C. inversion C; subst. intros i b E. now destruct i.
  - left. apply Exists_exists. exists (Writing pos ps). split; [eapply nth_error_In; eauto|unfold opened; eauto].
Qed.

(** With one text the process that opened last has its part in the file. *)
Definition leader (t file : list ascii) (ws : list writer) : Prop :=
  List.length file <= List.length t /\
  exists q pos ps, nth_error ws q = Some (Writing pos ps) /\
    forall i, i < pos -> nth_error file i = nth_error t i.

Lemma write_length : forall file pos bs,
  List.length (write_at file pos bs) <= Nat.max (List.length file) (pos + List.length bs).
Proof.
  intros file pos [|b bs]; [simpl; lia|]. unfold write_at. set (p := b :: bs).
  rewrite !app_length, firstn_length, skipn_length, app_length, repeat_length. lia.
Qed.

Lemma leader_inv : forall t sched file ws, Forall (holds t) ws ->
  let '(file', ws') := writes sched file ws in
  Forall (holds t) ws' /\
  (leader t file ws -> leader t file' ws') /\ (Exists opened ws' -> Exists opened ws \/ leader t file' ws').
Proof.
  intros t sched. induction sched as [|q sched IH]; intros file ws H; simpl; auto.
  destruct (nth_error ws q) as [w|] eqn:Q; [|apply IH; exact H].
  destruct (call file w) as (file1, w1) eqn:C.
  assert (Hw : holds t w) by (rewrite Forall_forall in H; apply H; eapply nth_error_In; eauto).
  assert (LQ : q < List.length ws) by (eapply nth_error_lt; eauto).
  assert (H1 : Forall (holds t) (upd ws q w1)).
  { apply Forall_forall. intros x I. apply In_nth_error in I. destruct I as (i & E).
    destruct (Nat.eq_dec q i) as [->|N].
    - rewrite nth_error_upd_eq in E by auto. inversion E; subst.
      replace x with (snd (call file w)) by (rewrite C; reflexivity). now apply call_holds.
    - rewrite nth_error_upd_neq in E by auto. rewrite Forall_forall in H. apply H. eapply nth_error_In; eauto. }
  assert (B : leader t file ws -> leader t file1 (upd ws q w1)).
  { intros (L & r & pos & ps & R & G). destruct w as [qs|pos' [|p qs]]; simpl in C; inversion C; subst; clear C.
    - split; [simpl; lia|]. exists q, 0, qs. split; [now apply nth_error_upd_eq|]. intros; lia.
    - split; auto. exists r, pos, ps. split; auto.
      destruct (Nat.eq_dec q r) as [->|N]; [|now rewrite nth_error_upd_neq].
      rewrite nth_error_upd_eq by auto. congruence.
    - destruct Hw as (L' & X). destruct (rest_of _ _ _ _ L' X) as (L1 & _).
      assert (G1 : forall i, i < pos -> nth_error (write_at file pos' p) i = nth_error t i).
      { intros i I. destruct p as [|p0 p1]; [now apply G|]. set (p := p0 :: p1) in *.
        rewrite nth_write by (unfold p; discriminate).
        destruct (Nat.ltb_spec i pos') as [A|A].
        - destruct (Nat.ltb_spec i (List.length file)) as [A'|A']; [now apply G|].
          exfalso. assert (E := G i I). rewrite (proj2 (nth_error_None file i)) in E by lia.
          symmetry in E. apply nth_error_None in E. lia.
        - destruct (Nat.ltb_spec i (pos' + List.length p)) as [A'|A']; [|now apply G].
          replace i with (pos' + (i - pos')) at 2 by lia. symmetry. apply (piece_of t pos' p qs); auto. lia. }
      split; [pose proof (write_length file pos' p); lia|].
      destruct (Nat.eq_dec q r) as [->|N].
      + rewrite Q in R. inversion R; subst pos' ps. exists r, (pos + List.length p), qs.
        split; [now apply nth_error_upd_eq|]. intros i I.
        destruct (lt_dec i pos) as [A|A]; [now apply G1|].
        destruct p as [|p0 p1]; [simpl in I; lia|]. set (p := p0 :: p1) in *.
        rewrite nth_write by (unfold p; discriminate).
        destruct (Nat.ltb_spec i pos); [lia|]. destruct (Nat.ltb_spec i (pos + List.length p)); [|lia].
        replace i with (pos + (i - pos)) at 2 by lia. symmetry. apply (piece_of t pos p qs); auto. lia.
      + exists r, pos, ps. split; [now rewrite nth_error_upd_neq|exact G1]. }
  specialize (IH file1 (upd ws q w1) H1). destruct (writes sched file1 (upd ws q w1)) as (file', ws') eqn:W.
  destruct IH as (I1 & I2 & I3). split; [exact I1|]. split; [intros G; apply I2, B, G|].
  intros _. destruct w as [qs|pos qs].
  - right. apply I2. simpl in C. inversion C; subst. split; [simpl; lia|].
    exists q, 0, qs. split; [now apply nth_error_upd_eq|]. intros; lia.
  - left. apply Exists_exists. exists (Writing pos qs). split; [eapply nth_error_In; eauto|unfold opened; eauto].
Qed.

Lemma complete : forall t sched file ws file' ws',
  Forall (fun w => exists ps, w = Waiting ps /\ List.concat ps = t) ws ->
  writes sched file ws = (file', ws') ->
  Forall (fun w => (exists ps, w = Waiting ps) \/ exists pos, w = Writing pos []) ws' ->
  Exists opened ws' -> file' = t.
Proof.
  intros t sched file ws file' ws' H W D O.
  assert (H0 : Forall (holds t) ws).
  { eapply Forall_impl; [|exact H]. intros w (ps & -> & E). exact E. }
  pose proof (leader_inv t sched file ws H0) as I. rewrite W in I. destruct I as (I1 & I2 & I3).
  destruct (I3 O) as [X|(L & q & pos & ps & Q & G)].
  - exfalso. apply Exists_exists in X. destruct X as (w & I & pos & ps & ->).
    rewrite Forall_forall in H. destruct (H _ I) as (ps' & E & _). discriminate.
  - assert (Iq := nth_error_In _ _ Q). rewrite Forall_forall in D, I1.
    destruct (D _ Iq) as [(ps' & E)|(pos' & E)]; inversion E; subst pos' ps.
    destruct (I1 _ Iq) as (L' & E'). simpl in E'.
    assert (P : pos = List.length t).
    { assert (List.length (skipn pos t) = 0) by (rewrite <- E'; reflexivity). rewrite skipn_length in H1. lia. }
    subst pos. clear - L G. apply nth_error_ext. intros i.
    destruct (lt_dec i (List.length t)) as [A|A]; [auto|].
    rewrite (proj2 (nth_error_None t i)) by lia. apply nth_error_None. lia.
Qed.
