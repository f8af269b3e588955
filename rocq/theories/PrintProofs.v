(** Proofs for C103. *)
From Coq Require Import List Arith String Bool Permutation.
From Verif Require Import Util ErrorModel ErrorSpec ErrorProofs ReportModel PrintModel PrintSpec.
Import ListNotations.
Open Scope string_scope.

Section P.
Variables F V : Type.
Variables (diff : F -> F -> F) (l2 h1s : F -> V) (zero : F).
Variables (div : V -> V -> V) (exceeds : V -> bool).

Notation text := (text_of F V).
Notation pics := (pictures_of F V).
Notation files := (files_of F V).

Lemma text_app : forall a b, text (a ++ b) = (text a ++ text b)%list.
Proof. intros. apply flat_map_app. Qed.
Lemma pics_app : forall a b, pics (a ++ b) = (pics a ++ pics b)%list.
Proof. intros. apply flat_map_app. Qed.
Lemma files_app : forall a b, files (a ++ b) = (files a ++ files b)%list.
Proof. intros. apply flat_map_app. Qed.
Lemma text_lines : forall l, text (map Line l) = l.
Proof. induction l; simpl; f_equal; auto. Qed.
Lemma pics_lines : forall l, pics (map Line l) = [].
Proof. induction l; simpl; auto. Qed.
Lemma files_lines : forall l, files (map Line l) = [].
Proof. induction l; simpl; auto. Qed.

(** Pictures only: no text, no file. *)
Lemma draw_all_effects : forall s l ev r, draw_all F V s l = (ev, r) ->
  text ev = [] /\ files ev = [] /\
  (r = inl tt -> pics ev = l /\ forall p, In p l -> s_fails s (Draw (fst p)) = None) /\
  (forall e, r = inr e -> exists p, In p l /\ s_fails s (Draw (fst p)) = Some e).
Proof.
  intros s. induction l as [|p l IH]; intros ev r H; cbn [draw_all] in H.
  - injection H as <- <-. repeat split; auto; try discriminate. intros q [].
  - unfold draw, seq, invoke in H. destruct (s_fails s (Draw (fst p))) as [e|] eqn:E.
    + injection H as <- <-. split; [reflexivity|]. split; [reflexivity|]. split; [discriminate|].
      intros e' X. injection X as <-. exists p. split; [now left|exact E].
    + cbn [emit app] in H. destruct (draw_all F V s l) as (ev', r') eqn:D. injection H as <- <-.
      destruct (IH ev' r' eq_refl) as (A & B & C & G).
      split; [exact A|]. split; [exact B|]. split.
      * intros X. destruct (C X) as (P1 & P2). split; [simpl; rewrite P1; now destruct p|].
        intros q [<-|I]; auto.
      * intros e X. destruct (G e X) as (q & I & Q). exists q. split; [now right|exact Q].
Qed.

Lemma draw_all_smooth : forall s l, (forall p, In p l -> s_fails s (Draw (fst p)) = None) ->
  exists ev, draw_all F V s l = (ev, inl tt).
Proof.
  intros s l H. destruct (draw_all F V s l) as (ev, [[]|e]) eqn:D; [eauto|].
  destruct (draw_all_effects _ _ _ _ D) as (_ & _ & _ & G). destruct (G e eq_refl) as (p & I & P).
  rewrite H in P by auto. discriminate.
Qed.

Lemma report_part_eq : forall s fem coarse, exists csv t,
  collect F V diff l2 h1s (s_exact s) (s_msfem s) fem coarse = Some csv /\
  (forall k v, In (k, v) csv <-> entry F V diff l2 h1s (s_exact s) (s_msfem s) fem coarse k v) /\
  report_part F V diff l2 h1s div exceeds s fem coarse = (map Line t, inl csv).
Proof.
  intros s fem coarse.
  destruct (collect_spec F V diff l2 h1s (s_exact s) (s_msfem s) fem coarse) as (csv & A & B & _).
  exists csv. unfold report_part. rewrite A.
  destruct (s_exact s) as [u|], (s_msfem s) as [f|], fem as [g|];
    (eexists; split; [reflexivity|]; split; [exact B|]; reflexivity).
Qed.

Lemma seq_inl : forall A B (x : comp F V A) (f : A -> comp F V B) ev b,
  seq F V x f = (ev, inl b) ->
  exists e1 a e2, x = (e1, inl a) /\ f a = (e2, inl b) /\ ev = (e1 ++ e2)%list.
Proof.
  intros A B (e1, [a|e]) f ev b H; cbn in H; [|discriminate].
  destruct (f a) as (e2, r) eqn:E. injection H as <- ->. eauto 7.
Qed.

Lemma seq_inr : forall A B (x : comp F V A) (f : A -> comp F V B) ev e,
  seq F V x f = (ev, inr e) ->
  x = (ev, inr e) \/
  exists e1 a e2, x = (e1, inl a) /\ f a = (e2, inr e) /\ ev = (e1 ++ e2)%list.
Proof.
  intros A B (e1, [a|e']) f ev e H; cbn in H.
  - destruct (f a) as (e2, r) eqn:E. injection H as <- ->. right. eauto 7.
  - injection H as <- ->. now left.
Qed.

Lemma invoke_inl : forall s c ev u, invoke F V s c = (ev, inl u) -> ev = [] /\ s_fails s c = None.
Proof. intros s c ev u H. unfold invoke in H. destruct (s_fails s c); [discriminate|]. now injection H as <- _. Qed.
Lemma invoke_inr : forall s c ev e, invoke F V s c = (ev, inr e) -> ev = [] /\ s_fails s c = Some e.
Proof. intros s c ev e H. unfold invoke in H. destruct (s_fails s c); [|discriminate]. injection H as <- ->. auto. Qed.

(** The pictures before the text. *)
Definition early (s : situation F) : list (string * F) :=
  if s_vtk s then
    match s_msfem s with
    | None => []
    | Some f => ((match s_exact s with Some u => [("exact_solution", u)] | None => [] end) ++
                 [("msfem_solution_", f)])%list
    end
  else [].

Lemma msfem_effects : forall s ev r, msfem_part F V s = (ev, r) ->
  text ev = [] /\ files ev = [] /\
  (r = inl tt -> pics ev = early s /\ (forall p, In p (early s) -> s_fails s (Draw (fst p)) = None) /\
     (s_msfem s <> None -> s_fails s Match = None /\ s_fails s Project = None /\ s_fails s Flow = None)) /\
  (forall e, r = inr e -> s_msfem s <> None /\
     (s_fails s Match = Some e \/ s_fails s Project = Some e \/ s_fails s Flow = Some e \/
      exists p, In p (early s) /\ s_fails s (Draw (fst p)) = Some e)).
Proof.
  intros s ev r H. unfold msfem_part in H. unfold early.
  destruct (s_msfem s) as [f|].
  2:{ injection H as <- <-. destruct (s_vtk s); repeat split; auto; try discriminate; try contradiction. }
  set (L := (match s_exact s with Some u => [("exact_solution", u)] | None => [] end ++ [("msfem_solution_", f)])%list) in *.
  set (PX := if s_vtk s then draw_all F V s L else emit F V []) in *.
  assert (X : forall ev r, PX = (ev, r) -> text ev = [] /\ files ev = [] /\
    (r = inl tt -> pics ev = (if s_vtk s then L else []) /\
        forall p, In p (if s_vtk s then L else []) -> s_fails s (Draw (fst p)) = None) /\
    (forall e, r = inr e -> exists p, In p (if s_vtk s then L else []) /\ s_fails s (Draw (fst p)) = Some e)).
  { intros ev0 r0. unfold PX. destruct (s_vtk s); [apply draw_all_effects|].
    intros E. injection E as <- <-. repeat split; auto; try discriminate. intros p []. }
  destruct r as [[]|e].
  - apply seq_inl in H. destruct H as (e1 & [] & r1 & A1 & H & ->). apply invoke_inl in A1. destruct A1 as (-> & M1).
    apply seq_inl in H. destruct H as (e2 & [] & r2 & A2 & H & ->). apply invoke_inl in A2. destruct A2 as (-> & M2).
    apply seq_inl in H. destruct H as (e3 & [] & r3 & A3 & H & ->). apply X in A3. destruct A3 as (T3 & F3 & P3 & _).
    apply seq_inl in H. destruct H as (e4 & [] & r4 & A4 & H & ->). apply invoke_inl in A4. destruct A4 as (-> & M4).
    injection H as <-. destruct (P3 eq_refl) as (P3a & P3b).
    cbn [app]. rewrite text_app, files_app, pics_app, T3, F3, P3a.
    repeat split; auto; try discriminate. cbn. now rewrite app_nil_r.
  - assert (ND : Some f <> None) by discriminate.
    apply seq_inr in H. destruct H as [H|(e1 & [] & r1 & A1 & H & ->)].
    { apply invoke_inr in H. destruct H as (-> & M). split; [reflexivity|]. split; [reflexivity|].
      split; [discriminate|]. intros e' Q. injection Q as <-. auto. }
    apply invoke_inl in A1. destruct A1 as (-> & _).
    apply seq_inr in H. destruct H as [H|(e2 & [] & r2 & A2 & H & ->)].
    { apply invoke_inr in H. destruct H as (-> & M). split; [reflexivity|]. split; [reflexivity|].
      split; [discriminate|]. intros e' Q. injection Q as <-. auto. }
    apply invoke_inl in A2. destruct A2 as (-> & _).
    apply seq_inr in H. destruct H as [H|(e3 & [] & r3 & A3 & H & ->)].
    { apply X in H. destruct H as (T & Fi & _ & G). destruct (G e eq_refl) as (p & I & Q).
      split; [exact T|]. split; [exact Fi|]. split; [discriminate|]. intros e' Q'. injection Q' as <-. eauto 7. }
    apply X in A3. destruct A3 as (T3 & F3 & P3 & _).
    apply seq_inr in H. destruct H as [H|(e4 & [] & r4 & A4 & H & ->)]; [|discriminate].
    apply invoke_inr in H. destruct H as (-> & M).
    cbn [app]. rewrite app_nil_r. split; [exact T3|]. split; [exact F3|]. split; [discriminate|].
    intros e' Q'. injection Q' as <-. auto.
Qed.

(** The coarse reference. *)
Definition coarse_pic (s : situation F) : list (string * F) :=
  if s_vtk s then [("coarse-cg-fem_solution_", s_coarse s)] else [].

Lemma coarse_effects : forall s ev r, coarse_reference F V zero s = (ev, r) ->
  text ev = [] /\ files ev = [] /\
  match r with
  | inl (fem, c) =>
     (s_fails s SolveCoarse = Some DuneExc /\ fem = None /\ c = zero /\ pics ev = []) \/
     (s_fails s SolveCoarse = None /\ s_fails s Prolong = Some DuneExc /\ fem = None /\ c = s_partial s /\ pics ev = []) \/
     (s_fails s SolveCoarse = None /\ s_fails s Prolong = None /\ s_vtk s = true /\
      s_fails s (Draw "coarse-cg-fem_solution_") = Some DuneExc /\ fem = None /\ c = s_prolonged s /\ pics ev = []) \/
     (s_fails s SolveCoarse = None /\ s_fails s Prolong = None /\
      (s_vtk s = true -> s_fails s (Draw "coarse-cg-fem_solution_") = None) /\
      fem = s_fem s /\ c = s_prolonged s /\ pics ev = coarse_pic s)
  | inr e => e = OtherExc /\
     (s_fails s SolveCoarse = Some OtherExc \/
      (s_fails s SolveCoarse = None /\ s_fails s Prolong = Some OtherExc) \/
      (s_vtk s = true /\ s_fails s (Draw "coarse-cg-fem_solution_") = Some OtherExc))
  end.
Proof.
  intros s ev r H. unfold coarse_reference, coarse_block, draw, seq, invoke, emit, coarse_pic in *.
  cbn [fst snd] in *.
  destruct (s_fails s SolveCoarse) as [[|]|] eqn:E1;
    [injection H as <- <-; cbn; auto 10|injection H as <- <-; cbn; auto 10|].
  destruct (s_fails s Prolong) as [[|]|] eqn:E2;
    [injection H as <- <-; cbn; auto 10|injection H as <- <-; cbn; auto 10|].
  destruct (s_vtk s) eqn:E3.
  - destruct (s_fails s (Draw "coarse-cg-fem_solution_")) as [[|]|] eqn:E4;
      injection H as <- <-; cbn; repeat split; auto 10.
  - injection H as <- <-; cbn; repeat split; auto. right. right. right. repeat split; auto. discriminate.
Qed.

(** The pictures after the text. *)
Definition late_pics (s : situation F) (fem : option F) (c : F) : list (string * F) :=
  if s_vtk s then
    (s_order s (register_analytical F diff (s_exact s) (s_msfem s) fem c) ++
     s_order s (register_discrete F diff (s_msfem s) fem c) ++
     match fem with Some g => [("fine-cg-fem_solution_", g)] | None => [] end)%list
  else [].

Lemma late_effects : forall s fem c ev r, difference_pictures F V diff s fem c = (ev, r) ->
  text ev = [] /\ files ev = [] /\
  (r = inl tt -> pics ev = late_pics s fem c /\
     forall p, In p (late_pics s fem c) -> s_fails s (Draw (fst p)) = None) /\
  (forall e, r = inr e -> exists p, In p (late_pics s fem c) /\ s_fails s (Draw (fst p)) = Some e).
Proof.
  intros s fem c ev r. unfold difference_pictures, late_pics. destruct (s_vtk s); [apply draw_all_effects|].
  intros E. injection E as <- <-. repeat split; auto; try discriminate. intros p [].
Qed.

Lemma run_cases : forall s tr r, run_print F V diff l2 h1s zero div exceeds s = (tr, r) ->
  (exists e, r = Threw e /\ text tr = @heading V /\ files tr = [] /\
     (s_fails s MakeGrids = Some e \/ s_fails s Assemble = Some e \/
      (exists ev, coarse_reference F V zero s = (ev, inr e)) \/
      (exists ev, msfem_part F V s = (ev, inr e)))) \/
  (exists ev0 ev1 fem c csv t,
     s_fails s MakeGrids = None /\ s_fails s Assemble = None /\
     coarse_reference F V zero s = (ev0, inl (fem, c)) /\ msfem_part F V s = (ev1, inl tt) /\
     report_part F V diff l2 h1s div exceeds s fem c = (map Line t, inl csv) /\
     text tr = (@heading V ++ t)%list /\
     ((r = Returned csv /\ s_fails s OpenFile = None /\
       pics tr = (pics ev0 ++ pics ev1 ++ late_pics s fem c)%list /\
       (forall p, In p (late_pics s fem c) -> s_fails s (Draw (fst p)) = None) /\
       exists rest, tr = (rest ++ [File csv])%list /\ files rest = []) \/
      (exists e, r = Threw e /\ files tr = [] /\
        (s_fails s OpenFile = Some e \/
         exists p, In p (late_pics s fem c) /\ s_fails s (Draw (fst p)) = Some e)))).
Proof.
  intros s tr r H. unfold run_print in H.
  match type of H with (let '(_, _) := ?x in _) = _ => destruct x as (ev, res) eqn:H0 end.
  injection H as <- <-. destruct res as [csv|e].
  - apply seq_inl in H0. destruct H0 as (ea & [] & r1 & A1 & H & ->). 
    assert (EA : ea = map Line (heading V)) by (unfold emit in A1; congruence). subst ea. clear A1.
    apply seq_inl in H. destruct H as (e1 & [] & r2 & A2 & H & ->). apply invoke_inl in A2. destruct A2 as (-> & MG).
    apply seq_inl in H. destruct H as (e2 & (fem, c) & r3 & A3 & H & ->).
    apply seq_inl in H. destruct H as (e3 & [] & r4 & A4 & H & ->).
    apply seq_inl in H. destruct H as (e4 & [] & r5 & A5 & H & ->). apply invoke_inl in A5. destruct A5 as (-> & AS).
    apply seq_inl in H. destruct H as (e5 & csv' & r6 & A6 & H & ->). cbn [fst snd] in *.
    apply seq_inl in H. destruct H as (e6 & [] & r7 & A7 & H & ->).
    apply seq_inl in H. destruct H as (e7 & [] & r8 & A8 & H & ->). apply invoke_inl in A8. destruct A8 as (-> & OF).
    injection H as <- <-.
    destruct (report_part_eq s fem c) as (csv2 & t & _ & _ & R). rewrite R in A6. injection A6 as <- <-.
    destruct (coarse_effects _ _ _ A3) as (T3 & F3 & _).
    destruct (msfem_effects _ _ _ A4) as (T4 & F4 & P4 & _).
    destruct (late_effects _ _ _ _ _ A7) as (T7 & F7 & P7 & _). destruct (P7 eq_refl) as (P7a & P7b).
    right. exists e2, e3, fem, c, csv2, t.
    do 5 (split; [assumption|]).
    split.
    { rewrite ?app_nil_l. rewrite !text_app, T3, T4, T7, !text_lines. cbn [text_of flat_map]. rewrite ?app_nil_l. now rewrite app_nil_r. }
    left. split; [reflexivity|]. split; [assumption|]. split.
    { rewrite ?app_nil_l. rewrite !pics_app, !pics_lines, P7a. cbn [pictures_of flat_map]. rewrite ?app_nil_l. now rewrite app_nil_r. }
    split; [assumption|].
    exists (map Line (@heading V) ++ e2 ++ e3 ++ map Line t ++ e6)%list. split.
    { rewrite ?app_nil_l. now rewrite <- !app_assoc. }
    rewrite !files_app, !files_lines, F3, F4, F7. reflexivity.
  - apply seq_inr in H0. destruct H0 as [H0|(ea & [] & r1 & A1 & H & ->)]; [discriminate|]. 
    assert (EA : ea = map Line (heading V)) by (unfold emit in A1; congruence). subst ea. clear A1.
    apply seq_inr in H. destruct H as [H|(e1 & [] & r2 & A2 & H & ->)].
    { apply invoke_inr in H. destruct H as (-> & M). left. exists e.
      rewrite app_nil_r, text_lines, files_lines. auto 8. }
    apply invoke_inl in A2. destruct A2 as (-> & MG).
    apply seq_inr in H. destruct H as [H|(e2 & (fem, c) & r3 & A3 & H & ->)].
    { destruct (coarse_effects _ _ _ H) as (T & Fi & _). left. exists e. rewrite ?app_nil_l.
      rewrite text_app, files_app, T, Fi, text_lines, files_lines, app_nil_r. eauto 9. }
    destruct (coarse_effects _ _ _ A3) as (T3 & F3 & _).
    apply seq_inr in H. destruct H as [H|(e3 & [] & r4 & A4 & H & ->)].
    { destruct (msfem_effects _ _ _ H) as (T & Fi & _). left. exists e. rewrite ?app_nil_l.
      rewrite !text_app, !files_app, T, Fi, T3, F3, text_lines, files_lines. rewrite ?app_nil_l. rewrite app_nil_r. eauto 9. }
    destruct (msfem_effects _ _ _ A4) as (T4 & F4 & P4 & _).
    apply seq_inr in H. destruct H as [H|(e4 & [] & r5 & A5 & H & ->)].
    { apply invoke_inr in H. destruct H as (-> & M). left. exists e. rewrite ?app_nil_l.
      rewrite app_nil_r, !text_app, !files_app, T4, F4, T3, F3, text_lines, files_lines. rewrite ?app_nil_l. rewrite app_nil_r. auto 8. }
    apply invoke_inl in A5. destruct A5 as (-> & AS).
    cbn [fst snd] in H. destruct (report_part_eq s fem c) as (csv2 & t & _ & _ & R).
    apply seq_inr in H. destruct H as [H|(e5 & csv' & r6 & A6 & H & ->)]; [congruence|].
    rewrite R in A6. injection A6 as <- <-.
    right. exists e2, e3, fem, c, csv2, t. do 5 (split; [assumption|]).
    apply seq_inr in H. destruct H as [H|(e6 & [] & r7 & A7 & H & ->)].
    { destruct (late_effects _ _ _ _ _ H) as (T7 & F7 & _ & G). destruct (G e eq_refl) as (p & I & Q).
      rewrite ?app_nil_l. rewrite !text_app, !files_app, T3, T4, T7, F3, F4, F7, !text_lines, !files_lines. rewrite ?app_nil_l.
      rewrite app_nil_r. split; [reflexivity|]. right. exists e. eauto 8. }
    destruct (late_effects _ _ _ _ _ A7) as (T7 & F7 & _ & _).
    apply seq_inr in H. destruct H as [H|(e7 & [] & r8 & A8 & H & ->)]; [|discriminate].
    apply invoke_inr in H. destruct H as (-> & M).
    rewrite ?app_nil_l. rewrite !text_app, !files_app, T3, T4, T7, F3, F4, F7, !text_lines, !files_lines. rewrite ?app_nil_l. cbn [text_of files_of flat_map].
    rewrite !app_nil_r. split; [reflexivity|]. right. exists e. auto 8.
Qed.

(** Forgetting the pictures. *)
Definition erase (tr : list (event F V)) : list (event F V) :=
  filter (fun e => match e with Picture _ _ => false | _ => true end) tr.
Definition erc {A} (x : comp F V A) : comp F V A := (erase (fst x), snd x).

Lemma erase_app : forall a b, erase (a ++ b) = (erase a ++ erase b)%list.
Proof. intros. apply filter_app. Qed.
Lemma erase_text : forall tr, text (erase tr) = text tr.
Proof. induction tr as [|[l|p f| |c] tr IH]; simpl; [reflexivity| | | |]; try exact IH; f_equal; exact IH. Qed.
Lemma erase_files : forall tr, files (erase tr) = files tr.
Proof. induction tr as [|[l|p f| |c] tr IH]; simpl; [reflexivity| | | |]; try exact IH; f_equal; exact IH. Qed.
Lemma erase_pics : forall tr, pics (erase tr) = [].
Proof. induction tr as [|[l|p f| |c] tr IH]; cbn [erase filter pictures_of flat_map app]; auto. Qed.
Lemma erase_lines : forall l, erase (map Line l) = map Line l.
Proof. induction l; simpl; f_equal; auto. Qed.

Lemma erc_seq : forall A B (x x' : comp F V A) (f f' : A -> comp F V B),
  erc x = x' -> (forall a, erc (f a) = f' a) -> erc (seq F V x f) = seq F V x' f'.
Proof.
  intros A B (e1, [a|e]) x' f f' <- H; unfold erc at 2; cbn [fst snd]; [|reflexivity].
  cbn [seq]. rewrite <- H. unfold erc. destruct (f a) as (e2, r). cbn [fst snd]. now rewrite erase_app.
Qed.

Lemma erc_draw : forall s l, (forall p, s_fails s (Draw p) = None) -> erc (draw_all F V s l) = emit F V [].
Proof.
  intros s l N. induction l as [|p l IH]; [reflexivity|].
  cbn [draw_all]. rewrite (erc_seq _ _ _ (emit F V []) _ (fun _ => emit F V [])); [reflexivity| |auto].
  unfold draw, invoke. rewrite N. reflexivity.
Qed.

Lemma erc_coarse : forall s, (forall p, s_fails s (Draw p) = None) ->
  erc (coarse_reference F V zero (with_pictures F true s)) = coarse_reference F V zero (with_pictures F false s).
Proof.
  intros s N. unfold coarse_reference, coarse_block, draw, seq, invoke, emit, with_pictures; cbn [s_fails s_vtk s_coarse s_prolonged s_partial s_fem fst snd].
  destruct (s_fails s SolveCoarse) as [[|]|]; [reflexivity..|].
  destruct (s_fails s Prolong) as [[|]|]; [reflexivity..|].
  rewrite N. reflexivity.
Qed.

Lemma erc_msfem : forall s, (forall p, s_fails s (Draw p) = None) ->
  erc (msfem_part F V (with_pictures F true s)) = msfem_part F V (with_pictures F false s).
Proof.
  intros s N. unfold msfem_part. cbn [with_pictures s_msfem s_vtk s_exact].
  destruct (s_msfem s) as [f|]; [|reflexivity].
  apply erc_seq; [unfold invoke; cbn [with_pictures s_fails]; now destruct (s_fails s Match)|]. intros _.
  apply erc_seq; [unfold invoke; cbn [with_pictures s_fails]; now destruct (s_fails s Project)|]. intros _.
  apply erc_seq; [now apply erc_draw|]. intros _.
  apply erc_seq; [unfold invoke; cbn [with_pictures s_fails]; now destruct (s_fails s Flow)|]. reflexivity.
Qed.

Lemma erc_run : forall s tr r tr' r', (forall p, s_fails s (Draw p) = None) ->
  run_print F V diff l2 h1s zero div exceeds (with_pictures F true s) = (tr, r) ->
  run_print F V diff l2 h1s zero div exceeds (with_pictures F false s) = (tr', r') ->
  erase tr = tr' /\ r = r'.
Proof.
  intros s tr r tr' r' N H H'. unfold run_print in *.
  match type of H with (let '(_, _) := ?x in _) = _ => set (X := x) in * end.
  match type of H' with (let '(_, _) := ?x in _) = _ => set (X' := x) in * end.
  assert (E : erc X = X').
  { unfold X, X'. apply erc_seq; [reflexivity|]. intros _.
    apply erc_seq; [unfold invoke; cbn [with_pictures s_fails]; now destruct (s_fails s MakeGrids)|]. intros _.
    apply erc_seq; [now apply erc_coarse|]. intros (fem, c).
    apply erc_seq; [now apply erc_msfem|]. intros _.
    apply erc_seq; [unfold invoke; cbn [with_pictures s_fails]; now destruct (s_fails s Assemble)|]. intros _.
    apply erc_seq; [|intros csv].
    { destruct (report_part_eq (with_pictures F true s) fem c) as (csv & t & _ & _ & R). cbn [fst snd].
      change (report_part F V diff l2 h1s div exceeds (with_pictures F false s) fem c)
        with (report_part F V diff l2 h1s div exceeds (with_pictures F true s) fem c).
      rewrite R. unfold erc. cbn [fst snd]. now rewrite erase_lines. }
    apply erc_seq; [|intros _].
    { unfold difference_pictures. cbn [with_pictures s_vtk]. now apply erc_draw. }
    apply erc_seq; [unfold invoke; cbn [with_pictures s_fails]; now destruct (s_fails s OpenFile)|]. reflexivity. }
  destruct X as (ev, res), X' as (ev', res'). injection E as <- <-.
  injection H as <- <-. injection H' as <- <-. auto.
Qed.
(** Only the multiscale part logs the flow. *)
Notation flows := (flows_of F V).
Lemma flows_app : forall a b, flows (a ++ b) = flows a + flows b.
Proof. intros. unfold flows_of. now rewrite filter_app, app_length. Qed.
Lemma flows_lines : forall l, flows (map Line l) = 0.
Proof. unfold flows_of. induction l; simpl; auto. Qed.

Lemma draw_flows : forall s l ev r, draw_all F V s l = (ev, r) -> flows ev = 0.
Proof.
  intros s. induction l as [|p l IH]; intros ev r H; cbn [draw_all] in H.
  - now injection H as <- <-.
  - unfold draw, seq, invoke in H. destruct (s_fails s (Draw (fst p))) as [e|]; [now injection H as <- <-|].
    cbn [emit app] in H. destruct (draw_all F V s l) as (ev', r') eqn:D. injection H as <- <-.
    apply (IH ev' r' eq_refl).
Qed.

Lemma coarse_flows : forall s ev r, coarse_reference F V zero s = (ev, r) -> flows ev = 0.
Proof.
  intros s ev r H. unfold coarse_reference, coarse_block, draw, seq, invoke, emit in H. cbn [fst snd] in H.
  destruct (s_fails s SolveCoarse) as [[|]|]; [now injection H as <- <-..|].
  destruct (s_fails s Prolong) as [[|]|]; [now injection H as <- <-..|].
  destruct (s_vtk s); [|now injection H as <- <-].
  destruct (s_fails s (Draw "coarse-cg-fem_solution_")) as [[|]|]; now injection H as <- <-.
Qed.

Lemma late_flows : forall s fem c ev r, difference_pictures F V diff s fem c = (ev, r) -> flows ev = 0.
Proof.
  intros s fem c ev r. unfold difference_pictures. destruct (s_vtk s); [apply draw_flows|].
  intros E. now injection E as <- <-.
Qed.

Lemma msfem_flows : forall s ev r, msfem_part F V s = (ev, r) ->
  flows ev = match r, s_msfem s with inl _, Some _ => 1 | _, _ => 0 end.
Proof.
  intros s ev r H. unfold msfem_part in H. destruct (s_msfem s) as [f|].
  2:{ injection H as <- <-. reflexivity. }
  match type of H with context [if s_vtk s then ?a else ?b] => set (PX := if s_vtk s then a else b) in * end.
  assert (X : forall ev r, PX = (ev, r) -> flows ev = 0).
  { intros e0 r0. unfold PX. destruct (s_vtk s); [apply draw_flows|]. intros E. now injection E as <- <-. }
  clearbody PX. unfold seq, invoke, emit in H.
  destruct (s_fails s Match); [now injection H as <- <-|].
  destruct (s_fails s Project); [now injection H as <- <-|].
  destruct PX as (e0, [[]|x]).
  2:{ injection H as <- <-. cbn [app]. exact (X _ _ eq_refl). }
  destruct (s_fails s Flow); injection H as <- <-; cbn [app]; rewrite flows_app, (X _ _ eq_refl); reflexivity.
Qed.

Lemma run_flows : forall s tr r, run_print F V diff l2 h1s zero div exceeds s = (tr, r) ->
  match r with
  | Returned _ => flows tr = match s_msfem s with Some _ => 1 | None => 0 end
  | Threw _ => flows tr = 0 \/ (flows tr = 1 /\ s_msfem s <> None)
  end.
Proof.
  intros s tr r H. unfold run_print in H.
  match type of H with (let '(_, _) := ?x in _) = _ => destruct x as (ev, res) eqn:H0 end.
  injection H as <- <-. destruct res as [csv|e].
  - apply seq_inl in H0. destruct H0 as (ea & [] & r1 & A1 & H & ->).
    assert (EA : ea = map Line (heading V)) by (unfold emit in A1; congruence). subst ea. clear A1.
    apply seq_inl in H. destruct H as (e1 & [] & r2 & A2 & H & ->). apply invoke_inl in A2. destruct A2 as (-> & _).
    apply seq_inl in H. destruct H as (e2 & (fem, c) & r3 & A3 & H & ->).
    apply seq_inl in H. destruct H as (e3 & [] & r4 & A4 & H & ->).
    apply seq_inl in H. destruct H as (e4 & [] & r5 & A5 & H & ->). apply invoke_inl in A5. destruct A5 as (-> & _).
    apply seq_inl in H. destruct H as (e5 & csv' & r6 & A6 & H & ->). cbn [fst snd] in *.
    apply seq_inl in H. destruct H as (e6 & [] & r7 & A7 & H & ->).
    apply seq_inl in H. destruct H as (e7 & [] & r8 & A8 & H & ->). apply invoke_inl in A8. destruct A8 as (-> & _).
    injection H as <- <-.
    destruct (report_part_eq s fem c) as (csv2 & t & _ & _ & R). rewrite R in A6. injection A6 as <- <-.
    rewrite ?app_nil_l, !flows_app, !flows_lines, (coarse_flows _ _ _ A3), (msfem_flows _ _ _ A4), (late_flows _ _ _ _ _ A7).
    destruct (s_msfem s); reflexivity.
  - apply seq_inr in H0. destruct H0 as [H0|(ea & [] & r1 & A1 & H & ->)]; [discriminate|].
    assert (EA : ea = map Line (heading V)) by (unfold emit in A1; congruence). subst ea. clear A1.
    rewrite flows_app, flows_lines. cbn [plus].
    apply seq_inr in H. destruct H as [H|(e1 & [] & r2 & A2 & H & ->)].
    { apply invoke_inr in H. destruct H as (-> & _). now left. }
    apply invoke_inl in A2. destruct A2 as (-> & _).
    apply seq_inr in H. destruct H as [H|(e2 & (fem, c) & r3 & A3 & H & ->)].
    { left. exact (coarse_flows _ _ _ H). }
    rewrite ?app_nil_l, flows_app, (coarse_flows _ _ _ A3). cbn [plus].
    apply seq_inr in H. destruct H as [H|(e3 & [] & r4 & A4 & H & ->)].
    { left. exact (msfem_flows _ _ _ H). }
    assert (G : flows r4 = 0).
    { apply seq_inr in H. destruct H as [H|(e4 & [] & r5 & A5 & H & ->)].
      { apply invoke_inr in H. now destruct H as (-> & _). }
      apply invoke_inl in A5. destruct A5 as (-> & _).
      destruct (report_part_eq s fem c) as (csv2 & t & _ & _ & R). cbn [fst snd] in *. rewrite R in H.
      apply seq_inr in H. destruct H as [H|(e5 & csv' & r6 & A6 & H & ->)]; [discriminate|].
      injection A6 as <- <-.
      apply seq_inr in H. destruct H as [H|(e6 & [] & r7 & A7 & H & ->)].
      { rewrite ?app_nil_l, flows_app, flows_lines, (late_flows _ _ _ _ _ H). reflexivity. }
      apply seq_inr in H. destruct H as [H|(e7 & [] & r8 & A8 & H & ->)]; [|discriminate].
      apply invoke_inr in H. destruct H as (-> & _).
      rewrite ?app_nil_l, !flows_app, flows_lines, (late_flows _ _ _ _ _ A7). reflexivity. }
    rewrite flows_app, G, (msfem_flows _ _ _ A4). destruct (s_msfem s); [right|left]; cbn; auto.
    split; [reflexivity|discriminate].
Qed.
End P.
