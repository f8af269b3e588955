(** Theorems about the effects of the error calculation: C103. *)
From Coq Require Import List Arith String Bool Permutation Lia.
From Verif Require Import Util ErrorModel ErrorSpec ErrorProofs ReportModel PrintModel PrintSpec PrintProofs.
Import ListNotations.
Open Scope string_scope.

Section C103.
Variables F V : Type.
Variables (diff : F -> F -> F) (l2 h1s : F -> V) (zero : F).
Variables (div : V -> V -> V) (exceeds : V -> bool).
Notation run := (run_print F V diff l2 h1s zero div exceeds).

(** The file is written exactly if the call returns; then it holds the returned
    entries, it is written once, and as the last effect of all. *)
Theorem C103_file_exactly_on_return : forall s tr r, run s = (tr, r) ->
  (forall csv, r = Returned csv -> files_of F V tr = [csv] /\ exists rest, tr = (rest ++ [File csv])%list) /\
  (forall e, r = Threw e -> files_of F V tr = []).
Proof.
  intros s tr r H. apply run_cases in H.
  destruct H as [(e & -> & _ & X & _)|(ev0 & ev1 & fem & c & csv & t & _ & _ & _ & _ & _ & _ & [H|H])].
  - split; [discriminate|]. intros; exact X.
  - destruct H as (-> & _ & _ & _ & rest & -> & Z). split; [|discriminate].
    intros csv' E. injection E as <-. split; [|eauto]. rewrite files_app, Z. reflexivity.
  - destruct H as (e & -> & X & _). split; [discriminate|]. intros; exact X.
Qed.

(** The entries of a returned report, whatever failed on the way. *)
Theorem C103_returned_entries : forall s tr csv, run s = (tr, Returned csv) ->
  exists fem coarse,
    (forall k v, In (k, v) csv <-> entry F V diff l2 h1s (s_exact s) (s_msfem s) fem coarse k v) /\
    match s_fails s SolveCoarse, s_fails s Prolong with
    | Some _, _ => fem = None /\ coarse = zero
    | None, Some _ => fem = None /\ coarse = s_partial s
    | None, None => coarse = s_prolonged s /\
        fem = match s_fails s (Draw "coarse-cg-fem_solution_") with
              | Some _ => if s_vtk s then None else s_fem s
              | None => s_fem s
              end
    end.
Proof.
  intros s tr csv H. apply run_cases in H.
  destruct H as [(e & X & _)|(ev0 & ev1 & fem & c & csv' & t & _ & _ & C & _ & R & _ & [H|H])];
    [discriminate| |destruct H as (e & X & _); discriminate].
  destruct H as (E & _). injection E as ->.
  destruct (report_part_eq F V diff l2 h1s div exceeds s fem c) as (csv2 & t2 & _ & B & R2).
  rewrite R2 in R. injection R as _ ->.
  exists fem, c. split; [exact B|]. destruct (coarse_effects F V zero _ _ _ C) as (_ & _ & [X|[X|[X|X]]]).
  - destruct X as (-> & -> & -> & _). auto.
  - destruct X as (-> & -> & -> & -> & _). auto.
  - destruct X as (-> & -> & -> & -> & -> & -> & _). auto.
  - destruct X as (-> & -> & X & -> & -> & _). split; [reflexivity|].
    destruct (s_vtk s); [now rewrite X|]. now destruct (s_fails s (Draw "coarse-cg-fem_solution_")).
Qed.

(** The surface flow is logged once if there is a multiscale solution, never
    otherwise; a failed call may have logged it. *)
Theorem C103_flow_logged_once : forall s tr r, run s = (tr, r) ->
  match r with
  | Returned _ => flows_of F V tr = match s_msfem s with Some _ => 1 | None => 0 end
  | Threw _ => flows_of F V tr = 0 \/ (flows_of F V tr = 1 /\ s_msfem s <> None)
  end.
Proof. apply run_flows. Qed.

(** Pictures that can be written change neither text nor file nor result. *)
Theorem C103_pictures_change_nothing : forall s tr r tr' r',
  (forall p, s_fails s (Draw p) = None) ->
  run (with_pictures F true s) = (tr, r) -> run (with_pictures F false s) = (tr', r') ->
  r = r' /\ text_of F V tr = text_of F V tr' /\ files_of F V tr = files_of F V tr' /\ pictures_of F V tr' = [].
Proof.
  intros s tr r tr' r' N H H'. destruct (erc_run F V diff l2 h1s zero div exceeds _ _ _ _ _ N H H') as (<- & <-).
  split; [reflexivity|]. rewrite erase_text, erase_files, erase_pics. auto.
Qed.

(** A picture of the coarse reference that cannot be written removes the
    comparisons with the fine reference from the report, and nothing else. *)
Theorem C103_failed_coarse_picture : forall s tr csv,
  s_vtk s = true -> s_fails s (Draw "coarse-cg-fem_solution_") = Some DuneExc ->
  s_fails s SolveCoarse = None -> s_fails s Prolong = None ->
  run s = (tr, Returned csv) ->
  exists tr' csv', run (with_pictures F false s) = (tr', Returned csv') /\
    forall k v, In (k, v) csv <-> In (k, v) csv' /\ reference_key k = false.
Proof.
  intros s tr csv VT D1 D2 D3 H.
  destruct (C103_returned_entries _ _ _ H) as (fem & c & E & X). rewrite D2, D3, D1, VT in X. destruct X as (-> & ->).
  destruct (run (with_pictures F false s)) as (tr', r') eqn:H'.
  pose proof (run_cases F V diff l2 h1s zero div exceeds _ _ _ H) as R.
  destruct R as [(e & X & _)|(ev0 & ev1 & fem & c & csv0 & t & MG & AS & C & M & R & _ & [R'|R'])];
    [discriminate| |destruct R' as (e & X & _); discriminate].
  destruct R' as (_ & OF & _).
  assert (M' : s_msfem s <> None -> s_fails s Match = None /\ s_fails s Project = None /\ s_fails s Flow = None).
  { destruct (msfem_effects F V _ _ _ M) as (_ & _ & P & _). apply (P eq_refl). }
  assert (ER : exists csv', r' = Returned csv').
  { apply run_cases in H'. destruct H' as [(e & -> & _ & _ & [X|[X|[X|X]]])|X].
    - cbn [with_pictures s_fails] in X. congruence.
    - cbn [with_pictures s_fails] in X. congruence.
    - destruct X as (ev & X). apply coarse_effects in X. cbn [with_pictures s_fails s_vtk] in X.
      destruct X as (_ & _ & _ & [X|[X|X]]); [congruence|destruct X; congruence|destruct X; discriminate].
    - destruct X as (ev & X). apply msfem_effects in X. destruct X as (_ & _ & _ & X).
      destruct (X e eq_refl) as (N & Y). cbn [with_pictures s_fails s_msfem] in N, Y. destruct (M' N) as (A1 & A2 & A3).
      destruct Y as [Y|[Y|[Y|Y]]]; [congruence..|]. destruct Y as (p & [] & _).
    - destruct X as (e0 & e1 & fem' & c' & csv' & t' & _ & _ & _ & _ & _ & _ & [X|X]).
      + destruct X as (-> & _). eauto.
      + destruct X as (e & _ & _ & [X|(p & [] & _)]). cbn [with_pictures s_fails] in X. congruence. }
  destruct ER as (csv' & ->). exists tr', csv'. split; [reflexivity|].
  destruct (C103_returned_entries _ _ _ H') as (fem' & c' & E' & X).
  cbn [with_pictures s_fails s_vtk s_exact s_msfem s_prolonged s_fem] in E', X. rewrite D2, D3, D1 in X. destruct X as (-> & ->).
  intros k v. rewrite E, E'. split.
  - intros Q. inversion Q; subst; try discriminate; (split; [econstructor; eauto|reflexivity]).
  - intros (Q & K). inversion Q; subst; try discriminate; econstructor; eauto.
Qed.

(** When an exception leaves the call, either only the heading has been printed,
    or one of the pictures drawn after the text, or opening the file, failed. *)
Theorem C103_text_of_a_failed_call : forall s tr e,
  (forall l, Permutation (s_order s l) l) -> run s = (tr, Threw e) ->
  text_of F V tr = [Blank; Title "The L2 errors:"; Blank] \/
  s_fails s OpenFile = Some e \/
  (s_vtk s = true /\ exists p, late p = true /\ s_fails s (Draw p) = Some e).
Proof.
  intros s tr e O H. apply run_cases in H.
  destruct H as [(e' & X & T & _)|(ev0 & ev1 & fem & c & csv & t & _ & _ & _ & _ & _ & _ & [H|H])].
  - left. exact T.
  - destruct H as (X & _). discriminate.
  - destruct H as (e' & X & _ & [Y|(p & I & Y)]); injection X as <-; [auto|].
    right. right. unfold late_pics in I. destruct (s_vtk s); [|destruct I]. split; [reflexivity|].
    exists (fst p). split; [|exact Y].
    rewrite !in_app_iff in I. destruct I as [I|[I|I]].
    + apply (Permutation_in _ (O _)) in I. revert I.
      destruct (s_exact s), (s_msfem s), fem; cbn; intuition (subst; reflexivity).
    + apply (Permutation_in _ (O _)) in I. revert I.
      destruct (s_msfem s), fem; cbn; intuition (subst; reflexivity).
    + destruct fem; [|destruct I]. destruct I as [<-|[]]. reflexivity.
Qed.

(** A picture of a difference or of the fine reference that cannot be written:
    the whole text is there, but neither file nor result. *)
Theorem C103_failed_late_picture : forall s p f e,
  (forall l, Permutation (s_order s l) l) -> s_vtk s = true ->
  (forall c, (forall q, c = Draw q -> late q = false) -> s_fails s c = None) ->
  expected F diff (s_exact s) (s_msfem s) (s_fem s) (s_coarse s) (s_prolonged s) p f ->
  late p = true -> s_fails s (Draw p) = Some e ->
  exists tr e' tr' csv', run s = (tr, Threw e') /\ run (with_pictures F false s) = (tr', Returned csv') /\
    text_of F V tr = text_of F V tr' /\ files_of F V tr = [] /\ files_of F V tr' = [csv'].
Proof.
  intros s p f e O VT N X L D.
  assert (N1 : forall c, match c with Draw q => late q = false | _ => True end -> s_fails s c = None).
  { intros c Q. apply N. intros q ->. exact Q. }
  assert (Y : In (p, f) (late_pics F diff s (s_fem s) (s_prolonged s))).
  { unfold late_pics. rewrite VT. rewrite !in_app_iff.
    destruct X; try discriminate L;
      repeat match goal with H : _ = Some _ |- _ => rewrite H; clear H end.
    - right. right. now left.
    - left. apply (Permutation_in _ (Permutation_sym (O _))). destruct (s_fem s); cbn; auto.
    - left. apply (Permutation_in _ (Permutation_sym (O _))). destruct (s_msfem s); cbn; auto.
    - left. apply (Permutation_in _ (Permutation_sym (O _))). destruct (s_fem s), (s_msfem s); cbn; auto.
    - right. left. apply (Permutation_in _ (Permutation_sym (O _))). destruct (s_fem s); cbn; auto.
    - right. left. apply (Permutation_in _ (Permutation_sym (O _))). cbn; auto. }
  assert (C : forall b, forall ev r, coarse_reference F V zero (with_pictures F b s) = (ev, r) -> r = inl (s_fem s, s_prolonged s)).
  { intros b ev r Q. apply coarse_effects in Q. cbn [with_pictures s_fails s_vtk s_fem s_prolonged s_partial] in Q.
    rewrite !N1 in Q by (exact I || reflexivity). destruct r as [(x, y)|x]; destruct Q as (_ & _ & Q).
    - destruct Q as [Q|[Q|[Q|Q]]]; repeat match goal with H : _ /\ _ |- _ => destruct H end; congruence.
    - destruct Q as (-> & [Q|[Q|Q]]); repeat match goal with H : _ /\ _ |- _ => destruct H end; congruence. }
  assert (M : forall b ev r, msfem_part F V (with_pictures F b s) = (ev, inr r) -> False).
  { intros b ev r Q. apply msfem_effects in Q. destruct Q as (_ & _ & _ & Q). destruct (Q r eq_refl) as (_ & Q').
    cbn [with_pictures s_fails] in Q'. rewrite !N1 in Q' by exact I.
    destruct Q' as [Q'|[Q'|[Q'|(q & I' & Q')]]]; [discriminate..|].
    rewrite N1 in Q'; [discriminate|]. unfold early in I'. cbn [with_pictures s_vtk s_msfem s_exact] in I'.
    destruct b; [|destruct I']. destruct (s_msfem s); [|destruct I'].
    apply in_app_or in I'. destruct I' as [I'|[<-|[]]]; [|reflexivity].
    destruct (s_exact s); [destruct I' as [<-|[]]; reflexivity|destruct I']. }
  assert (W : s = with_pictures F true s).
  { clear - VT. destruct s; cbn in VT; subst; reflexivity. }
  assert (G : forall b tr r, run (with_pictures F b s) = (tr, r) -> exists csv t,
    report_part F V diff l2 h1s div exceeds s (s_fem s) (s_prolonged s) = (map Line t, inl csv) /\
    text_of F V tr = (heading V ++ t)%list /\
    (r = Returned csv \/ exists e', r = Threw e' /\ files_of F V tr = [] /\ b = true) /\ (b = true -> exists e', r = Threw e')).
  { intros b tr r H. apply run_cases in H. destruct H as [(e' & -> & _ & _ & [Z|[Z|[Z|Z]]])|H].
    - cbn [with_pictures s_fails] in Z. rewrite N1 in Z by exact I. discriminate.
    - cbn [with_pictures s_fails] in Z. rewrite N1 in Z by exact I. discriminate.
    - destruct Z as (ev & Z). apply C in Z. discriminate.
    - destruct Z as (ev & Z). apply M in Z. destruct Z.
    - destruct H as (ev0 & ev1 & fem & c & csv & t & _ & _ & Z1 & _ & Z2 & Z3 & Z4).
      apply C in Z1. injection Z1 as -> ->. exists csv, t. split; [exact Z2|]. split; [exact Z3|].
      destruct Z4 as [Z4|Z4].
      + destruct Z4 as (-> & _ & _ & Z5 & _). split; [now left|]. intros ->. rewrite <- W in Z5.
        specialize (Z5 _ Y). cbn [fst] in Z5. congruence.
      + destruct Z4 as (e' & -> & Z5 & Z6). split; [|eauto]. right. exists e'. split; [reflexivity|]. split; [exact Z5|].
        destruct Z6 as [Z6|(q & I' & _)].
        * cbn [with_pictures s_fails] in Z6. rewrite N1 in Z6 by exact I. discriminate.
        * destruct b; [reflexivity|destruct I']. }
  destruct (run (with_pictures F true s)) as (tr, r) eqn:H1, (run (with_pictures F false s)) as (tr', r') eqn:H2.
  destruct (G _ _ _ H1) as (csv & t & R1 & T1 & _ & K1). destruct (K1 eq_refl) as (e' & ->).
  destruct (G _ _ _ H2) as (csv' & t' & R2 & T2 & [->|(e2 & _ & _ & Z)] & _); [|discriminate].
  rewrite R1 in R2. injection R2 as E1 E2. apply (f_equal (text_of F V)) in E1. rewrite !text_lines in E1. subst t' csv'.
  exists tr, e', tr', csv. split; [now rewrite W at 1|]. split; [reflexivity|].
  split; [now rewrite T1, T2|].
  split; [apply (proj2 (C103_file_exactly_on_return _ _ _ H1) e' eq_refl)|].
  apply (proj1 (C103_file_exactly_on_return _ _ _ H2) csv eq_refl).
Qed.

(** If nothing fails, the pictures are exactly the expected ones, each drawn
    once; without pictures switched on there are none. *)
Theorem C103_pictures : forall s tr r,
  (forall l, Permutation (s_order s l) l) -> smooth F s -> run s = (tr, r) ->
  (s_vtk s = false -> pictures_of F V tr = []) /\
  (s_vtk s = true ->
   NoDup (map fst (pictures_of F V tr)) /\
   forall p f, In (p, f) (pictures_of F V tr) <->
     expected F diff (s_exact s) (s_msfem s) (s_fem s) (s_coarse s) (s_prolonged s) p f).
Proof.
  intros s tr r O N H. apply run_cases in H.
  destruct H as [(e & -> & _ & _ & [Z|[Z|[Z|Z]]])|H].
  - rewrite N in Z. discriminate.
  - rewrite N in Z. discriminate.
  - destruct Z as (ev & Z). apply coarse_effects in Z. rewrite !N in Z.
    destruct Z as (_ & _ & _ & [Z|[Z|Z]]); repeat match goal with H : _ /\ _ |- _ => destruct H end; congruence.
  - destruct Z as (ev & Z). apply msfem_effects in Z. destruct Z as (_ & _ & _ & Z). destruct (Z e eq_refl) as (_ & Z').
    rewrite !N in Z'. destruct Z' as [Z'|[Z'|[Z'|(q & _ & Z')]]]; try discriminate. rewrite N in Z'. discriminate.
  - destruct H as (ev0 & ev1 & fem & c & csv & t & _ & _ & Z1 & Z2 & _ & _ & [Z4|Z4]).
    2:{ destruct Z4 as (e' & _ & _ & [Z6|(q & _ & Z6)]); rewrite N in Z6; discriminate. }
    destruct Z4 as (_ & _ & P & _). rewrite P. clear P.
    apply coarse_effects in Z1. rewrite !N in Z1. destruct Z1 as (_ & _ & [Z|[Z|[Z|Z]]]);
      repeat match goal with H : _ /\ _ |- _ => destruct H end; try congruence. subst fem c.
    apply msfem_effects in Z2. destruct Z2 as (_ & _ & Z2 & _). destruct (Z2 eq_refl) as (P1 & _).
    rewrite P1. match goal with H : pictures_of F V ev0 = _ |- _ => rewrite H end.
    unfold coarse_pic, early, late_pics. clear - O. destruct (s_vtk s).
    2:{ split; [reflexivity|discriminate]. }
    split; [discriminate|]. intros _. split.
    + rewrite !map_app.
      assert (Q : forall l, Permutation (map fst (s_order s l)) (map fst l)) by (intros; apply Permutation_map, O).
      eapply Permutation_NoDup.
      { apply Permutation_app_head, Permutation_app_head. apply Permutation_sym.
        apply Permutation_app; [apply Q|]. apply Permutation_app_tail. apply Q. }
      destruct (s_exact s), (s_msfem s), (s_fem s); cbn;
        repeat (constructor; [cbn; intuition discriminate|]); constructor.
    + intros p f. rewrite !in_app_iff.
      assert (Q : forall l, In (p, f) (s_order s l) <-> In (p, f) l).
      { intros l. split; apply Permutation_in; [apply O|apply Permutation_sym, O]. }
      rewrite !Q. clear Q. split.
      * intros I0. destruct (s_exact s), (s_msfem s), (s_fem s); cbn in I0;
          repeat match goal with H : _ \/ _ |- _ => destruct H end; try contradiction;
          match goal with H : (_, _) = (_, _) |- _ => injection H as <- <- end; econstructor; reflexivity.
      * intros X. destruct X; repeat match goal with H : _ = Some _ |- _ => rewrite H; clear H end; cbn; auto 12;
          destruct (s_exact s), (s_msfem s), (s_fem s); cbn; auto 12.
Qed.

(** With picture and file output working, result and text are the ones of the
    error calculation described by C36, C38 and C98. *)
Theorem C103_agrees_with_the_report : forall s tr r,
  (forall c, match c with SolveCoarse | Match | Project => True | _ => s_fails s c = None end) ->
  run s = (tr, r) ->
  let coarse := match s_fails s SolveCoarse with
                | None => Done (s_prolonged s) | Some DuneExc => DuneError | Some OtherExc => OtherError end in
  let msfem := option_map (fun f => match s_fails s Project with None => Done f | Some _ => DuneError end) (s_msfem s) in
  let matched := match s_fails s Match with None => true | Some _ => false end in
  (forall csv, r = Returned csv <->
     print F V diff l2 h1s zero (s_exact s) (s_fem s) coarse msfem matched = Report csv) /\
  text_of F V tr = printed F V diff l2 h1s zero div exceeds (s_exact s) (s_fem s) coarse msfem matched.
Proof.
  intros s tr r N H.
  assert (ND : forall p, s_fails s (Draw p) = None) by (intros p; apply (N (Draw p))).
  assert (N1 : s_fails s MakeGrids = None /\ s_fails s Prolong = None /\ s_fails s Flow = None /\
               s_fails s Assemble = None /\ s_fails s OpenFile = None).
  { repeat split; [apply (N MakeGrids)|apply (N Prolong)|apply (N Flow)|apply (N Assemble)|apply (N OpenFile)]. }
  destruct N1 as (A1 & A2 & A3 & A4 & A5).
  destruct (run (with_pictures F false s)) as (tr', r') eqn:H'.
  assert (E : r = r' /\ text_of F V tr = text_of F V tr').
  { destruct (s_vtk s) eqn:VT.
    - assert (W : s = with_pictures F true s) by (clear - VT; destruct s; cbn in VT; subst; reflexivity).
      rewrite W in H. destruct (C103_pictures_change_nothing _ _ _ _ _ ND H H') as (? & ? & _). auto.
    - assert (W : s = with_pictures F false s) by (clear - VT; destruct s; cbn in VT; subst; reflexivity).
      rewrite <- W in H'. rewrite H in H'. injection H' as <- <-. auto. }
  destruct E as (-> & ->). clear H N. cbv zeta.
  unfold run_print, coarse_reference, coarse_block, msfem_part, difference_pictures, invoke, print, printed in *.
  cbn [with_pictures s_fails s_vtk s_msfem s_exact s_prolonged s_partial s_fem] in H'.
  rewrite A1, A2, A3, A4, A5 in H'.
  set (hd := map Line (heading V)) in *.
  assert (TH : text_of F V hd = heading V) by apply text_lines. clearbody hd.
  assert (RP : forall fem c, exists csv a d, report_part F V diff l2 h1s div exceeds (with_pictures F false s) fem c =
                 (map Line (a ++ d)%list, inl csv) /\
               collect F V diff l2 h1s (s_exact s) (s_msfem s) fem c = Some csv /\
               analytical_text F V diff l2 h1s (s_exact s) (s_msfem s) fem c = Some a /\
               discrete_text F V diff l2 h1s div exceeds (s_msfem s) fem c = Some d).
  { intros fem c. unfold report_part. cbn [with_pictures s_exact s_msfem].
    destruct (collect_spec F V diff l2 h1s (s_exact s) (s_msfem s) fem c) as (csv & -> & _). exists csv.
    destruct (s_exact s) as [u|], (s_msfem s) as [f|], fem as [g|]; (eexists; eexists; split; [reflexivity|]; repeat split). }
  destruct (s_fails s SolveCoarse) as [[|]|].
  - (* the coarse solve fails *)
    destruct (RP None zero) as (csv & a & d & R1 & R2 & R3 & R4).
    destruct (s_msfem s) as [f|]; cbn [option_map].
    + destruct (s_fails s Match) as [e|].
      { unfold emit, seq in H'. injection H' as <- <-. split; [intros; split; discriminate|].
        rewrite !text_app, TH. reflexivity. }
      destruct (s_fails s Project) as [e|].
      { unfold emit, seq in H'. injection H' as <- <-. split; [intros; split; discriminate|].
        rewrite !text_app, TH. reflexivity. }
      unfold emit, seq in H'. cbn [fst snd] in H'. rewrite R1 in H'. injection H' as <- <-.
      rewrite R2, R3, R4. split; [intros c; split; intros X; injection X as ->; reflexivity|].
      rewrite text_app, TH. f_equal. change (text_of F V (map Line (a ++ d) ++ [File csv]) = (a ++ d)%list).
      rewrite text_app, text_lines. apply app_nil_r.
    + unfold emit, seq in H'. cbn [fst snd] in H'. rewrite R1 in H'. injection H' as <- <-.
      rewrite R2, R3, R4. split; [intros c; split; intros X; injection X as ->; reflexivity|].
      rewrite text_app, TH. f_equal. change (text_of F V (map Line (a ++ d) ++ [File csv]) = (a ++ d)%list).
      rewrite text_app, text_lines. apply app_nil_r.
  - unfold emit, seq in H'. injection H' as <- <-. split; [intros; split; discriminate|].
    rewrite !text_app, TH. reflexivity.
  - destruct (RP (s_fem s) (s_prolonged s)) as (csv & a & d & R1 & R2 & R3 & R4).
    destruct (s_msfem s) as [f|]; cbn [option_map].
    + destruct (s_fails s Match) as [e|].
      { unfold emit, seq in H'. injection H' as <- <-. split; [intros; split; discriminate|].
        rewrite !text_app, TH. reflexivity. }
      destruct (s_fails s Project) as [e|].
      { unfold emit, seq in H'. injection H' as <- <-. split; [intros; split; discriminate|].
        rewrite !text_app, TH. reflexivity. }
      unfold emit, seq in H'. cbn [fst snd] in H'. rewrite R1 in H'. injection H' as <- <-.
      rewrite R2, R3, R4. split; [intros c; split; intros X; injection X as ->; reflexivity|].
      rewrite text_app, TH. f_equal. change (text_of F V (map Line (a ++ d) ++ [File csv]) = (a ++ d)%list).
      rewrite text_app, text_lines. apply app_nil_r.
    + unfold emit, seq in H'. cbn [fst snd] in H'. rewrite R1 in H'. injection H' as <- <-.
      rewrite R2, R3, R4. split; [intros c; split; intros X; injection X as ->; reflexivity|].
      rewrite text_app, TH. f_equal. change (text_of F V (map Line (a ++ d) ++ [File csv]) = (a ++ d)%list).
      rewrite text_app, text_lines. apply app_nil_r.
Qed.
End C103.
Print Assumptions C103_file_exactly_on_return.
Print Assumptions C103_returned_entries.
Print Assumptions C103_flow_logged_once.
Print Assumptions C103_pictures_change_nothing.
Print Assumptions C103_failed_coarse_picture.
Print Assumptions C103_text_of_a_failed_call.
Print Assumptions C103_failed_late_picture.
Print Assumptions C103_pictures.
Print Assumptions C103_agrees_with_the_report.

(** Everything available, pictures on. *)
Definition ex_sit (fails : ext -> option exn) : situation nat :=
  {| s_exact := Some 9; s_fem := Some 4; s_msfem := Some 5; s_coarse := 30; s_prolonged := 3; s_partial := 1;
     s_vtk := true; s_fails := fails; s_order := @rev (string * nat) |}.
Definition ex_print (s : situation nat) :=
  run_print nat nat (fun a b => a - b) (fun f => f) (fun f => 2 * f) 0 (fun a b => 100 * a / b) (Nat.leb 1) s.
Definition fails_at (c : ext) : ext -> option exn :=
  fun c' => match c, c' with
            | Draw p, Draw q => if String.eqb p q then Some DuneExc else None
            | SolveCoarse, SolveCoarse | Prolong, Prolong | OpenFile, OpenFile => Some DuneExc
            | _, _ => None
            end.
Example C103_case :
  (forall l, Permutation (s_order (ex_sit (fun _ => None)) l) l) /\ smooth nat (ex_sit (fun _ => None)) /\
  (let '(tr, r) := ex_print (ex_sit (fun _ => None)) in
   pictures_of nat nat tr =
     [("coarse-cg-fem_solution_", 30); ("exact_solution", 9); ("msfem_solution_", 5); ("msfem_exact", 4);
      ("fem_exact", 5); ("coarse_fem_exact", 6); ("msfem_coarse_fem", 2); ("msfem_fem", 1);
      ("fine-cg-fem_solution_", 4)] /\
   exists csv, r = Returned csv /\ List.length csv = 11) /\
  (let '(tr, r) := ex_print (ex_sit (fails_at (Draw "coarse-cg-fem_solution_"))) in
   exists csv, r = Returned csv /\ List.length csv = 7 /\ In ("msfem_coarse_fem_L2", 2) csv) /\
  (let '(tr, r) := ex_print (ex_sit (fails_at Prolong)) in
   exists csv, r = Returned csv /\ List.length csv = 7 /\ In ("msfem_coarse_fem_L2", 4) csv).
Proof.
  split; [intros l; apply Permutation_sym, Permutation_rev|]. split; [intros c; reflexivity|].
  vm_compute. split; [split; [reflexivity|eauto]|]. split; eexists; (split; [reflexivity|]); (split; [reflexivity|auto 12]).
Qed.
(** A late picture fails: all the text, no file. *)
Example C103_late_case :
  let '(tr, r) := ex_print (ex_sit (fails_at (Draw "msfem_fem"))) in
  late "msfem_fem" = true /\ r = Threw DuneExc /\ files_of nat nat tr = [] /\
  List.length (text_of nat nat tr) = 20 /\
  text_of nat nat tr = text_of nat nat (fst (ex_print (with_pictures nat false (ex_sit (fun _ => None))))) /\
  text_of nat nat (fst (ex_print (ex_sit (fails_at (Draw "exact_solution"))))) = [Blank; Title "The L2 errors:"; Blank].
Proof. vm_compute. auto 10. Qed.
