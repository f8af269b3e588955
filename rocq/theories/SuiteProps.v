(** Theorems about the shipped configurations of the test programs: C123. *)
From Coq Require Import List Arith ZArith QArith Reals Qreals Lia Lra Bool String.
From Verif Require Import Util ErrorModel ErrorSpec ErrorProps CompareModel CompareSpec CompareProps GridModel GridSpec LocalGridModel SearchModel
  SearchSpec SearchProps GtestModel GtestSpec GtestProps ProjectionModel MeshModel MeshSpec MeshProps SuiteModel SuiteSpec
  SuiteProofs.
Import ListNotations.
Local Open Scope string_scope.

(** One configuration for every setup of any file; its entries are the entries
    of the file, those that name a key of the setup with the value of that key. *)
Theorem C123_one_configuration_per_setup : forall inc ls,
  map fst (expand inc ls) = setups ls /\
  forall s c, In (s, c) (expand inc ls) ->
  forall k w, In (k, w) c <->
    (In (k, w) (read inc "" ls) /\ (forall key, w <> OfSetup key)) \/
    (exists key, In (k, OfSetup key) (read inc "" ls) /\ assoc_str (s ++ "." ++ key) (read inc "" ls) = Some w).
Proof.
  intros inc ls. split.
  - unfold expand. cbv zeta. rewrite map_map. cbn [fst]. apply map_id.
  - intros s c I k w. unfold expand in I. cbv zeta in I. apply in_map_iff in I. destruct I as (s' & E & _).
    injection E as <- <-. rewrite in_fill. split.
    + intros (v & A & B). destruct v as [x|l|q|key]; cbn [resolve] in B.
      1-3: injection B as <-; left; split; [exact A|discriminate].
      right. exists key. split; assumption.
    + intros [(A & N)|(key & A & B)].
      * exists w. split; [exact A|]. destruct w as [x|l|q|key]; try reflexivity. now destruct (N key).
      * exists (OfSetup key). split; [exact A|exact B].
Qed.
Print Assumptions C123_one_configuration_per_setup.

(** Every shipped configuration creates the grids its setup stands for, in one,
    two and three directions. *)
Theorem C123_grids_of_the_setup : forall f names d ll ur overlap,
  In (f, names) shipped -> (d <= 3)%nat ->
  map fst (configurations f) = names /\
  forall s c, In (s, c) (configurations f) ->
  exists macro micro layers, meant s macro micro layers /\
    grid_config d ll ur overlap c =
    Some {| c_ll := ll; c_ur := ur; c_layers := layers; c_coarse := map inject_Z (firstn d macro);
            c_micro := map inject_Z (firstn d micro); c_overlap := overlap |}.
Proof. exact grids_of_the_setup. Qed.
Print Assumptions C123_grids_of_the_setup.

(** The bounds of the comparison test of the multiscale method are set under
    other keys than the ones it reads: it fails with every shipped
    configuration, whatever the two runs compute. *)
Theorem C123_multiscale_comparison_fails : forall s c feq first second,
  In (s, c) (configurations compare_msfem_mini) ->
  (forall k v, In (k, v) first -> (0 <= v)%R) ->
  compare_test feq msfem_keys (fun k => option_map Q2R (expected_error c k)) first second = false.
Proof.
  intros s c feq first second I P. apply (C89_missing_bound_fails _ _ _ _ _ "msfem_exact_L2"); [exact P|now left|].
  vm_compute in I. destruct I as [I|[I|[]]]; injection I as <- <-; reflexivity.
Qed.
Print Assumptions C123_multiscale_comparison_fails.

(** The keys under which it sets the bounds of its setup are those of the
    reference method. *)
Theorem C123_multiscale_bounds_under_wrong_keys : forall s c,
  In (s, c) (configurations compare_msfem_mini) ->
  exists l2 h1s, In (s, l2, h1s) [("p_small", 251 # 1000, 267 # 100); ("p_minimal", 57 # 100, 23 # 10)]%Q /\
  expected_error c "fem_exact_L2" = Some l2 /\ expected_error c "fem_exact_H1s" = Some h1s /\
  forall k, In k msfem_keys -> expected_error c k = None.
Proof.
  intros s c I. vm_compute in I. destruct I as [I|[I|[]]]; injection I as <- <-; do 2 eexists.
  - split; [left; reflexivity|]. split; [reflexivity|]. split; [reflexivity|].
    intros k [<-|[<-|[]]]; reflexivity.
  - split; [right; left; reflexivity|]. split; [reflexivity|]. split; [reflexivity|].
    intros k [<-|[<-|[]]]; reflexivity.
Qed.
Print Assumptions C123_multiscale_bounds_under_wrong_keys.

(** The comparison test of the reference method reads the bounds of the setup:
    it passes if and only if both runs agree and the errors of the first stay
    below them. *)
Theorem C123_reference_comparison : forall s c feq first second,
  In (s, c) (configurations compare_cgfem_mini) ->
  NoDup (map fst first) -> NoDup (map fst second) ->
  exists l2 h1s, In (s, l2, h1s) [("p_small", 0.251, 2.67); ("p_minimal", 0.57, 2.3)]%R /\
  (compare_test feq cgfem_keys (fun k => option_map Q2R (expected_error c k)) first second = true <->
   (forall v, value_or_zero first "fem_exact_L2" v -> (v < l2)%R) /\
   (forall v, value_or_zero first "fem_exact_H1s" v -> (v < h1s)%R) /\
   (forall k v w, k = "fem_exact_L2" \/ k = "fem_exact_H1s" \/ In k (map fst first) ->
      value_or_zero first k v -> value_or_zero second k w -> feq v w = true)).
Proof.
  intros s c feq first second I N1 N2.
  assert (B : exists l2 h1s, In (s, l2, h1s) [("p_small", 0.251, 2.67); ("p_minimal", 0.57, 2.3)]%R /\
    option_map Q2R (expected_error c "fem_exact_L2") = Some l2 /\
    option_map Q2R (expected_error c "fem_exact_H1s") = Some h1s).
  { vm_compute in I. destruct I as [I|[I|[]]]; injection I as <- <-; do 2 eexists.
    - split; [left; reflexivity|]. split; cbn; unfold Q2R; f_equal; cbn [Qnum Qden]; lra.
    - split; [right; left; reflexivity|]. split; cbn; unfold Q2R; f_equal; cbn [Qnum Qden]; lra. }
  destruct B as (l2 & h1s & B0 & B1 & B2). exists l2, h1s. split; [exact B0|].
  rewrite (C89_passing_test_means feq cgfem_keys _ first second N1 N2). unfold cgfem_keys. split.
  - intros (A & E). split; [|split].
    + intros v V. specialize (A "fem_exact_L2" v (or_introl eq_refl) V). rewrite B1 in A. exact A.
    + intros v V. specialize (A "fem_exact_H1s" v (or_intror (or_introl eq_refl)) V). rewrite B2 in A. exact A.
    + intros k v w K. apply E. destruct K as [->|[->|K]]; [left; now left|left; right; now left|now right].
  - intros (A1 & A2 & E). split.
    + intros k v [<-|[<-|[]]] V; [rewrite B1|rewrite B2]; auto.
    + intros k v w K. apply E. destruct K as [[<-|[<-|[]]]|K]; auto.
Qed.
Print Assumptions C123_reference_comparison.

(** The projection test: with the setup of one cell every search throws, with
    the other the norm is too small. It passes with no shipped configuration. *)
Theorem C123_projection_test_fails : forall s c d ll ur overlap g,
  In (s, c) (configurations projection_mini) -> (1 <= d <= 3)%nat ->
  grid_config d ll ur overlap c = Some g ->
  exists ns ms, whole g ns ms /\
  (((forall n, In n ns -> n = 1%Z) /\
    forall cell point ent inside lookup c0 qs st ps,
    sized cell point ent lookup ->
    searches cell point ent inside lookup [c0] (Z.to_nat (total ns)) fresh qs = Some st -> ps <> [] ->
    exists st', search cell point ent inside lookup [c0] (Z.to_nat (total ns)) st ps = Throws st' 1) \/
   (exists v, projected_one (fine_cells ns ms) = Projected v /\
     (norm_square (fine_cells ns ms) (fun j => nth j v 0) <= 7 # 12)%Q)).
Proof.
  intros s c d ll ur overlap g I D G.
  assert (I' : In (projection_mini, ["p_small"; "p_minimal"]) shipped) by (unfold shipped; cbn [In]; tauto).
  destruct (C123_grids_of_the_setup _ _ d ll ur overlap I' ltac:(lia)) as (_ & H).
  destruct (H s c I) as (macro & micro & layers & M & E). rewrite G in E. injection E as ->.
  exists (firstn d macro), (firstn d micro). split.
  { split; cbn [c_coarse c_micro].
    - generalize (firstn d macro). intros l. induction l; constructor; [reflexivity|assumption].
    - generalize (firstn d micro). intros l. induction l; constructor; [reflexivity|assumption]. }
  assert (S : s = "p_small" \/ s = "p_minimal").
  { apply (in_map fst) in I. cbn [fst] in I. vm_compute in I. destruct I as [<-|[<-|[]]]; auto. }
  unfold meant in M. destruct S as [-> | ->]; cbn [In] in M;
    destruct M as [M|[M|[M|[M|[M|[M|[M|[M|[M|[]]]]]]]]]]; try discriminate M; injection M as <- <- <-.
  - right. set (ns := fine_cells _ _).
    assert (C : cells_ok ns /\ ~ Forall (fun n => n = 1%nat) ns).
    { subst ns. destruct d as [|[|[|[|d]]]]; try lia; cbn; split; try (repeat constructor; lia);
        intros F; inversion F; discriminate. }
    destruct C as (C & N). destruct (C104_value_by_position (fun _ => 1%Q) ns C) as (v & P & _).
    exists v. split; [exact P|]. now apply (C104_projection_test ns v C P).
  - left. split.
    + intros n X. destruct d as [|[|[|[|d]]]]; try lia; cbn in X; intuition.
    + intros cell point ent inside lookup c0 qs st ps.
      replace (Z.to_nat (total (firstn d [1; 1; 1]%Z))) with 1%nat
        by (destruct d as [|[|[|[|d]]]]; try lia; reflexivity).
      intros SZ Q NE. eapply C27_single_cell_never_searchable; eauto.
Qed.
Print Assumptions C123_projection_test_fails.

(** The test of the error calculation with its shipped configurations: it
    passes exactly if nothing is thrown, whatever the errors are. The error it
    has a bound for (the fine reference solution against the exact one) is not
    even in the report. With the setup of one cell the projection, hence the
    test, fails. *)
Theorem C123_error_test : forall F V diff l2 h1s zero s c (exact : option F) fine coarse msfem matched,
  In (s, c) (configurations error_calc_check_mini) ->
  (exists b, expected_error c "fem_exact_L2" = Some b) /\ (exists b, expected_error c "fem_exact_H1s" = Some b) /\
  (error_calc_test (V := V) diff l2 h1s zero c exact fine coarse msfem matched = true <->
   coarse <> OtherError /\ matched = true /\ exists f, msfem = ErrorModel.Done f) /\
  (forall csv k v, msfem_report F V diff l2 h1s zero (fem_comparison c) exact fine coarse msfem matched = ErrorModel.Report csv ->
    In (k, v) csv -> k <> "fem_exact_L2" /\ k <> "fem_exact_H1s") /\
  (s = "p_minimal" -> forall d ll ur overlap g, (1 <= d <= 3)%nat -> grid_config d ll ur overlap c = Some g ->
    exists ns ms, whole g ns ms /\ forall cell point ent inside lookup c0 qs st ps,
    sized cell point ent lookup ->
    searches cell point ent inside lookup [c0] (Z.to_nat (total ns)) fresh qs = Some st -> ps <> [] ->
    exists st', search cell point ent inside lookup [c0] (Z.to_nat (total ns)) st ps = Throws st' 1).
Proof.
  intros F V diff l2 h1s zero s c exact fine coarse msfem matched I.
  assert (C : fem_comparison c = false /\ (exists b, expected_error c "fem_exact_L2" = Some b) /\
              (exists b, expected_error c "fem_exact_H1s" = Some b)).
  { vm_compute in I. destruct I as [E|[E|[E|[]]]]; injection E as <- <-;
      (split; [reflexivity|split; eexists; reflexivity]). }
  destruct C as (C & B1 & B2). split; [exact B1|]. split; [exact B2|].
  assert (E : msfem_report F V diff l2 h1s zero (fem_comparison c) exact fine coarse msfem matched =
              ErrorModel.print F V diff l2 h1s zero exact None coarse (Some msfem) matched) by (unfold msfem_report; now rewrite C).
  split; [|split].
  - unfold error_calc_test. rewrite E. split.
    + destruct (ErrorModel.print F V diff l2 h1s zero exact None coarse (Some msfem) matched) as [csv| |] eqn:P; try discriminate.
      destruct (C36_no_report_without_projection _ _ _ _ _ _ _ _ _ _ _ _ P) as (M & D & N). auto.
    + intros (N & -> & f & ->). destruct coarse as [g| |]; [| |now destruct N].
      * destruct (C36_entries_exact F V diff l2 h1s zero exact None g (Some f)) as (csv & P & _).
        cbn [option_map] in P. now rewrite P.
      * destruct (C36_entries_exact F V diff l2 h1s zero exact None zero (Some f)) as (csv & P & _).
        cbn [option_map] in P. replace (ErrorModel.print F V diff l2 h1s zero exact None DuneError (Some (ErrorModel.Done f)) true)
          with (ErrorModel.print F V diff l2 h1s zero exact None (ErrorModel.Done zero) (Some (ErrorModel.Done f)) true) by reflexivity.
        now rewrite P.
  - intros csv k v R K. rewrite E in R.
    destruct (C36_no_report_without_projection _ _ _ _ _ _ _ _ _ _ _ _ R) as (-> & (f & ->) & N).
    assert (X : exists g, ErrorModel.print F V diff l2 h1s zero exact None (ErrorModel.Done g) (Some (ErrorModel.Done f)) true = ErrorModel.Report csv).
    { destruct coarse as [g| |]; [now exists g|now exists zero|now destruct N]. }
    destruct X as (g & X).
    destruct (C36_entries_exact F V diff l2 h1s zero exact None g (Some f)) as (csv' & P & H & _).
    cbn [option_map] in P. rewrite P in X. injection X as ->. apply H in K.
    split; intros ->; inversion K; discriminate.
  - intros -> d ll ur overlap g D G.
    assert (I' : In (error_calc_check_mini, ["p_small"; "p_wover"; "p_minimal"]) shipped)
      by (unfold shipped; cbn [In]; tauto).
    destruct (C123_grids_of_the_setup _ _ d ll ur overlap I' ltac:(lia)) as (_ & H).
    destruct (H _ c I) as (macro & micro & layers & M & E'). rewrite G in E'. injection E' as ->.
    exists (firstn d macro), (firstn d micro). split.
    { split; cbn [c_coarse c_micro].
      - generalize (firstn d macro). intros l. induction l; constructor; [reflexivity|assumption].
      - generalize (firstn d micro). intros l. induction l; constructor; [reflexivity|assumption]. }
    unfold meant in M. cbn [In] in M.
    destruct M as [M|[M|[M|[M|[M|[M|[M|[M|[M|[]]]]]]]]]]; try discriminate M; injection M as <- <- <-.
    intros cell point ent inside lookup c0 qs st ps.
    replace (Z.to_nat (total (firstn d [1; 1; 1]%Z))) with 1%nat
      by (destruct d as [|[|[|[|d]]]]; try lia; reflexivity).
    intros SZ Q NE. eapply C27_single_cell_never_searchable; eauto.
Qed.
Print Assumptions C123_error_test.

(** With a line that switches the comparison on, and only then, the report has
    the error the file has a bound for. *)
Theorem C123_error_test_with_comparison : forall F V diff l2 h1s zero q s c (exact fine coarse msfem : F),
  In (s, c) (configurations (Entry "msfem.fem_comparison" (Number q) :: error_calc_check_mini)) ->
  exists csv, msfem_report F V diff l2 h1s zero (fem_comparison c) (Some exact) (ErrorModel.Done fine) (ErrorModel.Done coarse) (ErrorModel.Done msfem) true
    = ErrorModel.Report csv /\ ((exists v, In ("fem_exact_L2", v) csv) <-> ~ (q == 0)%Q).
Proof.
  intros F V diff l2 h1s zero q s c exact fine coarse msfem I.
  assert (C : fem_comparison c = negb (Qeq_bool q 0)).
  { revert I. generalize q. clear. intros q I. vm_compute in I. destruct I as [E|[E|[E|[]]]]; injection E as <- <-; reflexivity. }
  rewrite C. unfold msfem_report. destruct (Qeq_bool q 0) eqn:Z; cbn [negb].
  - destruct (C36_entries_exact F V diff l2 h1s zero (Some exact) None coarse (Some msfem)) as (csv & P & H & _).
    exists csv. split; [exact P|]. apply Qeq_bool_iff in Z. split; [|now intros N; destruct N].
    intros (v & K). apply H in K. inversion K. discriminate.
  - destruct (C36_entries_exact F V diff l2 h1s zero (Some exact) (Some fine) coarse (Some msfem)) as (csv & P & H & _).
    exists csv. split; [exact P|]. apply Qeq_bool_neq in Z. split; [auto|]. intros _. eexists. apply H. econstructor; reflexivity.
Qed.
Print Assumptions C123_error_test_with_comparison.
Example C123_error_test_with_comparison_case : exists s c,
  In (s, c) (configurations (Entry "msfem.fem_comparison" (Number 1) :: error_calc_check_mini)) /\ fem_comparison c = true.
Proof. do 2 eexists. split; [vm_compute; left; reflexivity|reflexivity]. Qed.

(** Both comparison tests run the problem Synthetic, without pictures; the
    multiscale run is never compared with a reference solution, even if there
    is one. *)
Theorem C123_compared_runs : forall F V diff l2 h1s zero s c (exact fine coarse msfem : F),
  In (s, c) (configurations compare_msfem_mini ++ configurations compare_cgfem_mini)%list ->
  assoc_str "problem.name" c = Some (Word "Synthetic") /\ number_of c "global.vtk_output" = Some 0%Q /\
  exists csv, msfem_report F V diff l2 h1s zero (fem_comparison c) (Some exact) (ErrorModel.Done fine) (ErrorModel.Done coarse)
    (ErrorModel.Done msfem) true = ErrorModel.Report csv /\
    (exists v, In ("msfem_exact_L2", v) csv) /\ (forall v, ~ In ("msfem_fem_L2", v) csv) /\ (forall v, ~ In ("fem_exact_L2", v) csv).
Proof.
  intros F V diff l2 h1s zero s c exact fine coarse msfem I.
  assert (C : fem_comparison c = false /\ assoc_str "problem.name" c = Some (Word "Synthetic") /\
              number_of c "global.vtk_output" = Some 0%Q).
  { vm_compute in I. destruct I as [E|[E|[E|[E|[]]]]]; injection E as <- <-; repeat split; reflexivity. }
  destruct C as (C & P & O). split; [exact P|]. split; [exact O|]. rewrite C. unfold msfem_report.
  destruct (C36_entries_exact F V diff l2 h1s zero (Some exact) None coarse (Some msfem)) as (csv & R & H & _).
  exists csv. split; [exact R|]. split; [|split].
  - eexists. apply H. econstructor; reflexivity.
  - intros v K. apply H in K. inversion K; discriminate.
  - intros v K. apply H in K. inversion K; discriminate.
Qed.
Print Assumptions C123_compared_runs.
Example C123_compared_runs_case :
  map fst (configurations compare_msfem_mini ++ configurations compare_cgfem_mini)%list = ["p_small"; "p_minimal"; "p_small"; "p_minimal"].
Proof. vm_compute. reflexivity. Qed.

(** The two grid tests on one process pass with every setup of the common file
    but the one with a single cell; that one is not among the setups of the
    test. *)
Theorem C123_grid_test : forall s macro micro layers d ll ur overlap eps ent lookup entities comm comm' stored width,
  meant s macro micro layers -> (1 <= d <= 3)%nat -> proper ll ur (firstn d macro) ->
  (0 <= eps /\ eps * 4800 < 1)%Q ->
  exists gc gf,
  let c := {| c_ll := ll; c_ur := ur; c_layers := layers; c_coarse := map inject_Z (firstn d macro);
              c_micro := map inject_Z (firstn d micro); c_overlap := overlap |} in
  make_coarse_grid c comm 1 stored width = Created gc /\ make_fine_grid c comm' = Created gf /\
  (reliable ent eps lookup (all_cells gc) ->
   (forall e, In e entities -> e_interior e = true) -> NoDup (map e_index entities) ->
   List.length entities = List.length (all_cells gc) ->
   (match_test eps d (c_coarse c) (c_micro c) (all_cells gc) (all_cells gf) = true /\
    lp_test ent lookup eps (all_cells gc) (all_cells gc) entities (List.length (all_cells gc)) (all_cells gf) = true <->
    s <> "p_minimal")).
Proof.
  intros s macro micro layers d ll ur overlap eps ent lookup entities comm comm' stored width M D P (E0 & E1).
  set (c := {| c_ll := ll; c_ur := ur; c_layers := layers; c_coarse := map inject_Z (firstn d macro);
              c_micro := map inject_Z (firstn d micro); c_overlap := overlap |}).
  assert (B : exists gc gf, make_coarse_grid c comm 1 stored width = Created gc /\ make_fine_grid c comm' = Created gf /\
    (forall k, In k (g_elements gf) -> 1 <= k <= 4800)%Z /\
    List.length (firstn d macro) = d /\ List.length (firstn d micro) = d /\ (forall m, In m (firstn d micro) -> 1 <= m)%Z /\
    ((2 <= total (firstn d macro))%Z /\ (exists m, In m (firstn d micro) /\ (2 <= m)%Z) <-> s <> "p_minimal")).
  { subst c. unfold meant in M. cbn [In] in M.
    repeat (destruct M as [M|M]; [injection M as <- <- <- <-|]); try destruct M; clear P.
    all: destruct d as [|[|[|[|d]]]]; [lia| | | |lia].
    all: do 2 eexists; split; [cbv - [int_to_unsigned]; reflexivity|].
    all: split; [cbn - [int_to_unsigned Z.eqb]; unfold make_fine_grid, create_cube_grid, setup_fine_overlap;
                 cbn [map c_coarse c_overlap forallb firstn]; rewrite ?Z.eqb_refl; cbn [andb]; cbv - [int_to_unsigned]; reflexivity|].
    all: cbn [g_elements]; split; [intros k K; cbn [In] in K; intuition lia|].
    all: split; [reflexivity|]; split; [reflexivity|]; split; [intros m K; cbn [In firstn] in K; intuition lia|].
    all: split; [intros (X & m & K & L) Z; try discriminate Z; cbn [In firstn] in K; intuition lia|].
    all: intros N; try (now destruct N).
    all: split; [vm_compute; discriminate|]; cbn [firstn In]; eexists; (split; [left; reflexivity|lia]). }
  destruct B as (gc & gf & G & F & K & L1 & L2 & MS & S). exists gc, gf. intros c'. fold c in c'. subst c'.
  split; [exact G|]. split; [exact F|]. intros R EI ND LE. rewrite <- S. rewrite <- L1 at 1.
  apply (C106_whole_test c (firstn d macro) (firstn d micro) comm 1 stored width gc comm' gf); auto.
  - split; cbn [c c_coarse c_micro].
    + generalize (firstn d macro). intros l. induction l; constructor; [reflexivity|assumption].
    + generalize (firstn d micro). intros l. induction l; constructor; [reflexivity|assumption].
  - congruence.
  - split; [exact E0|]. intros k I. apply K in I. apply Qle_lt_trans with (eps * 4800)%Q; [|exact E1].
    rewrite (Qmult_comm eps), (Qmult_comm eps). apply Qmult_le_compat_r; [|exact E0]. unfold Qle; cbn. lia.
Qed.
Print Assumptions C123_grid_test.

(** The configuration of the comparison test of the multiscale method with the
    small setup: two bounds, but not for the errors the test reads. *)
Example C123_case : exists c,
  In ("p_small", c) (configurations compare_msfem_mini) /\
  expected_error c "fem_exact_L2" = Some (251 # 1000) /\ expected_error c "msfem_exact_L2" = None /\
  number_of c "threading.max_count" = Some 1%Q.
Proof. eexists. split; [left; reflexivity|]. repeat split; reflexivity. Qed.

(** With the keys the test reads in the file it can pass. *)
Example C123_repaired_case : forall c,
  In ("p_small", c) (expand (read [] "" common_grids)
    ([Include; Expand ["p_small"]] ++ bounds "p_small" "msfem_exact_L2" "msfem_exact_H1s" (251 # 1000) (267 # 100) ++
     [Sect "expected_errors"; Entry "msfem_exact_L2" (OfSetup "msfem_exact_L2");
      Entry "msfem_exact_H1s" (OfSetup "msfem_exact_H1s")])%list) ->
  compare_test (fun _ _ => true) msfem_keys (fun k => option_map Q2R (expected_error c k))
    [("msfem_exact_L2", 0.1%R); ("msfem_exact_H1s", 0.1%R)] [] = true.
Proof.
  intros c [I|[]]. vm_compute in I. injection I as <-.
  apply C89_passing_test_means; [repeat constructor; cbn; intuition discriminate|constructor|]. split; [|reflexivity].
  intros k v [<-|[<-|[]]] [[V|[V|[]]]|(N & _)]; try discriminate V; try (injection V as <-; cbn; unfold Q2R; cbn; lra);
    cbn in N; tauto.
Qed.

(** Errors below the bounds in both runs: the reference test passes. *)
Example C123_reference_case : forall c,
  In ("p_minimal", c) (configurations compare_cgfem_mini) ->
  compare_test (fun _ _ => true) cgfem_keys (fun k => option_map Q2R (expected_error c k))
    [("fem_exact_L2", 0.5%R); ("fem_exact_H1s", 2%R)] [] = true /\
  compare_test (fun _ _ => true) cgfem_keys (fun k => option_map Q2R (expected_error c k))
    [("fem_exact_L2", 0.6%R); ("fem_exact_H1s", 2%R)] [] = false.
Proof.
  intros c I. vm_compute in I. destruct I as [I|[I|[]]]; [discriminate I|]. injection I as <-. split.
  - apply C89_passing_test_means; [repeat constructor; cbn; intuition discriminate|constructor|]. split; [|reflexivity].
    intros k v [<-|[<-|[]]] [[V|[V|[]]]|(N & _)]; try discriminate V; try (injection V as <-; cbn; unfold Q2R; cbn; lra);
      cbn in N; tauto.
  - apply not_true_is_false. intros T.
    apply C89_passing_test_means in T; [|repeat constructor; cbn; intuition discriminate|constructor].
    destruct T as (A & _). specialize (A "fem_exact_L2" 0.6%R (or_introl eq_refl) (or_introl (or_introl eq_refl))).
    cbn in A. unfold Q2R in A. cbn in A. lra.
Qed.

(** The grids of the anisotropic setup in two directions. *)
Example C123_grid_case :
  meant "p_aniso" [14; 4; 6]%Z [3; 32; 8]%Z 0 /\ proper [0; 0]%Q [1; 1]%Q (firstn 2 [14; 4; 6]%Z) /\
  make_coarse_grid {| c_ll := [0; 0]%Q; c_ur := [1; 1]%Q; c_layers := 0; c_coarse := map inject_Z [14; 4]%Z;
    c_micro := map inject_Z [3; 32]%Z; c_overlap := 1 |} 0 1 56 0 =
  Created {| g_ll := [0; 0]%Q; g_ur := [1; 1]%Q; g_elements := [14; 4]%Z; g_overlap := 0; g_comm := 0 |}.
Proof.
  split; [unfold meant; repeat first [left; reflexivity|right]|]. split; [repeat constructor; reflexivity|reflexivity].
Qed.

(** An error of a thousand where at most 0.251 is expected: the test passes;
    with a projection that throws it fails. *)
Example C123_error_case : exists c,
  In ("p_small", c) (configurations error_calc_check_mini) /\ expected_error c "fem_exact_L2" = Some (251 # 1000) /\
  let test := error_calc_test (fun a b : nat => (a - b)%nat) (fun f => f) (fun f => f) 0%nat c (Some 1000%nat) in
  test DuneError (ErrorModel.Done 0%nat) (ErrorModel.Done 0%nat) true = true /\ test DuneError (ErrorModel.Done 0%nat) DuneError true = false.
Proof. eexists. split; [left; reflexivity|]. repeat split; reflexivity. Qed.
