(** Theorems about the shared error file (C97) and the printed report (C98). *)
From Coq Require Import List Arith Ascii String Bool Reals Lra Lia Sorted.
From Verif Require Import Util ErrorModel ErrorSpec ErrorProofs ReportModel ReportSpec ReportProofs.
Import ListNotations.
Open Scope nat_scope.
Open Scope string_scope.

(** * C97: every process writes errors.csv *)

(** All processes have the same report, each one cuts its text into pieces as
    it likes, the calls are interleaved in any way, an older file may be there.
    When every process that has opened the file is done, the file is the
    report. *)
Theorem C97_equal_reports_give_the_report : forall V (show : V -> string) csv sched old ws file' ws',
  (forall w, In w ws -> exists ps, w = Waiting ps /\ List.concat ps = list_ascii_of_string (csv_text V show csv)) ->
  writes sched old ws = (file', ws') ->
  (forall w, In w ws' -> (exists ps, w = Waiting ps) \/ (exists pos, w = Writing pos [])) ->
  (exists w pos ps, In w ws' /\ w = Writing pos ps) ->
  string_of_list_ascii file' = csv_text V show csv.
Proof.
  intros V show csv sched old ws file' ws' H W D (w & pos & ps & I & E).
  assert (C : file' = list_ascii_of_string (csv_text V show csv)).
  { apply (complete _ sched old ws file' ws'); auto.
    - apply Forall_forall. exact H.
    - apply Forall_forall. exact D.
    - apply Exists_exists. exists w. split; auto. exists pos, ps. exact E. }
  rewrite C. apply string_of_list_ascii_of_string.
Qed.
Print Assumptions C97_equal_reports_give_the_report.

(** At any moment after the first opening, with any texts: a byte of the file
    is one that some process writes at that place, or zero. *)
Theorem C97_every_byte_comes_from_a_report : forall texts sched old ws file' ws',
  Forall2 (fun t w => exists ps, w = Waiting ps /\ List.concat ps = t) texts ws ->
  writes sched old ws = (file', ws') ->
  (exists w pos ps, In w ws' /\ w = Writing pos ps) ->
  forall i b, nth_error file' i = Some b -> comes_from texts i b.
Proof.
  intros texts sched old ws file' ws' H W (w & pos & ps & I & E).
  assert (H0 : Forall2 holds texts ws).
  { clear - H. induction H as [|t w texts ws (ps & -> & E) H IH]; constructor; auto. }
  pose proof (bytes_inv texts sched old ws H0) as B. rewrite W in B. destruct B as (_ & _ & _ & B).
  destruct B as [X|X]; auto.
  - apply Exists_exists. exists w. split; auto. exists pos, ps. exact E.
  - exfalso. apply Exists_exists in X. destruct X as (w' & I' & pos' & ps' & ->).
    clear - H I'. induction H as [|t w texts ws (ps & -> & E) H IH]; destruct I'; auto. discriminate.
Qed.
Print Assumptions C97_every_byte_comes_from_a_report.

(** Two processes, pieces are lines; the older file is longer.  In between the
    file has zero bytes, in the end it is complete. *)
Definition two_csv : list (string * nat) := [("a_L2", 1); ("b_L2", 2)].
Definition two_show (n : nat) : string := if Nat.eqb n 1 then "1" else "0.5".
Definition lines_of (s : string) : list (list ascii) :=
  map (fun l => (list_ascii_of_string l ++ [newline])%list) (removelast (split_at newline s)).
Definition two_ws : list writer :=
  [Waiting (lines_of (csv_text nat two_show two_csv)); Waiting (lines_of (csv_text nat two_show two_csv))].
Definition old_file : list ascii := list_ascii_of_string "something much longer that was there before".
Example C97_case :
  let '(mid, _) := writes [0; 0; 1; 0] old_file two_ws in
  let '(fin, ws) := writes [0; 0; 1; 0; 1; 1] old_file two_ws in
  firstn 2 mid = [Ascii.zero; Ascii.zero] /\
  List.concat (lines_of (csv_text nat two_show two_csv)) = list_ascii_of_string (csv_text nat two_show two_csv) /\
  string_of_list_ascii fin = csv_text nat two_show two_csv /\
  ws = [Writing 18 []; Writing 18 []].
Proof. vm_compute. repeat split; reflexivity. Qed.

(** Different reports can leave a file that belongs to no process: here the
    second process has no entry b_L2, and the file has four lines, not two, and
    lines of different length. *)
Example C97_different_reports_mix :
  let one := [("a_L2", 1)] in
  let ws := [Waiting [list_ascii_of_string (csv_text nat two_show two_csv)];
             Waiting [list_ascii_of_string (csv_text nat two_show one)]] in
  let '(fin, ws') := writes [0; 1; 0; 1] old_file ws in
  ws' = [Writing 18 []; Writing 9 []] /\
  string_of_list_ascii fin <> csv_text nat two_show two_csv /\
  string_of_list_ascii fin <> csv_text nat two_show one /\
  map (fun l => List.length (split_at comma l)) (split_at newline (string_of_list_ascii fin)) = [2; 2; 2; 3; 1].
Proof. vm_compute. repeat split; try reflexivity; discriminate. Qed.

(** * C98: the printed report *)

(** A line "label = value" is printed exactly for the entries of the file under
    their labels, the fine difference only if the norm is not above 1e-12, and
    for the two quotients. *)
Theorem C98_text_and_file_agree : forall F V diff l2 h1s zero div exceeds exact fem cs ms matched csv,
  print F V diff l2 h1s zero exact fem cs ms matched = Report csv ->
  forall lab v,
  In (Entry lab v) (printed F V diff l2 h1s zero div exceeds exact fem cs ms matched) <->
  (exists k, In (k, lab) labels /\ In (k, v) csv /\
     (k = "msfem_fem_L2" -> forall n, In ("msfem_L2", n) csv -> exceeds n = false)) \/
  (exists e n, lab = relative_coarse /\ In ("msfem_coarse_fem_L2", e) csv /\ In ("msfem_L2", n) csv /\
     v = div e n) \/
  (exists e n, lab = relative_fine /\ In ("msfem_fem_L2", e) csv /\ In ("msfem_L2", n) csv /\
     exceeds n = true /\ v = div e n).
Proof.
  intros F V diff l2 h1s zero div exceeds exact fem cs ms matched csv H lab v.
  destruct (report_body F V diff l2 h1s zero div exceeds _ _ _ _ _ _ H) as (m & f & c & A & B & _).
  rewrite A. transitivity (In (Entry lab v) (body F V diff l2 h1s div exceeds exact m f c)).
  - rewrite in_app_iff. cbv [heading In]. split; [intros [[X|[X|[X|[]]]]|X]; [discriminate..|exact X]|auto].
  - rewrite shown_iff. unfold shown. setoid_rewrite B. reflexivity.
Qed.
Print Assumptions C98_text_and_file_agree.

(** No label twice; without report only the heading. *)
Theorem C98_no_label_twice : forall F V diff l2 h1s zero div exceeds exact fem cs ms matched,
  NoDup (flat_map (fun l => match l with Entry lab _ => [lab] | _ => [] end)
           (printed F V diff l2 h1s zero div exceeds exact fem cs ms matched)) /\
  ((forall csv, print F V diff l2 h1s zero exact fem cs ms matched <> Report csv) ->
   printed F V diff l2 h1s zero div exceeds exact fem cs ms matched = [Blank; Title "The L2 errors:"; Blank]).
Proof.
  intros F V diff l2 h1s zero div exceeds exact fem cs ms matched. split.
  - destruct (print F V diff l2 h1s zero exact fem cs ms matched) as [csv| |] eqn:P.
    + destruct (report_body F V diff l2 h1s zero div exceeds _ _ _ _ _ _ P) as (m & f & c & -> & _).
      apply labels_once.
    + rewrite (heading_only F V diff l2 h1s zero div exceeds) by (rewrite P; discriminate).
      constructor.
    + rewrite (heading_only F V diff l2 h1s zero div exceeds) by (rewrite P; discriminate).
      constructor.
  - apply heading_only.
Qed.
Print Assumptions C98_no_label_twice.

(** With exact numbers the file can be recovered from the text: runs that print
    the same have the same report. *)
Theorem C98_text_determines_file :
  forall F diff l2 h1s zero exact fem cs ms matched csv F' diff' l2' h1s' zero' exact' fem' cs' ms' matched' csv',
  let exceeds (n : R) := if Rlt_dec (/ 10 ^ 12) (Rabs n) then true else false in
  print F R diff l2 h1s zero exact fem cs ms matched = Report csv ->
  print F' R diff' l2' h1s' zero' exact' fem' cs' ms' matched' = Report csv' ->
  printed F R diff l2 h1s zero Rdiv exceeds exact fem cs ms matched =
    printed F' R diff' l2' h1s' zero' Rdiv exceeds exact' fem' cs' ms' matched' ->
  csv = csv'.
Proof.
  intros F diff l2 h1s zero exact fem cs ms matched csv F' diff' l2' h1s' zero' exact' fem' cs' ms' matched' csv'
    exceeds. apply same_text_same_file.
  intros a b n X E. unfold exceeds in X. destruct (Rlt_dec (/ 10 ^ 12) (Rabs n)) as [L|L]; [|discriminate].
  assert (N : n <> 0%R).
  { intros ->. rewrite Rabs_R0 in L. assert (0 < / 10 ^ 12)%R by (apply Rinv_0_lt_compat, pow_lt; lra). lra. }
  apply (f_equal (fun x => x * n)%R) in E. unfold Rdiv in E. rewrite !Rmult_assoc, Rinv_l, !Rmult_1_r in E; auto.
Qed.
Print Assumptions C98_text_determines_file.

(** If all entries are finite, the only printed value that can fail to be
    finite is the relative coarse error, and it is not finite exactly when the
    norm of the multiscale solution is zero. *)
Theorem C98_only_the_coarse_quotient_can_be_infinite :
  forall F diff l2 h1s zero exact fem cs ms matched csv,
  print F num diff l2 h1s zero exact fem cs ms matched = Report csv ->
  (forall k v, In (k, v) csv -> exists r, v = Fin r) ->
  (forall lab v, In (Entry lab v) (printed F num diff l2 h1s zero num_div num_exceeds exact fem cs ms matched) ->
     (forall r, v <> Fin r) -> lab = relative_coarse /\ In ("msfem_L2", Fin 0) csv) /\
  (In ("msfem_L2", Fin 0) csv ->
     exists e, In ("msfem_coarse_fem_L2", Fin e) csv /\
       In (Entry relative_coarse
             (if Req_EM_T e 0 then NaN else Inf (if Rlt_dec e 0 then true else false)))
          (printed F num diff l2 h1s zero num_div num_exceeds exact fem cs ms matched)).
Proof.
  intros F diff l2 h1s zero exact fem cs ms matched csv H Fi.
  assert (A := C98_text_and_file_agree F num diff l2 h1s zero num_div num_exceeds exact fem cs ms matched csv H).
  split.
  - intros lab v I N. apply A in I.
    destruct I as [(k & _ & K & _)|[(e & n & -> & E & M & ->)|(e & n & -> & E & M & X & ->)]].
    + destruct (Fi _ _ K) as (r & ->). now destruct (N r).
    + split; [reflexivity|]. destruct (Fi _ _ E) as (x & ->). destruct (Fi _ _ M) as (y & ->).
      cbn [num_div] in N. destruct (Req_EM_T y 0) as [->|Y]; [exact M|]. now destruct (N (x / y)%R).
    + exfalso. destruct (Fi _ _ E) as (x & ->). destruct (Fi _ _ M) as (y & ->). cbn [num_div num_exceeds] in *.
      destruct (Req_EM_T y 0) as [->|Y]; [|now destruct (N (x / y)%R)].
      rewrite Rabs_R0 in X. destruct (Rlt_dec (/ 10 ^ 12) 0) as [L|L]; [|discriminate].
      assert (0 < / 10 ^ 12)%R by (apply Rinv_0_lt_compat, pow_lt; lra). lra.
  - intros M.
    assert (exists e, In ("msfem_coarse_fem_L2", e) csv) as (e & E).
    { destruct (report_body F num diff l2 h1s zero num_div num_exceeds _ _ _ _ _ _ H) as (m & f & c & _ & B & _).
      apply B in M. inversion M; subst. eexists. apply B. econstructor. reflexivity. }
    destruct (Fi _ _ E) as (x & ->). exists x. split; [exact E|]. apply A. right. left.
    exists (Fin x), (Fin 0). split; [reflexivity|]. split; [exact E|]. split; [exact M|].
    cbn [num_div]. destruct (Req_EM_T 0 0); [reflexivity|congruence].
Qed.
Print Assumptions C98_only_the_coarse_quotient_can_be_infinite.

(** The two quotients, for all kinds of numbers. *)
Theorem C98_quotients : forall F diff l2 h1s zero exact fem cs ms matched csv e c n,
  print F num diff l2 h1s zero exact fem cs ms matched = Report csv ->
  In ("msfem_L2", n) csv -> In ("msfem_coarse_fem_L2", c) csv -> In ("msfem_fem_L2", e) csv ->
  let text := printed F num diff l2 h1s zero num_div num_exceeds exact fem cs ms matched in
  match n with
  | Fin y =>
      (/ 10 ^ 12 < Rabs y ->
         (forall x, e = Fin x -> In (Entry relative_fine (Fin (x / y))) text) /\
         (forall x, c = Fin x -> In (Entry relative_coarse (Fin (x / y))) text) /\
         (forall s, e = Inf s -> In (Entry relative_fine (Inf (if Rlt_dec y 0 then negb s else s))) text))%R /\
      (Rabs y <= / 10 ^ 12 -> forall v, ~ In (Entry relative_fine v) text)%R
  | Inf _ => forall x, (e = Fin x -> In (Entry relative_fine (Fin 0)) text) /\
                       (c = Fin x -> In (Entry relative_coarse (Fin 0)) text)
  | NaN => (forall v, ~ In (Entry relative_fine v) text) /\ In (Entry relative_coarse NaN) text
  end.
Proof.
  intros F diff l2 h1s zero exact fem cs ms matched csv e c n H N C E text. unfold text.
  assert (A := C98_text_and_file_agree F num diff l2 h1s zero num_div num_exceeds exact fem cs ms matched csv H).
  assert (U : forall m, In ("msfem_L2", m) csv -> m = n).
  { intros m M. destruct (report_body F num diff l2 h1s zero num_div num_exceeds _ _ _ _ _ _ H) as (m0 & f0 & c0 & _ & B & _).
    apply B in M. apply B in N. inversion M; subst; inversion N; subst; try discriminate; congruence. }
  assert (QF : num_exceeds n = true -> In (Entry relative_fine (num_div e n))
                 (printed F num diff l2 h1s zero num_div num_exceeds exact fem cs ms matched)).
  { intros X. apply A. right. right. exists e, n. auto. }
  assert (QC : In (Entry relative_coarse (num_div c n))
                 (printed F num diff l2 h1s zero num_div num_exceeds exact fem cs ms matched)).
  { apply A. right. left. exists c, n. auto. }
  assert (NF : num_exceeds n = false -> forall v, ~ In (Entry relative_fine v)
                 (printed F num diff l2 h1s zero num_div num_exceeds exact fem cs ms matched)).
  { intros X v I. apply A in I. destruct I as [(k & K & _)|[(e' & n' & L & _)|(e' & n' & _ & _ & M & Y & _)]].
    - revert K. unfold labels, relative_fine. cbn [In]. intros K.
      repeat (destruct K as [K|K]; [discriminate|]). exact K.
    - discriminate.
    - rewrite (U _ M) in Y. congruence. }
  destruct n as [y|g|]; cbn [num_exceeds] in *.
  - split.
    + intros Y. destruct (Rlt_dec (/ 10 ^ 12) (Rabs y)) as [_|Z]; [|contradiction].
      assert (Y0 : y <> 0%R).
      { intros ->. rewrite Rabs_R0 in Y. assert (0 < / 10 ^ 12)%R by (apply Rinv_0_lt_compat, pow_lt; lra). lra. }
      repeat split.
      * intros x ->. specialize (QF eq_refl). cbn [num_div] in QF. destruct (Req_EM_T y 0); [contradiction|exact QF].
      * intros x ->. cbn [num_div] in QC. destruct (Req_EM_T y 0); [contradiction|exact QC].
      * intros s ->. specialize (QF eq_refl). cbn [num_div] in QF.
        destruct (Rlt_dec y 0); destruct s; exact QF.
    + intros Y. apply NF. destruct (Rlt_dec (/ 10 ^ 12) (Rabs y)); [lra|reflexivity].
  - intros x. split; intros ->; [exact (QF eq_refl)|exact QC].
  - split; [apply NF; reflexivity|]. destruct c; exact QC.
Qed.
Print Assumptions C98_quotients.

(** The run of C36_case. *)
Definition case_diff (a b : nat) : nat := (a - b)%nat.
Example C98_case :
  print nat nat case_diff (fun f => f) (fun f => 2 * f) 0 (Some 9) (Some 4) (Done 3) (Some (Done 5)) true <> Raised /\
  printed nat nat case_diff (fun f => f) (fun f => 2 * f) 0 (fun a b => 100 * a / b) (fun n => Nat.leb 1 n)
    (Some 9) (Some 4) (Done 3) (Some (Done 5)) true =
  [Blank; Title "The L2 errors:"; Blank;
   Entry "|| u_msfem - u_exact ||_L2" 4; Entry "|| u_msfem - u_exact ||_H1s" 8; Blank;
   Entry "|| u_fem_h - u_exact ||_L2" 5; Entry "|| u_fem_h - u_exact ||_H1s" 10; Blank;
   Entry "|| u_fem_H - u_exact ||_L2" 6; Entry "|| u_fem_H - u_exact ||_H1s" 12; Blank;
   Entry "|| u_msfem ||_L2" 5;
   Entry "|| u_fem_H - u_msfem ||_L2" 2; Entry "|| u_fem_H - u_msfem ||_L2 / || u_msfem ||_L2" 40;
   Entry "|| u_fem_H - u_msfem ||_H1s" 4; Blank;
   Entry "|| u_msfem - u_fem ||_L2 / || u_msfem ||_L2" 20; Entry "|| u_msfem - u_fem ||_H1s" 2; Blank].
Proof. vm_compute. split; [discriminate|reflexivity]. Qed.

(** A multiscale solution that vanishes: the coarse quotient is not a number,
    the fine difference is printed as it is. *)
Example C98_zero_case :
  let l2 (f : R) := Fin (Rabs f) in
  print R num Rminus l2 l2 0%R None (Some 0%R) (Done 0%R) (Some (Done 0%R)) true <> Raised /\
  In (Entry relative_coarse NaN)
    (printed R num Rminus l2 l2 0%R num_div num_exceeds None (Some 0%R) (Done 0%R) (Some (Done 0%R)) true) /\
  In (Entry "|| u_msfem - u_fem ||_L2" (Fin 0))
    (printed R num Rminus l2 l2 0%R num_div num_exceeds None (Some 0%R) (Done 0%R) (Some (Done 0%R)) true).
Proof.
  intros l2.
  assert (Z : l2 0%R = Fin 0) by (unfold l2; now rewrite Rabs_R0).
  assert (Z' : l2 (0 - 0)%R = Fin 0) by (unfold l2; now rewrite Rminus_0_r, Rabs_R0).
  split; [cbv -[l2 Rminus]; discriminate|].
  cbv [printed analytical_text discrete_text register_discrete bind emplace assoc_str String.eqb Ascii.eqb Bool.eqb app].
  rewrite Z, Z'. cbn [num_div num_exceeds]. rewrite Rabs_R0. destruct (Req_EM_T 0 0); [|congruence].
  destruct (Rlt_dec (/ 10 ^ 12) 0) as [L|L].
  { exfalso. assert (0 < / 10 ^ 12)%R by (apply Rinv_0_lt_compat, pow_lt; lra). lra. }
  cbv [heading In]. split; repeat (first [left; reflexivity | right]).
Qed.
