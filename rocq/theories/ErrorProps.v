(** Theorems about the error calculation: C36-C39, C68. *)
From Coq Require Import List Arith Ascii String Bool Sorted QArith Lqa.
From Verif Require Import Util ErrorModel ErrorSpec ErrorProofs.
Import ListNotations.
Open Scope nat_scope.
Open Scope string_scope.

(** Every lookup succeeds and the report has exactly the entries of
    [ErrorSpec.entry], in increasing key order. *)
Theorem C36_entries_exact : forall F V diff l2 h1s zero exact fem coarse (msfem : option F),
  exists csv,
    print F V diff l2 h1s zero exact fem (Done coarse) (option_map Done msfem) true = Report csv /\
    (forall k v, In (k, v) csv <-> entry F V diff l2 h1s exact msfem fem coarse k v) /\
    StronglySorted key_lt (map fst csv).
Proof.
  intros F V diff l2 h1s zero exact fem coarse msfem.
  destruct (collect_spec F V diff l2 h1s exact msfem fem coarse) as (csv & A & B & C).
  exists csv. split; [|auto]. unfold print. destruct msfem; simpl; rewrite A; reflexivity.
Qed.
Print Assumptions C36_entries_exact.

(** A report is never produced after a failed projection or grid mismatch. *)
Theorem C36_no_report_without_projection : forall F V diff l2 h1s zero exact fem cs p matched csv,
  print F V diff l2 h1s zero exact fem cs (Some p) matched = Report csv ->
  matched = true /\ (exists f, p = Done f) /\ cs <> OtherError.
Proof.
  intros F V diff l2 h1s zero exact fem cs p matched csv H. unfold print in H.
  destruct cs; try discriminate; destruct matched; try discriminate; destruct p; try discriminate;
    repeat split; eauto; discriminate.
Qed.
Print Assumptions C36_no_report_without_projection.

Definition ex_diff (a b : nat) : nat := (a - b)%nat.
Example C36_case :
  print nat nat ex_diff (fun f => f) (fun f => (2 * f)%nat) 0%nat (Some 9) (Some 4) (Done 3) (Some (Done 5)) true =
  Report [("coarse_fem_exact_H1s", 12); ("coarse_fem_exact_L2", 6);
          ("fem_exact_H1s", 10); ("fem_exact_L2", 5); ("msfem_L2", 5);
          ("msfem_coarse_fem_H1s", 4); ("msfem_coarse_fem_L2", 2);
          ("msfem_exact_H1s", 8); ("msfem_exact_L2", 4);
          ("msfem_fem_H1s", 2); ("msfem_fem_L2", 1)]%nat.
Proof. vm_compute. reflexivity. Qed.

Theorem C37_columns_line_up : forall V (show : V -> string) csv,
  Forall plain (map fst csv) -> Forall plain (map (fun kv => show (snd kv)) csv) ->
  exists header values,
    split_at newline (csv_text V show csv) = [header; values; ""] /\
    split_at comma header = (map fst csv ++ [""])%list /\
    split_at comma values = (map (fun kv => show (snd kv)) csv ++ [""])%list.
Proof. exact csv_spec. Qed.
Print Assumptions C37_columns_line_up.

(** The names produced are fit for the file. *)
Theorem C37_keys_are_plain : forall F V diff l2 h1s exact msfem fem coarse k (v : V),
  entry F V diff l2 h1s exact msfem fem coarse k v -> plain k.
Proof. intros F V diff l2 h1s exact msfem fem coarse k v H. destruct H; split; reflexivity. Qed.
Print Assumptions C37_keys_are_plain.

Example C37_case :
  csv_text nat (fun n => if Nat.eqb n 1 then "1" else "0.5") [("a_L2", 1); ("b_L2", 2)]%nat =
  "a_L2,b_L2," ++ String newline ("1,0.5," ++ String newline "").
Proof. reflexivity. Qed.

(** Failed fine solve: the entries are those without a fine reference,
    whatever it would have been. *)
Theorem C38_fine_failure : forall F V diff l2 h1s zero exact coarse msfem fine,
  exists csv csv',
    msfem_report F V diff l2 h1s zero true exact DuneError (Done coarse) (Done msfem) true = Report csv /\
    msfem_report F V diff l2 h1s zero true exact (Done fine) (Done coarse) (Done msfem) true = Report csv' /\
    forall k v, In (k, v) csv <-> In (k, v) csv' /\ reference_key k = false.
Proof.
  intros F V diff l2 h1s zero exact coarse msfem fine.
  destruct (C36_entries_exact F V diff l2 h1s zero exact None coarse (Some msfem)) as (a & A & A' & _).
  destruct (C36_entries_exact F V diff l2 h1s zero exact (Some fine) coarse (Some msfem)) as (b & B & B' & _).
  exists a, b. split; [exact A|]. split; [exact B|].
  intros k v. rewrite A', B'. split.
  - intros H. inversion H; subst; try discriminate; (split; [econstructor; eauto|reflexivity]).
  - intros (H & R). inversion H; subst; try discriminate; econstructor; eauto.
Qed.
Print Assumptions C38_fine_failure.

(** Failed coarse solve: the fine reference is dropped as well and the coarse
    solution counts as zero. *)
Theorem C38_coarse_failure : forall F V diff l2 h1s zero exact fem (msfem : option F),
  exists csv,
    print F V diff l2 h1s zero exact fem DuneError (option_map Done msfem) true = Report csv /\
    (forall k v, In (k, v) csv <-> entry F V diff l2 h1s exact msfem None zero k v) /\
    (forall k v, In (k, v) csv -> reference_key k = false).
Proof.
  intros F V diff l2 h1s zero exact fem msfem.
  destruct (C36_entries_exact F V diff l2 h1s zero exact None zero msfem) as (a & A & A' & _).
  exists a. split; [|split; auto].
  - rewrite <- A. reflexivity.
  - intros k v H. apply A' in H. inversion H; subst; try discriminate; reflexivity.
Qed.
Print Assumptions C38_coarse_failure.

(** In the plain finite element run a failed coarse solve discards the
    successful fine solution: no entry of it is reported. *)
Theorem C38_fem_run_loses_fine_entries : forall F V diff l2 h1s zero exact fem,
  exists csv, fem_report F V diff l2 h1s zero exact fem DuneError = Report csv /\
    forall k v, In (k, v) csv <-> exists u, exact = Some u /\
      ((k = "coarse_fem_exact_L2" /\ v = l2 (diff u zero)) \/
       (k = "coarse_fem_exact_H1s" /\ v = h1s (diff u zero))).
Proof.
  intros F V diff l2 h1s zero exact fem.
  destruct (C38_coarse_failure F V diff l2 h1s zero exact (Some fem) None) as (a & A & B & _).
  exists a. split; [exact A|]. intros k v. rewrite B. split.
  - intros H. inversion H; subst; try discriminate; eauto 6.
  - intros (u & E & [(-> & ->)|(-> & ->)]); econstructor; eauto.
Qed.
Print Assumptions C38_fem_run_loses_fine_entries.

(** Other exceptions are not absorbed. *)
Theorem C38_other_exceptions_escape : forall F V diff l2 h1s zero exact fem msfem matched fine cs,
  print F V diff l2 h1s zero exact fem OtherError msfem matched = Raised /\
  (forall p, msfem_report F V diff l2 h1s zero true exact OtherError cs p matched = Raised) /\
  (forall p, msfem_report F V diff l2 h1s zero false exact fine OtherError p matched = Raised).
Proof. intros. repeat split; reflexivity. Qed.
Print Assumptions C38_other_exceptions_escape.

Example C38_case :
  msfem_report nat nat ex_diff (fun f => f) (fun f => (2 * f)%nat) 0%nat true (Some 9) (Done 4) DuneError (Done 5) true =
  Report [("coarse_fem_exact_H1s", 18); ("coarse_fem_exact_L2", 9); ("msfem_L2", 5);
          ("msfem_coarse_fem_H1s", 10); ("msfem_coarse_fem_L2", 5);
          ("msfem_exact_H1s", 8); ("msfem_exact_L2", 4)]%nat.
Proof. vm_compute. reflexivity. Qed.

Theorem C39_key_suffixes : forall F V diff l2 h1s zero exact fem cs msfem matched csv k (v : V),
  print F V diff l2 h1s zero exact fem cs msfem matched = Report csv -> In (k, v) csv ->
  (ends_with "_L2" k \/ ends_with "_H1s" k) /\ ~ In k documented_h1.
Proof.
  intros F V diff l2 h1s zero exact fem cs msfem matched csv k v H I.
  assert (E : exists ex ms fe co, entry F V diff l2 h1s ex ms fe co k v).
  { unfold print in H. destruct cs as [f| |]; try discriminate; destruct msfem as [p|];
      try (destruct matched; [|discriminate]); try (destruct p as [q| |]; try discriminate);
      match type of H with context [collect F V diff l2 h1s ?a ?b ?c ?d] =>
        destruct (collect_spec F V diff l2 h1s a b c d) as (x & A & B & _);
        rewrite A in H; injection H as <-; apply B in I; eauto end. }
  destruct E as (ex & ms & fe & co & E).
  split.
  - destruct E;
      match goal with |- ends_with _ ?k \/ _ =>
        first [left; exists (String.substring 0 (String.length k - 3) k); reflexivity
              |right; exists (String.substring 0 (String.length k - 4) k); reflexivity] end.
  - destruct E; simpl; intuition discriminate.
Qed.
Print Assumptions C39_key_suffixes.

(** The documented L2 names are the ones used. *)
Theorem C39_documented_l2_names : forall F V diff l2 h1s zero exact fem coarse msfem,
  exists csv,
    print F V diff l2 h1s zero (Some exact) (Some fem) (Done coarse) (Some (Done msfem)) true = Report csv /\
    forall k, In k documented_l2 -> exists v, In (k, v) csv.
Proof.
  intros F V diff l2 h1s zero exact fem coarse msfem.
  destruct (C36_entries_exact F V diff l2 h1s zero (Some exact) (Some fem) coarse (Some msfem)) as (a & A & B & _).
  exists a. split; [exact A|].
  intros k [<-|[<-|[<-|[]]]]; eexists; apply B; econstructor; reflexivity.
Qed.
Print Assumptions C39_documented_l2_names.

Example C39_case : exists csv,
  print nat nat ex_diff (fun f => f) (fun f => (2 * f)%nat) 0%nat (Some 9) (Some 4) (Done 3) (Some (Done 5)) true = Report csv /\
  map fst csv =
    ["coarse_fem_exact_H1s"; "coarse_fem_exact_L2"; "fem_exact_H1s";
     "fem_exact_L2"; "msfem_L2"; "msfem_coarse_fem_H1s"; "msfem_coarse_fem_L2";
     "msfem_exact_H1s"; "msfem_exact_L2"; "msfem_fem_H1s"; "msfem_fem_L2"].
Proof. eexists. split; [vm_compute; reflexivity|]. vm_compute. reflexivity. Qed.

Theorem C68_reported_flow_is_zero : forall ranks,
  (forall r, In r ranks -> r <> []) -> exists q, reported_flow ranks = Some q /\ (q == 0)%Q.
Proof. exact flow_zero. Qed.
Print Assumptions C68_reported_flow_is_zero.

(** A process without interior cells: undefined behaviour, whatever the
    function and the other processes. *)
Theorem C68_process_without_cells : forall ranks,
  (In [] ranks -> surface_flow ranks = None) /\
  (forall meshes : list (list (nat * list face)), In [] meshes -> reported_flow meshes = None).
Proof.
  intros ranks. split; [apply flow_undefined|]. intros meshes H. apply flow_undefined.
  apply in_map_iff. exists []. auto.
Qed.
Print Assumptions C68_process_without_cells.

(** With the actual coarse solution the same loop gives a flow. *)
Definition ex_face : face :=
  {| f_boundary := true; f_center0 := 0%Q; f_area := (1 # 2)%Q;
     f_gauss := [(1, 2, [1; -1])]%Q |}.
Example C68_case :
  (exists a b, surface_flow [[([3; 1], [ex_face])]; [([5; 1], [])]] = Some a /\ a == -2 /\
    reported_flow [[(2%nat, [ex_face])]; [(2%nat, [])]] = Some b /\ b == 0 /\
    reported_flow [[(2%nat, [ex_face])]; []] = None)%Q.
Proof.
  eexists. eexists. split; [vm_compute; reflexivity|]. split; [vm_compute; reflexivity|].
  split; [vm_compute; reflexivity|]. split; vm_compute; reflexivity.
Qed.

(** The two drivers: the multiscale run reports the fine reference exactly if
    the comparison is switched on, the reference run has no multiscale entries. *)
Theorem C36_entries_of_the_drivers : forall F V diff l2 h1s zero exact coarse msfem fine,
  (exists csv, msfem_report F V diff l2 h1s zero true exact (Done fine) (Done coarse) (Done msfem) true = Report csv /\
     forall k v, In (k, v) csv <-> entry F V diff l2 h1s exact (Some msfem) (Some fine) coarse k v) /\
  (forall fs, exists csv, msfem_report F V diff l2 h1s zero false exact fs (Done coarse) (Done msfem) true = Report csv /\
     forall k v, In (k, v) csv <-> entry F V diff l2 h1s exact (Some msfem) None coarse k v) /\
  (exists csv, fem_report F V diff l2 h1s zero exact fine (Done coarse) = Report csv /\
     forall k v, In (k, v) csv <-> entry F V diff l2 h1s exact None (Some fine) coarse k v).
Proof.
  intros F V diff l2 h1s zero exact coarse msfem fine. split; [|split].
  - destruct (C36_entries_exact F V diff l2 h1s zero exact (Some fine) coarse (Some msfem)) as (a & A & B & _).
    exists a. split; [exact A|exact B].
  - intros fs. destruct (C36_entries_exact F V diff l2 h1s zero exact None coarse (Some msfem)) as (a & A & B & _).
    exists a. split; [exact A|exact B].
  - destruct (C36_entries_exact F V diff l2 h1s zero exact (Some fine) coarse None) as (a & A & B & _).
    exists a. split; [exact A|exact B].
Qed.
Print Assumptions C36_entries_of_the_drivers.

(** The flow loop itself: minus diffusion times derivative (of the given basis
    gradients) in the first direction over all boundary faces on the plane where the first coordinate is zero, summed
    over all processes. *)
Open Scope Q_scope.
Definition qsum {A} (l : list A) (f : A -> Q) : Q := fold_right Qplus 0 (map f l).
Theorem C68_flow_of_a_function : forall ranks,
  (forall r, In r ranks -> r <> []) -> exists flow, surface_flow ranks = Some flow /\
  flow == qsum ranks (fun cells => qsum cells (fun c =>
    qsum (filter (fun f => f_boundary f && Qeq_bool (f_center0 f) 0) (snd c)) (fun f =>
      qsum (f_gauss f) (fun g => - (fst (fst g) * f_area f * snd (fst g) *
        qsum (combine (fst c) (snd g)) (fun p => fst p * snd p)))))).
Proof.
  assert (G1 : forall co f acc, gauss_loop co f acc == acc + qsum (f_gauss f) (fun g =>
    - (fst (fst g) * f_area f * snd (fst g) * qsum (combine co (snd g)) (fun p => fst p * snd p)))).
  { intros co f. unfold gauss_loop, qsum. induction (f_gauss f) as [|[[w d] gr] r IH]; intros acc.
    - simpl. ring.
    - cbn [fold_left map fold_right fst snd]. rewrite IH. unfold jacobian0. ring. }
  assert (G2 : forall co fs acc, fold_left (fun acc f => if f_boundary f && Qeq_bool (f_center0 f) 0
      then gauss_loop co f acc else acc) fs acc ==
    acc + qsum (filter (fun f => f_boundary f && Qeq_bool (f_center0 f) 0) fs) (fun f =>
      qsum (f_gauss f) (fun g => - (fst (fst g) * f_area f * snd (fst g) *
        qsum (combine co (snd g)) (fun p => fst p * snd p))))).
  { intros co. induction fs as [|f r IH]; intros acc; cbn [fold_left filter].
    - unfold qsum. simpl. ring.
    - destruct (f_boundary f && Qeq_bool (f_center0 f) 0).
      + rewrite IH, G1. unfold qsum. cbn [map fold_right]. ring.
      + rewrite IH. reflexivity. }
  assert (G3 : forall cells acc, fold_left (fun acc c => fold_left (fun acc f =>
      if f_boundary f && Qeq_bool (f_center0 f) 0 then gauss_loop (fst c) f acc else acc) (snd c) acc) cells acc ==
    acc + qsum cells (fun c =>
      qsum (filter (fun f => f_boundary f && Qeq_bool (f_center0 f) 0) (snd c)) (fun f =>
        qsum (f_gauss f) (fun g => - (fst (fst g) * f_area f * snd (fst g) *
          qsum (combine (fst c) (snd g)) (fun p => fst p * snd p)))))).
  { induction cells as [|c r IH]; intros acc; cbn [fold_left].
    - unfold qsum. simpl. ring.
    - rewrite IH, G2. unfold qsum. cbn [map fold_right]. ring. }
  intros ranks H. destruct (flow_defined ranks H) as (q & E & Z). exists q. split; [exact E|]. rewrite Z.
  clear q E Z H. unfold qsum at 1.
  induction ranks as [|c r IH]; cbn [map fold_right]; [reflexivity|].
  rewrite IH. unfold local_flux. rewrite G3. ring.
Qed.
Print Assumptions C68_flow_of_a_function.

(** The gradient is not taken at the quadrature point: the error on one cell. *)
Lemma flow_bilinear : forall hx hy y0 u00 u10 u01 u11 k rule,
  ~ hx == 0 -> ~ hy == 0 ->
  local_flux [([u00; u10; u01; u11], [q1_face hx hy y0 k rule])] ==
  minus_flux hx hy y0 u00 u10 u01 u11 k rule +
  qsum rule (fun p => let y := y0 + snd p * hy in
    - (fst p * hy * k y * ((y - snd p) * ((u11 - u01) - (u10 - u00)) / hx))).
Proof.
  intros hx hy y0 u00 u10 u01 u11 k rule Hx Hy.
  unfold local_flux, q1_face, minus_flux, qsum. cbn [fold_left fst snd f_boundary f_center0].
  change (true && Qeq_bool 0 0)%bool with true. cbv iota. unfold gauss_loop. cbn [f_gauss f_area].
  assert (G : forall acc, fold_left (fun acc g => let '(w, d, gr) := g in
      acc - w * hy * d * jacobian0 [u00; u10; u01; u11] gr)
      (map (fun p => let y := y0 + snd p * hy in (fst p, k y, q1_grad0 hx y)) rule) acc ==
    acc + (fold_right Qplus 0 (map (fun p => let y := y0 + snd p * hy in
        - (fst p * hy * k y * slope hx hy y0 u00 u10 u01 u11 y)) rule) +
      fold_right Qplus 0 (map (fun p => let y := y0 + snd p * hy in
        - (fst p * hy * k y * ((y - snd p) * ((u11 - u01) - (u10 - u00)) / hx))) rule))).
  { induction rule as [|[w t] r IH]; intro acc; cbn [map fold_left fold_right fst snd].
    - ring.
    - rewrite IH. cbv zeta. unfold slope, bilinear, jacobian0, q1_grad0.
      cbn [combine map fold_right fst snd]. field. split; assumption. }
  rewrite G, Qplus_0_l. reflexivity.
Qed.

Theorem C68_flow_of_bilinear_functions : forall hx hy y0 u00 u10 u01 u11 k rule,
  ~ hx == 0 -> ~ hy == 0 ->
  let computed := local_flux [([u00; u10; u01; u11], [q1_face hx hy y0 k rule])] in
  computed == minus_flux hx hy y0 u00 u10 u01 u11 k rule +
    qsum rule (fun p => let y := y0 + snd p * hy in
      - (fst p * hy * k y * ((y - snd p) * ((u11 - u01) - (u10 - u00)) / hx))) /\
  (u11 - u01 == u10 - u00 -> computed == minus_flux hx hy y0 u00 u10 u01 u11 k rule).
Proof.
  intros hx hy y0 u00 u10 u01 u11 k rule Hx Hy computed.
  pose proof (flow_bilinear hx hy y0 u00 u10 u01 u11 k rule Hx Hy) as E. split; [exact E|].
  intro A. unfold computed. rewrite E. clear E.
  assert (Z : qsum rule (fun p => let y := y0 + snd p * hy in
      - (fst p * hy * k y * ((y - snd p) * ((u11 - u01) - (u10 - u00)) / hx))) == 0).
  { unfold qsum. induction rule as [|p r IH]; cbn [map fold_right]; [reflexivity|].
    rewrite IH. cbv zeta. rewrite A. field. exact Hx. }
  rewrite Z. ring.
Qed.
Print Assumptions C68_flow_of_bilinear_functions.

(** x*y on the cell [0, 1/2] x [1/2, 1] with unit diffusion and the midpoint
    rule: 3/8 is right, the loop gives 7/16, since 3/4 is used as local
    coordinate instead of 1/2. *)
Example C68_case_bilinear :
  minus_flux (1 # 2) (1 # 2) (1 # 2) 0 (1 # 4) 0 (1 # 2) (fun _ => 1) [(1, 1 # 2)] == - (3 # 8) /\
  local_flux [([0; 1 # 4; 0; 1 # 2], [q1_face (1 # 2) (1 # 2) (1 # 2) (fun _ => 1) [(1, 1 # 2)]])] == - (7 # 16).
Proof. split; vm_compute; reflexivity. Qed.
