(** Theorems about the application: C62-C65, C74. *)
From Coq Require Import ZArith String Ascii List Arith Bool Lia.
From Verif Require Import Util AppModel AppSpec AppProofs.
Import ListNotations.
Open Scope string_scope.
Open Scope list_scope.

(** ** C62 *)
(** Unknown names: the exception is thrown before anything is constructed. *)
Theorem C62_unknown_problem : forall ctor_throws init_throws c name,
  selected c name -> ~ known name -> container ctor_throws init_throws c = ([], InvalidState).
Proof. intros ct it c name S. rewrite <- (selected_name _ _ S). apply container_unknown. Qed.
Print Assumptions C62_unknown_problem.

(** Known names never give that exception; on success every getter returns the
    object of its kind of the selected problem, and nothing else was made. *)
Theorem C62_known_problem : forall ctor_throws init_throws c name ev res,
  selected c name -> known name -> container ctor_throws init_throws c = (ev, res) ->
  res <> InvalidState /\
  forall os, res = Done os ->
    (forall k, getter os k = Some (name, k)) /\
    constructed ev = os /\ deleted ev = [] /\ List.length os = 6 /\
    last ev (Constructing (name, NeumannData)) = Initialised (name, Data).
Proof.
  intros ct it c name ev res S K E. apply selected_name in S. subst name. unfold container in E.
  pose proof (members_spec ct (problem_name c) K member_order []) as M.
  destruct (members ct member_order (problem_name c) []) as (ev0, [os0| |o|]).
  - destruct M as (-> & -> & _). destruct (it (problem_name c)); injection E as <- <-.
    + split; [discriminate|]. intros os H. discriminate.
    + split; [discriminate|]. intros os H. injection H as <-. split; [|repeat split].
      intros k. destruct k; reflexivity.
  - contradiction.
  - injection E as <- <-. split; [discriminate|]. intros os H. discriminate.
  - contradiction.
Qed.
Print Assumptions C62_known_problem.

(** If a member's constructor throws, exactly the members made before are
    destroyed and nothing further is made. *)
Theorem C62_failing_member_leaks_nothing : forall ctor_throws init_throws c name ev o,
  selected c name -> known name -> container ctor_throws init_throws c = (ev, Thrown o) ->
  ctor_throws o = true /\ exists before, constructed ev = before ++ [o] /\ deleted ev = rev before.
Proof.
  intros ct it c name ev o S K E. apply selected_name in S. subst name. unfold container in E.
  pose proof (members_spec ct (problem_name c) K member_order []) as M.
  destruct (members ct member_order (problem_name c) []) as (ev0, [os0| |o'|]).
  - destruct (it (problem_name c)); discriminate.
  - contradiction.
  - injection E as <- <-. destruct M as (a & k & b & _ & -> & T & _ & C & D). split; auto.
    exists (map (fun j => (problem_name c, j)) a). rewrite C, D, map_app, app_nil_r. auto.
  - contradiction.
Qed.
Print Assumptions C62_failing_member_leaks_nothing.

(** If initialisation throws, all six are destroyed. *)
Theorem C62_failing_initialisation_leaks_nothing : forall ctor_throws init_throws c name ev,
  selected c name -> known name -> container ctor_throws init_throws c = (ev, InitThrown) ->
  init_throws name = true /\ deleted ev = rev (constructed ev) /\ List.length (constructed ev) = 6.
Proof.
  intros ct it c name ev S K E. apply selected_name in S. subst name. unfold container in E.
  pose proof (members_spec ct (problem_name c) K member_order []) as M.
  destruct (members ct member_order (problem_name c) []) as (ev0, [os0| |o'|]).
  - destruct M as (-> & -> & _). destruct (it (problem_name c)); [|discriminate]. injection E as <-. repeat split.
  - contradiction.
  - discriminate.
  - contradiction.
Qed.
Print Assumptions C62_failing_initialisation_leaks_nothing.

Example C62_cases :
  selected None "Synthetic" /\ known "Synthetic" /\ ~ known "Nine" /\ ~ known "synthetic" /\ ~ known "" /\
  container (fun _ => false) (fun _ => false) (Some "Thirteen") = ([], InvalidState) /\
  snd (container (fun _ => false) (fun _ => false) None) =
    Done (map (fun k => ("Synthetic", k)) member_order) /\
  snd (container (fun o => String.eqb (fst o) "SPE10") (fun _ => false) (Some "SPE10")) = Thrown ("SPE10", Data).
Proof.
  split; [right; split; reflexivity|]. split; [left; reflexivity|].
  split; [intros [H|[H|[H|[H|H]]]]; discriminate|].
  split; [intros [H|[H|[H|[H|H]]]]; discriminate|].
  split; [intros [H|[H|[H|[H|H]]]]; discriminate|]. repeat split.
Qed.

(** ** C63 *)
(** Without slashes in prefix and name the file lies in the configured directory. *)
Theorem C63_files_lie_in_the_directory : forall o name dir file,
  without "/" (my_prefix o) -> without "/" name -> splits (fullpath o name) dir file ->
  dir = my_path o /\ file = (my_prefix o ++ "_" ++ name)%string.
Proof. intros o name dir file P N S. eapply splits_unique; [exact S|]. now apply fullpath_splits. Qed.
Print Assumptions C63_files_lie_in_the_directory.

(** Changing the prefix never changes the directory of later files. *)
Theorem C63_directory_is_fixed : forall path ps,
  my_path (fold_left set_prefix ps (new_output path)) = path /\
  my_prefix (fold_left set_prefix ps (new_output path)) = last ps "solutions" /\
  created (fold_left set_prefix ps (new_output path)) = path :: ps.
Proof.
  intros path ps.
  assert (G : forall o, my_path (fold_left set_prefix ps o) = my_path o /\
     my_prefix (fold_left set_prefix ps o) = last ps (my_prefix o) /\
     created (fold_left set_prefix ps o) = created o ++ ps).
  { induction ps as [|p ps IH]; intros o; [simpl; rewrite app_nil_r; auto|]. cbn [fold_left].
    destruct (IH (set_prefix o p)) as (A & B & C). rewrite A, B, C. cbn [set_prefix my_path my_prefix created].
    split; auto. split; [|rewrite <- app_assoc; reflexivity].
    destruct ps as [|q ps]; [reflexivity|]. cbn [last]. clear.
    revert q. induction ps as [|r ps IHs]; intros q; [reflexivity|]. apply IHs. }
  apply G.
Qed.
Print Assumptions C63_directory_is_fixed.

Theorem C63_different_pairs_do_not_collide : forall o o' name name', my_path o = my_path o' ->
  without "_" (my_prefix o) -> without "_" (my_prefix o') ->
  fullpath o name = fullpath o' name' -> my_prefix o = my_prefix o' /\ name = name'.
Proof. exact fullpath_inj. Qed.
Print Assumptions C63_different_pairs_do_not_collide.

(** One object never gives two names the same file. *)
Theorem C63_names_do_not_collide : forall o name name', fullpath o name = fullpath o name' -> name = name'.
Proof.
  intros o name name' E. unfold fullpath in E. apply app_string_inj_l in E. apply (app_string_inj_l "/") in E.
  apply app_string_inj_l in E. now apply (app_string_inj_l "_") in E.
Qed.
Print Assumptions C63_names_do_not_collide.

(** With underscores in the prefix files may collide; with slashes they leave
    the directory. *)
Example C63_cases :
  fullpath (set_prefix (new_output "data") "a_b") "c" = fullpath (set_prefix (new_output "data") "a") "b_c" /\
  fullpath (new_output "data") "u" = "data/solutions_u" /\
  splits (fullpath (set_prefix (new_output "data") "../x") "u") "data/.." "x_u" /\
  without "_" "fine" /\ without "/" "solutions".
Proof.
  split; [reflexivity|]. split; [reflexivity|]. split.
  - split; [reflexivity|]. simpl. unfold without. simpl. intuition discriminate.
  - unfold without. simpl. intuition discriminate.
Qed.

(** ** C64 *)
Theorem C64_memory_report : forall peaks rank r, peaks <> [] ->
  (forall p, In p peaks -> (0 <= p)%Z) -> mem_usage peaks rank = Some r ->
  rank = 0 /\ In (fst r) peaks /\ (forall p, In p peaks -> (p <= fst r)%Z) /\
  (0 <= snd r)%Z /\ (snd r <= fst r)%Z /\
  (Z.of_nat (List.length peaks) * snd r <= zsum peaks < Z.of_nat (List.length peaks) * (snd r + 1))%Z /\
  (forall m, (forall p, In p peaks -> (m <= p)%Z) -> (m <= snd r)%Z).
Proof.
  intros peaks rank r NE NN E. unfold mem_usage in E. destruct (Nat.eqb_spec rank 0); [|discriminate].
  injection E as <-. cbn [fst snd]. rewrite fold_add. cbn [Z.add].
  destruct peaks as [|p l]; [contradiction|].
  set (n := Z.of_nat (List.length (p :: l))). assert (N0 : (0 < n)%Z) by (unfold n; simpl List.length; lia).
  set (s := zsum (p :: l)). set (mx := fold_left Z.max l p).
  assert (MX : forall q, In q (p :: l) -> (q <= mx)%Z).
  { intros q I. destruct (fold_max_ge l p) as (A & B). destruct I as [<-|I]; [exact A|exact (B q I)]. }
  assert (S0 : (0 <= s)%Z).
  { pose proof (zsum_ge (p :: l) 0 NN) as H. fold n s in H. lia. }
  assert (SM : (s <= n * mx)%Z) by (apply zsum_le; auto).
  change (0 + s)%Z with s. rewrite (Z.quot_div_nonneg s n) by lia.
  pose proof (Z.div_mod s n ltac:(lia)) as DM. pose proof (Z.mod_pos_bound s n N0) as MB.
  split; auto. split.
  { unfold mx. destruct (fold_max_in l p) as [->|I]; simpl; auto. }
  split; auto. split; [apply Z.div_pos; lia|]. split; [apply Z.div_le_upper_bound; lia|].
  split; [nia|]. intros m M. apply Z.div_le_lower_bound; auto. pose proof (zsum_ge (p :: l) m M) as H. fold n s in H. lia.
Qed.
Print Assumptions C64_memory_report.

(** Exactly rank 0 writes. *)
Theorem C64_only_rank_zero_writes : forall peaks rank, mem_usage peaks rank <> None <-> rank = 0.
Proof.
  intros peaks rank. unfold mem_usage. destruct (Nat.eqb_spec rank 0); split; intros; auto; try discriminate; congruence.
Qed.
Print Assumptions C64_only_rank_zero_writes.
Example C64_case : mem_usage [10; 30; 21]%Z 0 = Some (30, 20)%Z /\ mem_usage [10; 30; 21]%Z 1 = None.
Proof. split; reflexivity. Qed.

(** ** C65 *)
(** Status 0 is reported exactly for a finished run, provided aborting all
    processes never reports 0; without that, also for handled exceptions. *)
Theorem C65_exit_status : forall e report_throws abort_status,
  main e report_throws abort_status = Exit 0 <->
  e = Finished \/ ((e = DuneException \/ e = StdException) /\ report_throws = false /\ abort_status = 0%Z).
Proof.
  intros e rt a. destruct e; simpl; unfold handle_exception; destruct rt; split;
    try (intros H; discriminate); try (intros [H|([H|H] & H1 & H2)]; congruence); try (left; reflexivity); auto.
  - intros H. injection H as ->. auto.
  - intros H. injection H as ->. auto.
Qed.
Print Assumptions C65_exit_status.
Theorem C65_zero_means_finished : forall e report_throws abort_status,
  abort_status <> 0%Z -> (main e report_throws abort_status = Exit 0 <-> e = Finished).
Proof.
  intros e rt a N. rewrite C65_exit_status. split; [intros [H|(_ & _ & H)]; auto; contradiction|auto].
Qed.
Print Assumptions C65_zero_means_finished.
(** All statuses: 0 for a finished run, 5 after a termination signal, the
    status of aborting all processes after a handled exception; no status at
    all for foreign exceptions and when the reports of the handler fail. *)
Theorem C65_all_statuses : forall e report_throws abort_status code,
  main e report_throws abort_status = Exit code <->
  (e = Finished /\ code = 0%Z) \/ (e = SigTerm /\ code = 5%Z) \/
  ((e = DuneException \/ e = StdException) /\ report_throws = false /\ code = abort_status).
Proof.
  intros e rt a code. destruct e, rt; simpl; split; intros H;
    try (injection H as <-); try discriminate H; auto 6;
    (destruct H as [(E & H)|[(E & H)|([E|E] & R & H)]]; try discriminate; now subst).
Qed.
Print Assumptions C65_all_statuses.
Example C65_cases : main SigTerm false 1 = Exit 5 /\ main DuneException false 1 = Exit 1 /\
  main StdException true 1 = Terminated /\ main OtherException false 1 = Terminated.
Proof. repeat split. Qed.

(** ** C74: failure on some processes only. *)
(** When some processes fail, the run is aborted exactly if all other processes
    still perform at least two collective operations; otherwise it hangs. *)
Theorem C74_abort_needs_the_other_processes : forall ps fuel,
  2 <= fuel -> (exists p, In p ps /\ failing p = true) ->
  (forall p, In p ps -> failing p = true -> p = failing_process) ->
  (progress fuel ps = true <-> forall p, In p ps -> failing p = false -> 2 <= left p).
Proof.
  intros ps fuel F (f & If & Ff) H. destruct fuel as [|[|fuel]]; try lia.
  assert (A0 : aborts ps = false).
  { unfold aborts. apply not_true_is_false. intros C. apply existsb_exists in C. destruct C as (p & I & C).
    apply andb_true_iff in C. destruct C as (C1 & C2). rewrite (H p I C1) in C2. discriminate. }
  cbn [progress]. rewrite A0. unfold collective at 1.
  destruct (forallb (fun p => Nat.ltb 0 (left p)) ps) eqn:E1.
  - set (ps1 := map (fun p => {| left := left p - 1; failing := failing p |}) ps).
    assert (A1 : aborts ps1 = false).
    { unfold aborts. apply not_true_is_false. intros C. apply existsb_exists in C. destruct C as (p & I & C).
      unfold ps1 in I. apply in_map_iff in I. destruct I as (p0 & <- & I). cbn [left failing] in C.
      apply andb_true_iff in C. destruct C as (C1 & C2). rewrite (H p0 I C1) in C2. discriminate. }
    rewrite A1. unfold collective. destruct (forallb (fun p => Nat.ltb 0 (left p)) ps1) eqn:E2.
    + assert (A2 : aborts (map (fun p => {| left := left p - 1; failing := failing p |}) ps1) = true).
      { unfold aborts. apply existsb_exists. exists {| left := left f - 1 - 1; failing := failing f |}. split.
        - unfold ps1. rewrite map_map. apply in_map_iff. exists f. auto.
        - cbn [left failing]. rewrite (H f If Ff). reflexivity. }
      split; [|intros _; destruct fuel; cbn [progress]; rewrite A2; reflexivity].
      intros _ p I _. rewrite forallb_forall in E2. specialize (E2 {| left := left p - 1; failing := failing p |}).
      cbn [left] in E2. assert (X : Nat.ltb 0 (left p - 1) = true).
      { apply E2. unfold ps1. apply in_map_iff. exists p. auto. }
      apply Nat.ltb_lt in X. lia.
    + split; [discriminate|]. intros G. exfalso.
      assert (X : forallb (fun p => Nat.ltb 0 (left p)) ps1 = true); [|congruence].
      apply forallb_forall. intros p I. unfold ps1 in I. apply in_map_iff in I. destruct I as (p0 & <- & I).
      cbn [left]. apply Nat.ltb_lt. destruct (failing p0) eqn:FP.
      * rewrite (H p0 I FP). cbn. lia.
      * specialize (G p0 I FP). lia.
  - split; [discriminate|]. intros G. exfalso.
    assert (X : forallb (fun p => Nat.ltb 0 (left p)) ps = true); [|congruence].
    apply forallb_forall. intros p I. apply Nat.ltb_lt. destruct (failing p) eqn:FP.
    + rewrite (H p I FP). cbn. lia.
    + specialize (G p I FP). lia.
Qed.
Print Assumptions C74_abort_needs_the_other_processes.
(** A process that has finished (or is the only survivor in a barrier without
    further collectives) keeps the failing one from aborting. *)
Example C74_cases :
  progress 5 [failing_process; {| left := 3; failing := false |}] = true /\
  progress 5 [failing_process; {| left := 1; failing := false |}] = false /\
  progress 5 [failing_process; failing_process] = true.
Proof. repeat split. Qed.
