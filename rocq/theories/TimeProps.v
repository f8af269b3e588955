(** C105: the profile of a run. *)
From Coq Require Import List String Bool Arith Lia.
From Verif Require Import TimeModel TimeSpec TimeProofs.
Import ListNotations.
Open Scope string_scope.
Open Scope list_scope.

(** Whatever fails, no call of the timing library is made for a section that was
    never started, and no section is stopped that is not running; also when the
    run is interrupted by SIGTERM, after which no section is running. *)
Theorem C105_timing_calls_lawful p st answer :
  lawful (fst (main p st answer)) /\
  forall k, lawful (interrupted k (fst (main p st answer))) /\
            exists u, interrupted k (fst (main p st answer)) = u ++ [Write] /\ forall s, ~ running u s.
Proof.
  split; [apply main_lawful|]. intros k. split.
  - apply interrupted_lawful, main_lawful.
  - exists (firstn k (fst (main p st answer)) ++ [StopAll]). split.
    + unfold interrupted. rewrite <- app_assoc. reflexivity.
    + intros s. apply interrupted_stopped.
Qed.
Print Assumptions C105_timing_calls_lawful.

(** The profile of a successful run without failing reference solve contains
    exactly the expected sections, each measured as often as its computation was
    done, and they lie inside each other. *)
Theorem C105_profile_complete p st answer t :
  main p st answer = (t, Returned) -> ~ gave_up Fine t -> ~ gave_up Coarse t ->
  exists u, t = u ++ [Write; Called Report None] /\ ~ In Write u /\ nested u /\
            forall s, starts s u = times (expected p st) s.
Proof.
  intros E G1 G2. exists (before_write t).
  destruct (returned_shape p st answer t E) as [H1 H2].
  destruct (returned_profile p st answer t E G1 G2) as [H3 H4]. auto.
Qed.
Print Assumptions C105_profile_complete.

(** Such a run makes all its computations, in this order, each inside the section
    it belongs to. *)
Theorem C105_computations_made p st answer t :
  main p st answer = (t, Returned) -> ~ gave_up Fine t -> ~ gave_up Coarse t ->
  calls_of t = map fst (made p st) /\
  forall i c o, nth_error (made p st) i = Some (c, o) -> exists a b r,
    t = a ++ Called c r :: b /\ List.length (calls_of a) = i /\ (c <> Prolong -> r = None) /\
    match o with Some s => innermost a s | None => forall s, ~ running a s end.
Proof. intros E G1 G2. exact (madeb_spec t [] _ (returned_made p st answer t E G1 G2)). Qed.
Print Assumptions C105_computations_made.

(** A run that succeeds although a reference solve was given up: nothing is
    running when the profile is written unless the coarse reference solve was
    given up; then exactly fem.apply, the stage it failed in and the stage the
    fine one failed in, unless the coarse one passed that stage, still run. *)
Theorem C105_left_running p st answer t :
  main p st answer = (t, Returned) ->
  exists u, t = u ++ [Write; Called Report None] /\ ~ In Write u /\
    (~ gave_up Coarse t -> forall s, ~ running u s) /\
    (forall x, In (Called (Fem Coarse x) (Some DuneExc)) t -> forall s,
       running u s <->
       s = "fem.apply" \/ stage x = Some s \/
       exists y, In (Called (Fem Fine y) (Some DuneExc)) t /\ stage y = Some s /\ position x <= position y).
Proof.
  intros E. exists (before_write t).
  destruct (returned_shape p st answer t E) as [H1 H2]. split; [exact H1|]. split; [exact H2|]. split.
  - intros G s R. apply (left_running p st answer t s E) in R. rewrite leftb_nil in R; [discriminate|exact G].
  - intros x I s. destruct (left_running p st answer t s E) as [R L]. rewrite R. apply leftb_spec; assumption.
Qed.
Print Assumptions C105_left_running.

(** A run succeeds exactly if every exception was one of a reference solve of the
    error calculation, and a reference solve that was given up is not used. *)
Theorem C105_success p st answer :
  (snd (main p st answer) = Returned <->
   forall c e, In (Called c (Some e)) (fst (main p st answer)) -> tolerated p c e) /\
  (gave_up Coarse (fst (main p st answer)) -> forall r, ~ In (Called Prolong r) (fst (main p st answer))).
Proof.
  split; [apply tolerated_returns|]. intros G r I. exact (prolonged p st answer r I G).
Qed.
Print Assumptions C105_success.

(** A section is started while it is running only after the fine reference solve
    was given up; in a run that succeeds this does happen then, with fem.apply:
    its entry no longer is the time of one solve. *)
Theorem C105_restarted p st answer :
  (forall s, restarts (fst (main p st answer)) s -> gave_up Fine (fst (main p st answer))) /\
  (forall t, main p st answer = (t, Returned) -> gave_up Fine t -> restarts t "fem.apply").
Proof.
  split; [intros s; apply restarts_gave_up|intros t; apply gave_up_restarts].
Qed.
Print Assumptions C105_restarted.

(** A run that ends with a handled exception writes the profile last.  The
    section around the whole computation is then still running unless the
    program's own frame failed, and only sections started and stopped by
    separate calls can be running.  The profile is written twice exactly when
    one of the reports after the profile fails. *)
Theorem C105_failed_run p st answer t :
  main p st answer = (t, Handled) -> exists u,
  t = u ++ [Write] /\
  (forall s, running u s -> In s by_hand) /\
  ((exists c e, In c [Init; Gather; Report] /\ In (Called c (Some e)) u) \/ running u (whole p)) /\
  (In Write u <-> exists e, In (Called Report (Some e)) u).
Proof. apply handled_facts. Qed.
Print Assumptions C105_failed_run.

(** Synthetic problem with reference solution. *)
Definition usual : settings := {| random := false; vtk := false; skip_error := false; comparison := true |}.
(** Call 17 is the solve on the fine grid, call 21 the assembly on the coarse
    grid. *)
Definition two_failures (n : nat) : option exn :=
  if Nat.eqb n 17 || Nat.eqb n 21 then Some DuneExc else None.

Example C105_case :
  snd (main Msfem usual (fun _ => None)) = Returned /\
  failed Fine (fst (main Msfem usual (fun _ => None))) = [] /\
  failed Coarse (fst (main Msfem usual (fun _ => None))) = [] /\
  starts "fem.solve" (fst (main Msfem usual (fun _ => None))) = 2 /\
  starts "msfem.idFine" (fst (main Msfem usual (fun _ => None))) = 1.
Proof. vm_compute. repeat split. Qed.

Example C105_given_up_case :
  let t := fst (main Msfem usual two_failures) in
  snd (main Msfem usual two_failures) = Returned /\
  In (Called (Fem Coarse Assemble) (Some DuneExc)) t /\
  In (Called (Fem Fine SolveSystem) (Some DuneExc)) t /\
  filter (runningb (before_write t)) ["fem.apply"; "fem.assemble"; "fem.constraints"; "fem.solve"; "msfem.all"] =
  ["fem.apply"; "fem.assemble"; "fem.solve"].
Proof.
  cbv zeta. split; [vm_compute; reflexivity|].
  split; [apply (failed_spec Coarse); vm_compute; auto|].
  split; [apply (failed_spec Fine); vm_compute; auto|vm_compute; reflexivity].
Qed.

Example C105_failed_case :
  let run := main Cgfem usual (fun n => if Nat.eqb n 6 then Some DuneExc else None) in
  snd run = Handled /\
  filter (runningb (removelast (fst run))) by_hand = ["total_cpu"; "fem.apply"; "fem.solve"].
Proof. vm_compute. repeat split. Qed.
