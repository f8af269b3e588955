(** Properties C08-C10 and C66: concurrent lookups of storage objects. *)
From Coq Require Import List Arith Lia Bool.
From Verif Require Import Util RegistryModel RegistrySpec RegistryProofs.
Import ListNotations.

(** Three threads; 0 and 1 share key 7, 2 works on other cells. *)
Definition ex_progs (t : nat) : list nat :=
  match t with 0 => [7; 8; 7] | 1 => [7] | 2 => [3; 4] | _ => [] end.

(** Release-build run in which threads 0 and 1 both miss key 7 and thread 2
    waits for the lock. *)
Definition ex_sched : list nat :=
  [0; 0; 1; 1; 0; 2; 2; 0; 0; 0; 2; 2; 2; 2; 2; 2; 1; 1; 1; 1; 0; 0; 0; 0; 0; 0; 0; 0].

Lemma ex_start : start_ok [(3, 0)] 1.
Proof.
  repeat split; simpl; try (repeat constructor; simpl; tauto).
  intros k o [E|[]]. injection E as <- <-. lia.
Qed.

(** C08. *)
Theorem C08_one_object_per_key : forall debug m0 n0 progs s,
  start_ok m0 n0 -> rreach debug m0 n0 progs s ->
  (forall k o o', registered s k o -> registered s k o' -> o = o') /\
  (forall k k' o, registered s k o -> registered s k' o -> k = k') /\
  (forall t k o, In (k, o) (t_done (r_thr s t)) -> registered s k o) /\
  (forall t, exists rest, progs t = rev (map fst (t_done (r_thr s t))) ++ rest) /\
  (forall sched s' k o, rrun debug s sched = Some s' -> registered s k o -> registered s' k o).
Proof. exact one_object. Qed.
Print Assumptions C08_one_object_per_key.

(** Two threads miss the same key, both create an object, both return the
    first one. *)
Example C08_case :
  exists s, rrun false (rinit [(3, 0)] 1 ex_progs) ex_sched = Some s /\
    r_map s = [(8, 4); (4, 2); (7, 1); (3, 0)] /\
    t_done (r_thr s 0) = [(7, 1); (8, 4); (7, 1)] /\ t_done (r_thr s 1) = [(7, 1)] /\
    t_done (r_thr s 2) = [(4, 2); (3, 0)].
Proof. eexists. split; [vm_compute; reflexivity|]. repeat split; reflexivity. Qed.

(** C09. *)
Theorem C09_no_abort_on_disjoint_keys : forall debug m0 n0 progs s,
  start_ok m0 n0 ->
  (forall t t' k, t <> t' -> In k (progs t) -> In k (progs t') -> In k (map fst m0)) ->
  rreach debug m0 n0 progs s -> r_abort s = false.
Proof.
  intros debug m0 n0 progs s H D R. destruct (r_abort s) eqn:A; auto. exfalso.
  destruct (abort_needs_sharing _ _ _ _ _ H R A) as (_ & t & t' & k & NE & P & P' & N & _).
  apply N. eauto.
Qed.
Print Assumptions C09_no_abort_on_disjoint_keys.

Theorem C09_no_abort_without_assertions : forall m0 n0 progs s,
  start_ok m0 n0 -> rreach false m0 n0 progs s -> r_abort s = false.
Proof.
  intros m0 n0 progs s H R. destruct (r_abort s) eqn:A; auto.
  destruct (abort_needs_sharing _ _ _ _ _ H R A). discriminate.
Qed.
Print Assumptions C09_no_abort_without_assertions.

Theorem C09_abort_exactly_after_foreign_insert : forall m0 n0 progs s t k o,
  start_ok m0 n0 -> rreach true m0 n0 progs s -> r_abort s = false ->
  t_pc (r_thr s t) = Inserting k o ->
  ((exists s', fire true t s = Some s' /\ r_abort s' = true) <->
   exists t', t' <> t /\ inserted_after_miss s t t' k).
Proof. exact abort_exact. Qed.
Print Assumptions C09_abort_exactly_after_foreign_insert.

Theorem C09_same_first_key_can_abort : forall n0 progs t t' k r r',
  t <> t' -> progs t = k :: r -> progs t' = k :: r' ->
  exists s, rreach true [] n0 progs s /\ r_abort s = true.
Proof.
  intros n0 progs t t' k r r' NE P P'.
  destruct (clash_aborts n0 progs t t' k r r' NE P P') as (s & R & A).
  exists s. split; auto. eexists; eauto.
Qed.
Print Assumptions C09_same_first_key_can_abort.

Example C09_case :
  (exists s, rreach true [(3, 0)] 1 ex_progs s /\ r_abort s = true) /\
  (exists s, rreach true [(3, 0)] 1 ex_progs s /\ r_abort s = false /\
             t_pc (r_thr s 1) = Inserting 7 3 /\ inserted_after_miss s 1 0 7).
Proof.
  split.
  - eexists. split; [exists [0; 0; 1; 1; 0; 2; 2; 0; 0; 0; 2; 2; 2; 2; 2; 2; 1; 1; 1];
      vm_compute; reflexivity|reflexivity].
  - eexists. split; [exists [0; 0; 1; 1; 0; 2; 2; 0; 0; 0; 2; 2; 2; 2; 2; 2; 1; 1];
      vm_compute; reflexivity|].
    repeat split; try reflexivity.
    exists [EIns 2 4; EMiss 2 4], [], [EMiss 0 7]. reflexivity.
Qed.

(** C10. *)
Theorem C10_unsynchronised_read_reachable : forall debug m0 n0 progs,
  start_ok m0 n0 ->
  ((exists s, rreach debug m0 n0 progs s /\ racing s) <->
   exists t t' k', t <> t' /\ progs t <> [] /\ In k' (progs t') /\ ~ In k' (map fst m0)).
Proof.
  intros debug m0 n0 progs H. split.
  - intros (s & R & C). eapply race_needs; eauto.
  - intros (t & t' & k' & NE & P & Hin & N).
    destruct (race_reachable debug m0 n0 progs t t' k' NE P Hin N) as (s & R & _ & C).
    exists s. auto.
Qed.
Print Assumptions C10_unsynchronised_read_reachable.

(** Two threads on two different cells. *)
Example C10_case :
  exists s, rreach true [] 0 (fun t => match t with 0 => [4] | 1 => [5] | _ => [] end) s /\
            racing s.
Proof.
  apply C10_unsynchronised_read_reachable.
  - repeat split; simpl; try constructor. intros k o [].
  - exists 0, 1, 5. repeat split; simpl; try discriminate; auto.
Qed.

(** C66. *)
Theorem C66_lookups_never_deadlock : forall debug m0 n0 progs s,
  start_ok m0 n0 -> rreach debug m0 n0 progs s -> r_abort s = false ->
  (exists t, ~ finished s t) -> exists u s', fire debug u s = Some s'.
Proof. exact progress. Qed.
Print Assumptions C66_lookups_never_deadlock.

Theorem C66_lookups_terminate : forall debug m0 n0 progs n sched s,
  (forall t, n <= t -> progs t = []) ->
  rrun debug (rinit m0 n0 progs) sched = Some s ->
  length sched <= 6 * total (fun t => length (progs t)) n.
Proof. exact schedules_bounded. Qed.
Print Assumptions C66_lookups_terminate.

Theorem C66_every_lookup_completes : forall debug m0 n0 progs s,
  start_ok m0 n0 -> rreach debug m0 n0 progs s -> r_abort s = false ->
  (forall u, fire debug u s = None) ->
  forall t, map fst (rev (t_done (r_thr s t))) = progs t /\
            forall k, In k (progs t) -> exists o, In (k, o) (t_done (r_thr s t)) /\ registered s k o.
Proof. exact stuck_complete. Qed.
Print Assumptions C66_every_lookup_completes.

(** All lookups of the three threads complete in 28 of at most 36 steps. *)
Example C66_case :
  exists s, rrun false (rinit [(3, 0)] 1 ex_progs) ex_sched = Some s /\
    (forall t, 3 <= t -> ex_progs t = []) /\
    6 * total (fun t => length (ex_progs t)) 3 = 36 /\ length ex_sched = 28 /\
    (forall u, fire false u s = None).
Proof.
  eexists. split; [vm_compute; reflexivity|].
  split; [intros [|[|[|t]]] H; try lia; reflexivity|].
  split; [reflexivity|]. split; [reflexivity|].
  intros [|[|[|u]]]; reflexivity.
Qed.

(** Insertions never overlap with each other: the only unsynchronised access
    is the one of C10. *)
Theorem C10_insertions_exclude_each_other : forall debug m0 n0 progs s t t' k k' o o',
  start_ok m0 n0 -> rreach debug m0 n0 progs s ->
  t_pc (r_thr s t) = Inserting k o -> t_pc (r_thr s t') = Inserting k' o' ->
  t = t' /\ k = k' /\ o = o'.
Proof.
  intros debug m0 n0 progs s t t' k k' o o' H R P P'.
  pose proof (i_lock _ _ _ (inv_reach _ _ _ _ _ H R)) as L.
  assert (E : t = t').
  { assert (A : r_lock s = Some t) by (apply L; rewrite P; exact I).
    assert (B : r_lock s = Some t') by (apply L; rewrite P'; exact I). congruence. }
  subst t'. rewrite P in P'. injection P' as -> ->. auto.
Qed.
Print Assumptions C10_insertions_exclude_each_other.

(** A thread that missed key 8 has to wait while another one inserts key 7. *)
Example C10_waiting :
  exists s, rreach true [] 0 (fun t => match t with 0 => [7] | 1 => [8] | _ => [] end) s /\
    t_pc (r_thr s 0) = Inserting 7 0 /\ t_pc (r_thr s 1) = Missed 8 /\ fire true 1 s = None.
Proof. eexists. split; [exists [0; 0; 1; 1; 0; 0]; vm_compute; reflexivity|]. repeat split. Qed.
