(** Properties C24-C28: point search over the local grids. *)
From Coq Require Import List Arith Lia Bool.
From Verif Require Import Util SearchModel SearchSpec SearchProofs.
Import ListNotations.

(** Three cells [2c, 2c+2] on a line; an entity is a pair (cell, point). *)
Definition ex_inside (c p : nat) : bool := (Nat.leb (2 * c) p && Nat.leb p (2 * c + 2))%bool.
Definition ex_lookup (n c : nat) (ps : list nat) : list (option (nat * nat)) :=
  map (fun p => Some (c, p)) ps.
Notation ex_search := (search nat nat (nat * nat) ex_inside ex_lookup [0; 1; 2] 3).
Notation ex_searches := (searches nat nat (nat * nat) ex_inside ex_lookup [0; 1; 2] 3).

Lemma ex_complete : complete nat nat (nat * nat) ex_inside ex_lookup [0; 1; 2].
Proof.
  intros n c ps _ _. exists (map (pair c) ps). unfold ex_lookup.
  rewrite map_map, map_length. auto.
Qed.

(** C24. *)
Theorem C24_remembered_cell_contains_all_points :
  forall cell point ent inside lookup cells wsize st ps ret st' v,
  ps <> [] ->
  search cell point ent inside lookup cells wsize st ps = Found ret st' v ->
  exists c, current_coarse cell st' = Some c /\ In c cells /\ contains cell point inside c ps.
Proof.
  intros cell point ent inside lookup cells wsize st ps ret st' v NE R.
  eapply loop_sound; [apply nonempty_nulls; eauto|exact R].
Qed.
Print Assumptions C24_remembered_cell_contains_all_points.

Theorem C24_results_belong_to_remembered_cell :
  forall cell point ent inside lookup cells wsize st ps ret st' v,
  complete cell point ent inside lookup cells -> ps <> [] ->
  search cell point ent inside lookup cells wsize st ps = Found ret st' v ->
  exists c n, current_coarse cell st' = Some c /\ In c cells /\
    contains cell point inside c ps /\ ret = lookup n c ps.
Proof.
  intros cell point ent inside lookup cells wsize st ps ret st' v CP NE R.
  eapply loop_results; eauto.
Qed.
Print Assumptions C24_results_belong_to_remembered_cell.

Example C24_case :
  complete nat nat (nat * nat) ex_inside ex_lookup [0; 1; 2] /\
  exists st', ex_search {| s_it := Some 1; s_cur := None; s_calls := 0 |} [0; 1] =
    Found [Some (0, 0); Some (0, 1)] st' 3 /\ current_coarse nat st' = Some 0.
Proof.
  split; [apply ex_complete|]. eexists. split; [vm_compute; reflexivity|reflexivity].
Qed.

(** Why completeness of the per-grid searches is needed: if a cell that
    contains the points answers only for the second one, the result of the
    second point is returned at the position of the first. *)
Example C24_incomplete_answers_are_misplaced :
  let partial (n c : nat) (ps : list nat) :=
    match n with 0 => [None; Some (c, 2)] | _ => [Some (c, 2); None] end in
  sized nat nat (nat * nat) (fun n c ps => map (fun p => Some (c, p)) ps) /\
  exists st', search nat nat (nat * nat) ex_inside partial [0; 1] 2 fresh [2; 2] =
    Found [Some (0, 2); Some (1, 2)] st' 2.
Proof.
  cbv zeta. split; [intros n c ps; apply map_length|].
  eexists. vm_compute. reflexivity.
Qed.

(** C25. *)
Theorem C25_search_succeeds : forall cell point ent inside lookup cells wsize qs st ps,
  complete cell point ent inside lookup cells -> cells <> [] -> 2 <= wsize ->
  searches cell point ent inside lookup cells wsize fresh qs = Some st ->
  ps <> [] -> (exists c, In c cells /\ contains cell point inside c ps) ->
  exists ret st' v, search cell point ent inside lookup cells wsize st ps = Found ret st' v /\
    1 <= v <= length cells.
Proof.
  intros cell point ent inside lookup cells wsize qs st ps CP NE W H NP (c & IN & CC).
  assert (IR : in_range cell cells st) by (eapply searches_range; [|exact H]; exact NE).
  destruct (first_exists _ _ _ inside lookup cells wsize st ps c IR IN CC) as (k & c' & FC).
  destruct (search_finds _ _ _ _ _ _ _ CP W st ps k c' NP IR FC) as (ret & st' & R & _).
  exists ret, st', (S k). split; auto. destruct FC. lia.
Qed.
Print Assumptions C25_search_succeeds.

(** The answer is the first containing cell, in cyclic order. *)
Theorem C25_first_cell_in_cyclic_order :
  forall cell point ent inside lookup cells wsize st ps k c,
  complete cell point ent inside lookup cells -> 2 <= wsize ->
  ps <> [] -> in_range cell cells st ->
  first_containing cell point inside cells st ps k c ->
  exists ret st', search cell point ent inside lookup cells wsize st ps = Found ret st' (S k) /\
    current_coarse cell st' = Some c /\
    s_it st' = Some (cyc cell cells (start cell st) (S k)) /\ in_range cell cells st' /\
    ret = lookup (s_calls st) c ps.
Proof. intros; now apply search_finds. Qed.
Print Assumptions C25_first_cell_in_cyclic_order.

Example C25_case :
  exists st ret st', ex_searches fresh [[5]; [2; 2]; [1]] = Some st /\ s_it st = Some 1 /\
    ex_search st [0; 2] = Found ret st' 3 /\ ex_inside 0 0 = true /\ ex_inside 0 2 = true.
Proof.
  do 3 eexists. split; [vm_compute; reflexivity|]. split; [reflexivity|].
  split; [vm_compute; reflexivity|]. auto.
Qed.

(** C26. *)
Theorem C26_search_always_terminates : forall cell point ent inside lookup cells wsize st ps,
  search cell point ent inside lookup cells wsize st ps <> OutOfFuel.
Proof. exact search_terminates. Qed.
Print Assumptions C26_search_always_terminates.

Theorem C26_failure_is_reported : forall cell point ent inside lookup cells wsize qs st ps,
  cells <> [] -> 1 <= wsize ->
  searches cell point ent inside lookup cells wsize fresh qs = Some st ->
  ps <> [] -> (forall c, In c cells -> ~ contains cell point inside c ps) ->
  exists st' v, search cell point ent inside lookup cells wsize st ps = Throws st' v /\
    v <= wsize * length cells /\
    forall ps', ps' <> [] -> search cell point ent inside lookup cells wsize st' ps' = Bad.
Proof.
  intros cell point ent inside lookup cells wsize qs st ps NE W H NP NC.
  assert (IR : in_range cell cells st) by (eapply searches_range; [|exact H]; exact NE).
  destruct (search_fails _ _ _ inside lookup cells wsize W st ps NP IR NC) as (st' & R & E).
  exists st', (wsize * length cells - start cell st). split; auto. split; [lia|].
  intros ps' NP'. now apply search_after_failure.
Qed.
Print Assumptions C26_failure_is_reported.

(** Every exception, whatever its reason, leaves the object unusable. *)
Theorem C26_unusable_after_any_failure :
  forall cell point ent inside lookup cells wsize st ps st' v ps',
  in_range cell cells st ->
  search cell point ent inside lookup cells wsize st ps = Throws st' v ->
  ps' <> [] -> search cell point ent inside lookup cells wsize st' ps' = Bad.
Proof.
  intros cell point ent inside lookup cells wsize st ps st' v ps' IR R NP.
  apply search_after_failure; auto.
  pose proof (search_position cell point ent inside lookup cells wsize st ps IR) as P.
  rewrite R in P. exact P.
Qed.
Print Assumptions C26_unusable_after_any_failure.

Example C26_case :
  exists st', ex_search fresh [1; 5] = Throws st' 9 /\ ex_search st' [1] = Bad.
Proof. eexists. split; vm_compute; reflexivity. Qed.

(** C27. *)
Theorem C27_single_cell_never_searchable :
  forall cell point ent inside lookup c0 qs st ps,
  sized cell point ent lookup ->
  searches cell point ent inside lookup [c0] 1 fresh qs = Some st ->
  ps <> [] ->
  exists st', search cell point ent inside lookup [c0] 1 st ps = Throws st' 1.
Proof.
  intros cell point ent inside lookup c0 qs st ps SZ H NP.
  apply single_cell; auto. eapply searches_range; [|exact H]. discriminate.
Qed.
Print Assumptions C27_single_cell_never_searchable.

(** The cell contains both points, still the search throws; with a second
    (overlap) cell counted by the view it succeeds. *)
Example C27_case :
  ex_inside 0 1 = true /\ ex_inside 0 2 = true /\
  (exists st', search nat nat (nat * nat) ex_inside ex_lookup [0] 1 fresh [1; 2] = Throws st' 1) /\
  (exists st', search nat nat (nat * nat) ex_inside ex_lookup [0] 2 fresh [1; 2] =
               Found [Some (0, 1); Some (0, 2)] st' 1).
Proof. repeat split; eexists; vm_compute; reflexivity. Qed.

(** C28. *)
Theorem C28_unique_cell_always_answers :
  forall cell point ent inside lookup cells wsize st ps c ret st' v,
  (forall c', In c' cells -> contains cell point inside c' ps -> c' = c) ->
  ps <> [] ->
  search cell point ent inside lookup cells wsize st ps = Found ret st' v ->
  current_coarse cell st' = Some c.
Proof. intros; eapply unique_answer; eauto. Qed.
Print Assumptions C28_unique_cell_always_answers.

(** Repeating the same query is enough history to get any of the cells that
    contain the points. *)
Theorem C28_every_containing_cell_can_answer :
  forall cell point ent inside lookup cells wsize ps c,
  complete cell point ent inside lookup cells -> 2 <= wsize -> ps <> [] ->
  In c cells -> contains cell point inside c ps ->
  exists m st ret st' v,
    searches cell point ent inside lookup cells wsize fresh (repeat ps m) = Some st /\
    search cell point ent inside lookup cells wsize st ps = Found ret st' v /\
    current_coarse cell st' = Some c.
Proof.
  intros cell point ent inside lookup cells wsize ps c CP W NP IN CC.
  destruct (In_nth_error _ _ IN) as (j & J).
  eapply every_containing_answers with (d := j); eauto.
  unfold in_range, fresh. simpl. intros ->. destruct IN.
Qed.
Print Assumptions C28_every_containing_cell_can_answer.

(** The proxy evaluates the correction of exactly that cell. *)
Theorem C28_proxy_uses_the_answering_cell :
  forall cell point ent inside lookup cells wsize index lfun corrections st ps ret st' v,
  ps <> [] ->
  search cell point ent inside lookup cells wsize st ps = Found ret st' v ->
  exists c, In c cells /\ contains cell point inside c ps /\
    forall f, In (index c, f) corrections -> NoDup (map fst corrections) ->
    local_function cell index lfun corrections st' = LocalFunction f.
Proof.
  intros cell point ent inside lookup cells wsize index lfun corrections st ps ret st' v NP R.
  destruct (C24_remembered_cell_contains_all_points _ _ _ _ _ _ _ _ _ _ _ _ NP R) as (c & A & B & C).
  exists c. repeat split; auto. intros f IN ND. unfold local_function. rewrite A.
  now rewrite (In_assoc _ _ _ _ ND IN).
Qed.
Print Assumptions C28_proxy_uses_the_answering_cell.

(** Point 2 lies on the interface of cells 0 and 1. *)
Example C28_case :
  exists st1 st2, ex_search fresh [2] = Found [Some (0, 2)] st1 1 /\
    ex_search st1 [2] = Found [Some (1, 2)] st2 1 /\
    local_function nat (fun c => 10 + c) nat [(10, 100); (11, 111); (12, 112)] st2 =
      LocalFunction 111.
Proof. do 2 eexists. repeat split; vm_compute; reflexivity. Qed.
