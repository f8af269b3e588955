(** Theorems about the assembly by several threads: C124. *)
From Coq Require Import Reals List Arith Bool Lia Lra Permutation.
From Verif Require Import Util RSum CoarseModel CoarseSpec CoarseProofs CoarseProps SmpModel SmpSpec SmpProofs.
Import ListNotations.
Open Scope R_scope.

(** Locked additions and own storages: whatever the distribution of the cells
    and the order of the steps, the result is the one of the walk of one thread
    over the cells in any order. *)
Theorem C124_same_system_as_one_thread :
  forall d P diffusion source slot tmp reg (cells : list (list (coarse_cell P))) cs sched s M V,
  private (length cells) slot -> Permutation cs (concat cells) ->
  assemble_matrix d P diffusion (fun _ _ => 0) cs = Some M ->
  assemble_vector d P diffusion source (fun _ => 0) cs = Some V ->
  run slot sched (start d P diffusion source true tmp reg cells) = Some s -> finished s ->
  (forall a b, s_mem s (Mat a b) = M a b) /\ (forall a, s_mem s (Vec a) = V a).
Proof.
  intros d P diffusion source slot tmp reg cells cs sched s M V Own Pm HM HV H F.
  assert (OK : forall c, In c (concat cells) -> complete_cell c).
  { intros c I. apply (vector_complete _ _ _ _ _ _ _ HV). now apply (Permutation_in _ (Permutation_sym Pm)). }
  assert (X : forall e, s_mem s e = lsum (concat cells) (fun c => share d P diffusion source c e)).
  { intros e. pose proof (total_run slot (length cells) Own sched _ _ e
      (start_idle _ _ _ _ _ _ _ _)
      (fun u => thread_no_store d P diffusion source _) H) as Q.
    rewrite (rsum_0 (length cells)) in Q by (intros u _; now rewrite (F u)).
    cbn [start s_mem s_tmp s_rest] in Q. rewrite lsum_concat. rewrite Rplus_0_r in Q. rewrite Q, Rplus_0_l.
    apply rsum_ext. intros t L. apply thread_pend. intros c I. apply OK. apply in_concat.
    exists (nth t cells []). split; [now apply nth_In|exact I]. }
  split; intros.
  - rewrite X, (assemble_matrix_val _ _ _ _ _ _ HM), Rplus_0_l. symmetry. now apply lsum_perm.
  - rewrite X, (assemble_vector_val _ _ _ _ _ _ _ HV), Rplus_0_l. symmetry. now apply lsum_perm.
Qed.
Print Assumptions C124_same_system_as_one_thread.

(** No waiting: every schedule in which every thread makes enough steps ends,
    with the assertion if and only if a cell has the wrong number of functions. *)
Theorem C124_always_ends :
  forall d P diffusion source locked slot tmp reg (cells : list (list (coarse_cell P))) sched,
  let s0 := start d P diffusion source locked tmp reg cells in
  fair sched s0 ->
  ((forall c, In c (concat cells) -> complete_cell c) ->
   exists s, run slot sched s0 = Some s /\ finished s) /\
  ((exists c, In c (concat cells) /\ ~ complete_cell c) -> run slot sched s0 = None).
Proof.
  intros d P diffusion source locked slot tmp reg cells sched s0 F. split.
  - intros OK. destruct (run_some slot sched s0) as (s & H).
    + intros (t & I). cbn in I. apply thread_stop in I. destruct I as (c & I & N). apply N, OK. now apply (in_threads cells t).
    + exists s. split; [exact H|]. exact (fair_finished slot _ _ _ F H).
  - intros (c & I & N). apply run_none; [|exact F]. apply in_concat in I. destruct I as (q & Iq & Ic).
    apply (In_nth _ _ []) in Iq. destruct Iq as (t & _ & E). exists t. cbn. rewrite E. apply thread_stop. eauto.
Qed.
Print Assumptions C124_always_ends.

(** Whether additions are locked or not: entries to which only one thread
    contributes are right. *)
Theorem C124_entries_of_one_thread :
  forall d P diffusion source locked slot tmp reg (cells : list (list (coarse_cell P))) cs sched s M V t,
  private (length cells) slot -> Permutation cs (concat cells) ->
  assemble_matrix d P diffusion (fun _ _ => 0) cs = Some M ->
  assemble_vector d P diffusion source (fun _ => 0) cs = Some V ->
  run slot sched (start d P diffusion source locked tmp reg cells) = Some s -> finished s ->
  (t < length cells)%nat ->
  (forall a b, (forall u c, In c (nth u cells []) -> has_pair c a b -> u = t) -> s_mem s (Mat a b) = M a b) /\
  (forall a, (forall u c, In c (nth u cells []) -> has_node c a -> u = t) -> s_mem s (Vec a) = V a).
Proof.
  intros d P diffusion source locked slot tmp reg cells cs sched s M V t Own Pm HM HV H F L.
  assert (OK : forall c, In c (concat cells) -> complete_cell c).
  { intros c I. apply (vector_complete _ _ _ _ _ _ _ HV). now apply (Permutation_in _ (Permutation_sym Pm)). }
  pose proof (in_threads cells) as IN.
  assert (X : forall e, (forall u c, In c (nth u cells []) -> reaches_entry P c e -> u = t) ->
    s_mem s e = lsum (nth t cells []) (fun c => share d P diffusion source c e) /\
    lsum (concat cells) (fun c => share d P diffusion source c e) =
    lsum (nth t cells []) (fun c => share d P diffusion source c e)).
  { intros e R. split.
    - pose proof (single_run slot (length cells) Own t e sched _ _ L
        (start_idle _ _ _ _ _ _ _ _)
        (or_introl (thread_paired d P diffusion source locked _))
        (fun v Nv => thread_never d P diffusion source locked _ e (fun c Ic Rc => Nv (R v c Ic Rc))) H) as Q.
      rewrite (F t) in Q. cbn [start s_mem s_tmp s_rest pend] in Q. rewrite thread_pend in Q by eauto. lra.
    - rewrite lsum_concat. rewrite (rsum_single _ t); auto. intros u Lu N. apply lsum_0. intros c I.
      assert (Z : ~ reaches_entry P c e) by (intros Y; apply N; eauto).
      destruct e as [a b|a]; cbn [share reaches_entry] in *.
      + apply rsum_0. intros i Li. apply rsum_0. intros j Lj. unfold hit.
        destruct (Nat.eqb_spec (cc_index P c i) a); [|ring]. destruct (Nat.eqb_spec (cc_index P c j) b); [|ring].
        exfalso. apply Z. split; [exists i|exists j]; auto.
      + apply rsum_0. intros i Li. unfold hit. destruct (Nat.eqb_spec (cc_index P c i) a); [|ring].
        exfalso. apply Z. exists i; auto. }
  split.
  - intros a b R. destruct (X (Mat a b) R) as (X1 & X2).
    rewrite X1, (assemble_matrix_val _ _ _ _ _ _ HM), Rplus_0_l, (lsum_perm _ _ _ _ Pm). symmetry. exact X2.
  - intros a R. destruct (X (Vec a) R) as (X1 & X2).
    rewrite X1, (assemble_vector_val _ _ _ _ _ _ _ HV), Rplus_0_l, (lsum_perm _ _ _ _ Pm). symmetry. exact X2.
Qed.
Print Assumptions C124_entries_of_one_thread.

(** Without locks everything the other threads add to an entry can be lost, for
    every thread that adds to it. *)
Theorem C124_unlocked_additions_are_lost :
  forall d P diffusion source slot tmp reg (cells : list (list (coarse_cell P))) t c l M V,
  private (length cells) slot -> (forall c, In c (concat cells) -> complete_cell c) ->
  (t < length cells)%nat -> In c (nth t cells []) -> In l (cc_locals P c) -> lc_covered P l = true ->
  assemble_matrix d P diffusion (fun _ _ => 0) (nth t cells []) = Some M ->
  assemble_vector d P diffusion source (fun _ => 0) (nth t cells []) = Some V ->
  let s0 := start d P diffusion source false tmp reg cells in
  (forall a b, has_pair c a b ->
   exists sched s, run slot sched s0 = Some s /\ finished s /\ s_mem s (Mat a b) = M a b) /\
  (forall a, has_node c a ->
   exists sched s, run slot sched s0 = Some s /\ finished s /\ s_mem s (Vec a) = V a).
Proof.
  intros d P diffusion source slot tmp reg cells t c l M V Own OK L Ic Il Cl HM HV s0.
  pose proof (in_threads cells) as IN.
  assert (X : forall e, In (Fetch e) (cell_steps d P diffusion source false c) ->
    exists sched s, run slot sched s0 = Some s /\ finished s /\
      s_mem s e = lsum (nth t cells []) (fun c => share d P diffusion source c e)).
  { intros e Ie. destruct (lost slot (length cells) Own s0 t e) as (sched & s & H & F & E); auto.
    - apply start_idle.
    - intros (u & I). cbn in I. apply thread_stop in I. destruct I as (x & I & N). apply N, OK. eauto.
    - apply thread_paired.
    - cbn. apply in_flat_map. exists c. split; [exact Ic|exact Ie].
    - exists sched, s. split; [exact H|]. split; [exact F|]. rewrite E. cbn [s0 start s_mem s_tmp s_rest].
      rewrite thread_pend by eauto. apply Rplus_0_l. }
  destruct (complete_tests P c (OK c (IN _ _ Ic))) as (T1 & T2).
  split.
  - intros a b ((i & Li & Ei) & (j & Lj & Ej)). destruct (X (Mat a b)) as (sched & s & H & F & E).
    + unfold cell_steps. rewrite T1. apply in_app_iff. left.
      apply in_flat_map. exists l. split; [now apply filter_In|]. right. right.
      apply in_flat_map. exists i. split; [apply in_seq; lia|]. apply in_flat_map. exists j. split; [apply in_seq; lia|].
      rewrite Ei, Ej. now left.
    + exists sched, s. split; [exact H|]. split; [exact F|].
      rewrite E, (assemble_matrix_val _ _ _ _ _ _ HM). symmetry. apply Rplus_0_l.
  - intros a (i & Li & Ei). destruct (X (Vec a)) as (sched & s & H & F & E).
    + unfold cell_steps. rewrite T2. apply in_app_iff. right.
      apply in_flat_map. exists l. split; [now apply filter_In|]. right. right.
      apply in_flat_map. exists i. split; [apply in_seq; lia|]. rewrite Ei. now left.
    + exists sched, s. split; [exact H|]. split; [exact F|].
      rewrite E, (assemble_vector_val _ _ _ _ _ _ _ HV). symmetry. apply Rplus_0_l.
Qed.
Print Assumptions C124_unlocked_additions_are_lost.

(** One function, one local element, energy and load 1. *)
Definition one_local : local_cell unit :=
  {| lc_covered := true; lc_global := fun x => x; lc_factor := fun _ => 1; lc_grad := fun _ _ _ => 0;
     lc_val := fun _ _ => 0; lc_quad := [(tt, 1)]; lc_rquad := [(tt, 1)] |}.
Definition one_cell : coarse_cell unit :=
  {| cc_n := 1; cc_grad := fun _ _ _ => 1; cc_val := fun _ _ => 1; cc_index := fun i => i; cc_slots := 3;
     cc_locals := [one_local] |}.
Definition one_diff : unit -> nat -> nat -> R := fun _ _ _ => 1.
Definition one_source : unit -> R := fun _ => 1.

Lemma one_matrix : exists M, assemble_matrix 1 unit one_diff (fun _ _ => 0) [one_cell; one_cell] = Some M /\ M 0%nat 0%nat = 2.
Proof.
  eexists. split; [reflexivity|]. cbv -[Rplus Rmult IZR]. ring.
Qed.
Lemma one_vector : exists V, assemble_vector 1 unit one_diff one_source (fun _ => 0) [one_cell; one_cell] = Some V /\ V 0%nat = 2.
Proof.
  eexists. split; [reflexivity|]. cbv -[Rplus Rmult Rminus Ropp IZR]. ring.
Qed.

Lemma one_steps : cell_steps 1 unit one_diff one_source true one_cell =
  [ClearMat; Apply (fun e => match e with Mat i j => element_matrix 1 unit one_diff one_cell one_local i j | Vec _ => 0 end);
   Add (Mat 0 0) (Mat 0 0); ClearVec;
   Apply (fun e => match e with Mat _ _ => 0 | Vec i => element_vector 1 unit one_diff one_source one_cell one_local i end);
   Add (Vec 0) (Vec 0)].
Proof. reflexivity. Qed.

(** Own storages are needed: whenever two threads share one, locked additions
    do not help. *)
Theorem C124_shared_storage_is_wrong :
  forall n slot tmp reg t u, (t < n)%nat -> (u < n)%nat -> t <> u -> slot t = slot u ->
  exists (cells : list (list (coarse_cell unit))) sched s M,
    length cells = n /\ assemble_matrix 1 unit one_diff (fun _ _ => 0) (concat cells) = Some M /\
    run slot sched (start 1 unit one_diff one_source true tmp reg cells) = Some s /\ finished s /\
    M 0%nat 0%nat = 2 /\ s_mem s (Mat 0 0) = 4.
Proof.
  intros n slot tmp reg t u Lt Lu N E.
  set (cells := map (fun v => if Nat.eqb v t || Nat.eqb v u then [one_cell] else []) (seq 0 n)).
  assert (Ln : length cells = n) by (unfold cells; now rewrite map_length, seq_length).
  assert (C : forall v, (v < n)%nat -> nth v cells [] = if Nat.eqb v t || Nat.eqb v u then [one_cell] else []).
  { intros v Lv. unfold cells.
    set (g := fun v => if Nat.eqb v t || Nat.eqb v u then [one_cell] else []).
    rewrite (nth_indep _ [] (g 0%nat)) by (now rewrite map_length, seq_length).
    rewrite map_nth, seq_nth by exact Lv. reflexivity. }
  assert (A : exists M, assemble_matrix 1 unit one_diff (fun _ _ => 0) (concat cells) = Some M).
  { assert (K : forall c, In c (concat cells) -> c = one_cell).
    { intros c I. apply in_concat in I. destruct I as (q & Iq & Ic). unfold cells in Iq. apply in_map_iff in Iq.
      destruct Iq as (v & <- & _). destruct (Nat.eqb v t || Nat.eqb v u); [|destruct Ic].
      destruct Ic as [<-|[]]. reflexivity. }
    generalize (fun _ _ : nat => 0). induction (concat cells) as [|c r IH]; intros M0; [eexists; reflexivity|].
    rewrite (K c) by now left. cbn [assemble_matrix]. unfold assemble_cell at 1. cbn [one_cell cc_slots cc_n Nat.sub Nat.eqb].
    apply IH. intros x I. apply K. now right. }
  destruct A as (M & HM).
  assert (Nt : Nat.eqb t u = false) by now apply Nat.eqb_neq.
  assert (Nu : Nat.eqb u t = false) by (apply Nat.eqb_neq; congruence).
  pose proof (Nat.eqb_refl t) as Rt. pose proof (Nat.eqb_refl u) as Ru.
  assert (Ct : nth t cells [] = [one_cell]) by (rewrite C, Rt by exact Lt; reflexivity).
  assert (Cu : nth u cells [] = [one_cell]) by (rewrite C, Ru, orb_true_r by exact Lu; reflexivity).
  set (s0 := start 1 unit one_diff one_source true tmp reg cells).
  assert (St : s_rest s0 t = cell_steps 1 unit one_diff one_source true one_cell)
    by (cbn [s0 start s_rest]; rewrite Ct; apply app_nil_r).
  assert (Su : s_rest s0 u = cell_steps 1 unit one_diff one_source true one_cell)
    by (cbn [s0 start s_rest]; rewrite Cu; apply app_nil_r).
  rewrite one_steps in St, Su.
  destruct (doubled slot t u s0 _ _ _ _ N E (ex_intro _ 0%nat (ex_intro _ 0%nat eq_refl)) St Su) as (s1 & H1 & V1).
  set (rest := [t; u; t; u; t; u]).
  destruct (run_some slot (rest ++ rest) s0) as (s2 & H2).
  { intros (v & I). cbn [s0 start s_rest] in I. apply thread_stop in I. destruct I as (c & I & Q). apply Q.
    destruct (Nat.lt_ge_cases v n) as [Lv|G]; [|rewrite nth_overflow in I by lia; destruct I].
    rewrite C in I by exact Lv. destruct (Nat.eqb v t || Nat.eqb v u); [|destruct I]. destruct I as [<-|[]]. reflexivity. }
  assert (Oth : forall v, v <> t -> v <> u -> s_rest s0 v = []).
  { intros v D1 D2. cbn [s0 start s_rest]. destruct (Nat.lt_ge_cases v n) as [Lv|G]; [|rewrite nth_overflow by lia; reflexivity].
    rewrite C, (proj2 (Nat.eqb_neq v t) D1), (proj2 (Nat.eqb_neq v u) D2) by exact Lv. reflexivity. }
  assert (K : forall v, count_occ Nat.eq_dec rest v = if Nat.eqb v t || Nat.eqb v u then 3%nat else 0%nat).
  { intros v. unfold rest. cbn [count_occ].
    destruct (Nat.eq_dec t v) as [<-|D1]; [rewrite Rt; destruct (Nat.eq_dec u t); [congruence|reflexivity]|].
    destruct (Nat.eq_dec u v) as [<-|D2]; [rewrite Ru, orb_true_r; reflexivity|].
    rewrite (proj2 (Nat.eqb_neq v t)), (proj2 (Nat.eqb_neq v u)) by congruence. reflexivity. }
  assert (Fin : finished s2).
  { apply (fair_finished slot (rest ++ rest) s0); [|exact H2]. intros v. rewrite count_occ_app, K.
    destruct (Nat.eqb_spec v t) as [->|D1]; [rewrite St; cbn; lia|].
    destruct (Nat.eqb_spec v u) as [->|D2]; [rewrite Su; cbn; lia|].
    rewrite (Oth v D1 D2). cbn. lia. }
  rewrite run_app in H2. change (run slot rest s0) with (run slot [t; u; t; u; t; u] s0) in H2. rewrite H1 in H2.
  exists cells, (rest ++ rest), s2, M. split; [exact Ln|]. split; [exact HM|]. split.
  { rewrite run_app. fold s0. unfold rest at 1. rewrite H1. exact H2. }
  split; [exact Fin|]. split.
  - rewrite (assemble_matrix_val _ _ _ _ _ _ HM), lsum_concat, Ln, Rplus_0_l.
    rewrite (rsum_ext _ _ (fun v => (if Nat.eqb v t then 1 else 0) + (if Nat.eqb v u then 1 else 0))).
    + rewrite rsum_plus, (rsum_single n t), (rsum_single n u); auto.
      * rewrite Rt, Ru. ring.
      * intros v _ D. now rewrite (proj2 (Nat.eqb_neq v u) D).
      * intros v _ D. now rewrite (proj2 (Nat.eqb_neq v t) D).
    + intros v Lv. rewrite C by exact Lv. destruct (Nat.eqb_spec v t) as [->|D1].
      * rewrite Nt. cbn [orb]. cbv -[Rplus Rmult IZR]. ring.
      * cbn [orb]. destruct (Nat.eqb v u); [|cbn [lsum]; ring]. cbv -[Rplus Rmult IZR]. ring.
  - rewrite (never_run slot _ rest s1 s2); [| |exact H2].
    + rewrite V1. cbn [s0 start s_mem]. cbv -[Rplus Rmult IZR]. ring.
    + intros v. rewrite (run_rest slot _ _ _ H1 v). fold rest. rewrite K.
      destruct (Nat.eqb_spec v t) as [->|D1]; [rewrite St|destruct (Nat.eqb_spec v u) as [->|D2];
        [rewrite Su|rewrite (Oth v D1 D2)]]; cbn [orb skipn]; intros f; cbn [In]; split; intros I;
        repeat (destruct I as [I|I]; [discriminate|]); exact I.
Qed.
Print Assumptions C124_shared_storage_is_wrong.

(** Two threads with one cell each, own storages: 2 with locked additions in
    every schedule with enough steps, 1 possible with additions in two steps. *)
Example C124_case : forall tmp reg,
  let slot := fun t : nat => t in
  let cells := [[one_cell]; [one_cell]] in
  (exists sched s, run slot sched (start 1 unit one_diff one_source true tmp reg cells) = Some s /\ finished s) /\
  (forall sched s, run slot sched (start 1 unit one_diff one_source true tmp reg cells) = Some s -> finished s ->
    s_mem s (Mat 0 0) = 2 /\ s_mem s (Vec 0) = 2) /\
  (exists sched s, run slot sched (start 1 unit one_diff one_source false tmp reg cells) = Some s /\ finished s /\
    s_mem s (Mat 0 0) = 1) /\
  (exists sched s, run slot sched (start 1 unit one_diff one_source false tmp reg cells) = Some s /\ finished s /\
    s_mem s (Vec 0) = 1) /\
  (forall sched s, run slot sched (start 1 unit one_diff one_source false tmp reg [[one_cell; one_cell]; []]) = Some s ->
    finished s -> s_mem s (Mat 0 0) = 2).
Proof.
  intros tmp reg slot cells.
  assert (Own : private (length cells) slot) by (intros t u _ _ E; exact E).
  assert (OK : forall c, In c (concat cells) -> complete_cell c) by (intros c [<-|[<-|[]]]; reflexivity).
  destruct one_matrix as (M & HM & EM). destruct one_vector as (V & HV & EV).
  assert (L : forall s0 : state, (forall v, (2 <= v)%nat -> s_rest s0 v = []) ->
    fair (repeat 0%nat (length (s_rest s0 0%nat)) ++ repeat 1%nat (length (s_rest s0 1%nat))) s0).
  { intros s0 Z v. rewrite count_occ_app. destruct v as [|[|v]]; [rewrite count_repeat; lia|rewrite (count_repeat 1); lia|].
    rewrite Z by lia. cbn. lia. }
  assert (One : (0 < length cells)%nat) by (cbn; lia).
  split; [|split; [|split; [|split]]].
  - destruct (C124_always_ends 1 unit one_diff one_source true slot tmp reg cells _
      (L _ (start_idle _ _ _ _ _ _ _ cells))) as (A & _). destruct (A OK) as (s & H & F). eauto.
  - intros sched s H F.
    destruct (C124_same_system_as_one_thread 1 unit one_diff one_source slot tmp reg cells (concat cells) sched s M V
      Own (Permutation_refl _) HM HV H F) as (A & B). now rewrite A, B.
  - destruct (C124_unlocked_additions_are_lost 1 unit one_diff one_source slot tmp reg cells 0 one_cell one_local _ _
      Own OK One (or_introl eq_refl) (or_introl eq_refl) eq_refl eq_refl eq_refl) as (A & _).
    destruct (A 0%nat 0%nat) as (sched & s & H & F & E); [split; exists 0%nat; split; auto|].
    exists sched, s. split; [exact H|]. split; [exact F|]. rewrite E. cbv -[Rplus Rmult IZR]. ring.
  - destruct (C124_unlocked_additions_are_lost 1 unit one_diff one_source slot tmp reg cells 0 one_cell one_local _ _
      Own OK One (or_introl eq_refl) (or_introl eq_refl) eq_refl eq_refl eq_refl) as (_ & A).
    destruct (A 0%nat) as (sched & s & H & F & E); [exists 0%nat; split; auto|].
    exists sched, s. split; [exact H|]. split; [exact F|]. rewrite E. cbv -[Rplus Rmult Rminus Ropp IZR]. ring.
  - intros sched s H F.
    destruct (C124_entries_of_one_thread 1 unit one_diff one_source false slot tmp reg [[one_cell; one_cell]; []] _ sched s M V 0%nat
      Own (Permutation_refl _) HM HV H F One) as (A & _). rewrite A; [exact EM|].
    intros [|[|v]] c I _; [reflexivity|destruct I|destruct v; destruct I].
Qed.
