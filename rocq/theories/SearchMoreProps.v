(** Properties C24 (incomplete answers) and C28 (outcomes of the proxy). *)
From Coq Require Import List Arith Lia Bool.
From Verif Require Import Util SearchModel SearchSpec SearchProofs SearchProps.
Import ListNotations.

Section More.
Variables cell point ent : Type.
Variable inside : cell -> point -> bool.
Variable lookup : nat -> cell -> list point -> list (option ent).
Variable cells : list cell.
Variable wsize : nat.

Definition entities (l : list (option ent)) : list ent :=
  flat_map (fun o => match o with Some e => [e] | None => [] end) l.

Lemma null_count_app : forall a b : list (option ent), null_count (a ++ b) = null_count a + null_count b.
Proof. intros a b. unfold null_count. now rewrite filter_app, app_length. Qed.

Lemma find_null_prefix : forall (es : list ent) k, find_null (map Some es ++ repeat None k) = length es.
Proof.
  induction es as [|e r IH]; intros k; simpl; [destruct k; reflexivity|]. now rewrite IH.
Qed.

Lemma move_if_prefix : forall src (es : list ent) k ret',
  move_if src (length es) (map Some es ++ repeat None k) = Some ret' ->
  length (entities src) <= k /\
  ret' = map Some (es ++ entities src) ++ repeat None (k - length (entities src)).
Proof.
  induction src as [|o r IH]; intros es k ret' H; simpl in H.
  - injection H as <-. simpl. rewrite app_nil_r, Nat.sub_0_r. split; [lia|reflexivity].
  - destruct o as [e|]; cbn [is_null] in H.
    + rewrite app_length, map_length, repeat_length in H.
      destruct (Nat.ltb_spec (length es) (length es + k)) as [L|L]; [|discriminate].
      destruct k as [|k]; [lia|].
      assert (U : upd (map Some es ++ repeat (@None ent) (S k)) (length es) (Some e) =
                  map Some (es ++ [e]) ++ repeat None k).
      { cbn [repeat]. pose proof (upd_here (option ent) (map Some es) None (Some e) (repeat None k)) as X.
        rewrite map_length in X. rewrite X, map_app, <- app_assoc. reflexivity. }
      rewrite U in H. replace (S (length es)) with (length (es ++ [e])) in H by (rewrite app_length; simpl; lia).
      apply IH in H. destruct H as (A & B). cbn [entities flat_map]. fold (entities r).
      cbn [app length]. split; [lia|]. rewrite B, <- app_assoc. reflexivity.
    + apply IH in H. exact H.
Qed.

Lemma loop_collects : forall fuel ps i cur calls steps es k v ret st v',
  loop cell point ent inside lookup cells wsize fuel ps i cur calls steps (map Some es ++ repeat None k) v
    = Found ret st v' ->
  exists cs, (forall c, In c cs -> In c cells /\ contains cell point inside c ps) /\
    ret = map Some (es ++ answers lookup calls cs ps) /\
    length (es ++ answers lookup calls cs ps) = length es + k.
Proof.
  induction fuel as [|f IH]; intros ps i cur calls steps es k v ret st v' H; cbn [loop] in H.
  - destruct (Nat.eqb_spec (null_count (map Some es ++ repeat None k)) 0) as [E|E]; [|discriminate].
    rewrite null_count_app, null_count_some, null_count_repeat in E. simpl in E. subst k.
    injection H as <- _ _. exists []. simpl. rewrite !app_nil_r. split; [intros c []|]. split; [auto|lia].
  - destruct (Nat.eqb_spec (null_count (map Some es ++ repeat None k)) 0) as [E|E].
    { rewrite null_count_app, null_count_some, null_count_repeat in E. simpl in E. subst k.
      injection H as <- _ _. exists []. simpl. rewrite !app_nil_r. split; [intros c []|]. split; [auto|lia]. }
    destruct (nth_error cells i) as [c|] eqn:Ec; [|discriminate].
    destruct (covers_all cell point inside c ps) eqn:Cv.
    + rewrite find_null_prefix in H.
      destruct (move_if (lookup calls c ps) (length es) (map Some es ++ repeat None k)) as [ret1|] eqn:M; [|discriminate].
      apply move_if_prefix in M. destruct M as (L & ->).
      assert (G : exists cs, (forall c, In c cs -> In c cells /\ contains cell point inside c ps) /\
        ret = map Some ((es ++ entities (lookup calls c ps)) ++ answers lookup (S calls) cs ps) /\
        length ((es ++ entities (lookup calls c ps)) ++ answers lookup (S calls) cs ps) =
        length (es ++ entities (lookup calls c ps)) + (k - length (entities (lookup calls c ps)))).
      { destruct (Nat.eqb (S i) (length cells)).
        - destruct (Nat.ltb (S steps) wsize); [|discriminate]. eapply IH; exact H.
        - eapply IH; exact H. }
      destruct G as (cs & A & B & C). exists (c :: cs). split; [|split].
      * intros c' [<-|I]; [|auto]. split; [eapply nth_error_In; eauto|]. now apply covers_contains.
      * rewrite B. cbn [answers]. now rewrite <- app_assoc.
      * cbn [answers]. rewrite <- app_assoc in C. unfold entities in *. rewrite C.
        rewrite app_length. lia.
    + destruct (Nat.eqb (S i) (length cells)).
      * destruct (Nat.ltb (S steps) wsize); [|discriminate]. eapply IH; exact H.
      * eapply IH; exact H.
Qed.
End More.

(** Without any assumption on the per-grid searches: what is returned are the
    entities they found, cell after cell, with all missing answers left out.
    So the i-th result belongs to the i-th point only if no answer is missing. *)
Theorem C24_answers_are_collected_without_gaps :
  forall cell point ent inside lookup cells wsize st ps ret st' v,
  search cell point ent inside lookup cells wsize st ps = Found ret st' v ->
  exists cs, (forall c, In c cs -> In c cells /\ contains cell point inside c ps) /\
    ret = map Some (answers lookup (s_calls st) cs ps) /\ length ret = length ps.
Proof.
  intros cell point ent inside lookup cells wsize st ps ret st' v H. unfold search in H.
  apply (loop_collects cell point ent inside lookup cells wsize _ ps _ _ _ _ [] (length ps)) in H.
  destruct H as (cs & A & B & C). exists cs. split; auto. split; [exact B|].
  rewrite B, map_length. exact C.
Qed.
Print Assumptions C24_answers_are_collected_without_gaps.

(** Two cells answer for one point each. *)
Example C24_collected :
  let partial (n c : nat) (ps : list nat) :=
    match n with 0 => [None; Some (c, 2)] | _ => [Some (c, 2); None] end in
  answers partial 0 [0; 1] [2; 2] = [(0, 2); (1, 2)].
Proof. reflexivity. Qed.

(** The proxy reports a cell without correction, and a missing search. *)
Theorem C28_proxy_outcomes :
  forall cell index lfun (corrections : list (nat * lfun)) st,
  (local_function cell index lfun corrections st = NoCell <-> current_coarse cell st = None) /\
  (local_function cell index lfun corrections st = CellMissing <->
     exists c, current_coarse cell st = Some c /\ ~ In (index c) (map fst corrections)) /\
  local_function cell index lfun corrections fresh = NoCell.
Proof.
  intros cell index lfun corrections st. split; [|split; [|reflexivity]]; unfold local_function.
  - destruct (current_coarse cell st) as [c|]; [|tauto].
    destruct (assoc (index c) corrections); split; discriminate.
  - destruct (current_coarse cell st) as [c|].
    + destruct (assoc (index c) corrections) as [f|] eqn:A.
      * split; [discriminate|]. intros (c' & E & N). injection E as <-. elim N.
        apply assoc_In in A. apply in_map_iff. exists (index c, f). auto.
      * apply assoc_None in A. split; [|auto]. intros _. exists c. auto.
    + split; [discriminate|]. intros (c & E & _). discriminate.
Qed.
Print Assumptions C28_proxy_outcomes.
Example C28_missing :
  local_function nat (fun c => c) nat [(0, 5)] {| s_it := Some 1; s_cur := Some 1; s_calls := 3 |} = CellMissing /\
  local_function nat (fun c => c) nat [(0, 5)] fresh = NoCell.
Proof. split; reflexivity. Qed.
