(** Theorems about the systems on several processes: C109. *)
From Coq Require Import Reals List Arith Bool Lra Lia.
From Verif Require Import Util RSum CoarseModel CoarseSpec CoarseProofs CoarseProps SystemModel SystemSpec SystemProofs SystemProps.
From Verif Require Import FemModel FemSpec FemProofs FemProps PatchSpec ParModel ParSpec ParProofs.
Import ListNotations.
Open Scope R_scope.

(** The coarse parts of the processes are to be added: read that way the
    distributed coarse system is the sequential one. *)
Theorem C109_coarse_parts_add_up : forall d P diffusion source neumann np N constrained g grid sol,
  (0 < np)%nat -> (forall x, In x grid -> (pl_owner _ x < np)%nat) ->
  (coarse_parallel d P diffusion source neumann (by_sum N np) np N constrained g grid sol <->
   coarse_solution d P diffusion source neumann N constrained g (all_cells _ grid) sol).
Proof. intros. now apply coarse_sum. Qed.
Print Assumptions C109_coarse_parts_add_up.

(** The reference rows are to be taken from the owners: read that way, and if
    the owner of a free row holds all elements touching it, the distributed
    reference system is the sequential one. *)
Theorem C109_reference_rows_are_complete : forall d P diffusion source neumann np N constrained g start grid sol owner,
  (forall a x, (a < N)%nat -> constrained a = false -> In x grid -> touches_fine (fst (pl_cell _ x)) a -> pl_held _ x (owner a) = true) ->
  (reference_parallel d P diffusion source neumann (by_rows N owner) np N constrained g start grid sol <->
   fem_solution d P diffusion source neumann N constrained g start (all_cells _ grid) sol).
Proof. intros. now apply reference_rows. Qed.
Print Assumptions C109_reference_rows_are_complete.

(** On a box grid one layer of overlap and owners touching their rows are
    enough for that. *)
Theorem C109_one_layer_of_overlap_suffices : forall d P diffusion source neumann np N constrained g start grid sol owner ns num place,
  overlapping ns num N grid place ->
  (forall a, (a < N)%nat -> exists x, In x grid /\ pl_owner _ x = owner a /\ touches_fine (fst (pl_cell _ x)) a) ->
  (reference_parallel d P diffusion source neumann (by_rows N owner) np N constrained g start grid sol <->
   fem_solution d P diffusion source neumann N constrained g start (all_cells _ grid) sol).
Proof.
  intros d P diffusion source neumann np N constrained g start grid sol owner ns num place (Nu & Pl & Ov) Ow.
  apply C109_reference_rows_are_complete. intros a y La _ Iy Ty.
  destruct (Ow a La) as (x & Ix & Ex & Tx). rewrite <- Ex. apply (Ov x y Ix Iy).
  destruct (Pl x Ix) as (Cx & Nx & Kx). destruct (Pl y Iy) as (Cy & Ny & Ky).
  destruct Tx as (i & Li & Ei). destruct Ty as (j & Lj & Ej). rewrite Nx in Li. rewrite Ny in Lj.
  rewrite (Kx i Li) in Ei. rewrite (Ky j Lj) in Ej.
  destruct Nu as (_ & Inj & _).
  assert (E : nth i (corners (place x)) [] = nth j (corners (place y)) []).
  { apply Inj; [apply (PatchProofs.corner_node ns (place x)); auto; now apply nth_In
               |apply (PatchProofs.corner_node ns (place y)); auto; now apply nth_In|congruence]. }
  apply (shared_near _ _ (nth i (corners (place x)) [])); [now apply nth_In|]. rewrite E. now apply nth_In.
Qed.
Print Assumptions C109_one_layer_of_overlap_suffices.

(** What the coarse system says if its rows are taken from the owners: the
    balance at an unknown holds over the cells of its owner only. *)
Theorem C109_owner_rows_balance_owned_cells : forall d P diffusion source neumann np N constrained g grid sol owner,
  (forall x, In x grid -> (pl_owner _ x < np)%nat) -> (forall a, (a < N)%nat -> (owner a < np)%nat) ->
  (forall c fs i, In (c, fs) (all_cells _ grid) -> (i < cc_n P c)%nat -> (cc_index P c i < N)%nat) ->
  (forall c fs, In (c, fs) (all_cells _ grid) -> (cc_slots P c = cc_n P c + 2)%nat) ->
  (coarse_parallel d P diffusion source neumann (by_rows N owner) np N constrained g grid sol <->
   forall a, (a < N)%nat -> if constrained a then sol a = g a else
     lsum (interior_cells _ (owner a) grid) (fun cf => rsum (cc_n P (fst cf)) (fun i => ind (Nat.eqb (cc_index P (fst cf) i) a) *
       lsum (covered P (fst cf)) (fun l => ms_energy d P diffusion sol (fst cf) l (used_grad P (fst cf) l i)))) =
     lsum (interior_cells _ (owner a) grid) (fun cf => rsum (cc_n P (fst cf)) (fun i => ind (Nat.eqb (cc_index P (fst cf) i) a) *
       (lsum (covered P (fst cf)) (fun l => load P source l (used_val P (fst cf) l i))
        + boundary_load P neumann (snd cf) (cc_val P (fst cf) i))))).
Proof. intros. now apply coarse_rows. Qed.
Print Assumptions C109_owner_rows_balance_owned_cells.

(** A process which owns all cells touching an unknown has its complete row. *)
Theorem C109_inner_rows_are_complete : forall d P diffusion source neumann grid M V r Mr Vr a,
  walk d P diffusion source neumann (fun _ _ => 0) (fun _ => 0) (all_cells _ grid) = Some (M, V) ->
  coarse_part d P diffusion source neumann r grid = Some (Mr, Vr) ->
  (forall x, In x grid -> touches (fst (pl_cell _ x)) a -> pl_owner _ x = r) ->
  (forall b, Mr a b = M a b) /\ Vr a = V a.
Proof.
  intros d P diffusion source neumann grid M V r Mr Vr a W E T.
  destruct (whole_val _ _ _ _ _ _ _ _ W) as (A & B). destruct (part_val _ _ _ _ _ _ _ _ _ E) as (A' & B').
  assert (F : forall x, In x grid -> Nat.eqb (pl_owner _ x) r = false -> ~ touches (fst (pl_cell _ x)) a).
  { intros x Ix N H. apply Nat.eqb_neq in N. apply N. now apply T. }
  split.
  - intros b. rewrite A, A'. unfold interior_cells.
    apply (part_sum _ _ grid (fun cf => cell_part d P diffusion (fst cf) a b)). intros x Ix N. apply cpart_none. auto.
  - rewrite B, B'. unfold interior_cells.
    apply (part_sum _ _ grid (fun cf => rhs_part d P diffusion source neumann cf a)). intros x Ix N. apply rpart_none. auto.
Qed.
Print Assumptions C109_inner_rows_are_complete.

(** A process which owns none of them has nothing in the row. *)
Theorem C109_rows_of_others_are_empty : forall d P diffusion source neumann grid r Mr Vr a,
  coarse_part d P diffusion source neumann r grid = Some (Mr, Vr) ->
  (forall x, In x grid -> touches (fst (pl_cell _ x)) a -> pl_owner _ x <> r) ->
  (forall b, Mr a b = 0) /\ Vr a = 0.
Proof.
  intros d P diffusion source neumann grid r Mr Vr a E T. destruct (part_val _ _ _ _ _ _ _ _ _ E) as (A & B).
  assert (F : forall cf, In cf (interior_cells _ r grid) -> ~ touches (fst cf) a).
  { intros cf I H. apply interior_in in I. destruct I as (x & Ix & O & <-). apply (T x Ix H O). }
  split; [intros b; rewrite A|rewrite B]; apply lsum_0; intros cf I; [apply cpart_none|apply rpart_none]; auto.
Qed.
Print Assumptions C109_rows_of_others_are_empty.

(** In between the row is incomplete: a cell of another process on which the
    corrected basis function has energy is missing from the diagonal. *)
Theorem C109_border_rows_lack_energy : forall d P diffusion source neumann grid M V r Mr Vr x i,
  (forall y, psd d (diffusion y)) ->
  (forall c fs, In (c, fs) (all_cells _ grid) -> weights_ok P c /\
     forall i j, (i < cc_n P c)%nat -> (j < cc_n P c)%nat -> cc_index P c i = cc_index P c j -> i = j) ->
  walk d P diffusion source neumann (fun _ _ => 0) (fun _ => 0) (all_cells _ grid) = Some (M, V) ->
  coarse_part d P diffusion source neumann r grid = Some (Mr, Vr) ->
  In x grid -> pl_owner _ x <> r -> (i < cc_n P (fst (pl_cell _ x)))%nat ->
  0 < own_energy d P diffusion (fst (pl_cell _ x)) i ->
  Mr (cc_index P (fst (pl_cell _ x)) i) (cc_index P (fst (pl_cell _ x)) i) <
  M (cc_index P (fst (pl_cell _ x)) i) (cc_index P (fst (pl_cell _ x)) i).
Proof.
  intros d P diffusion source neumann grid M V r Mr Vr x i S G W E Ix Nx Li Pos.
  destruct (whole_val _ _ _ _ _ _ _ _ W) as (A & _). destruct (part_val _ _ _ _ _ _ _ _ _ E) as (A' & _).
  set (a := cc_index P (fst (pl_cell _ x)) i). rewrite A, A'.
  assert (D : forall y, In y grid -> cell_part d P diffusion (fst (pl_cell _ y)) a a =
     rsum (cc_n P (fst (pl_cell _ y))) (fun i => hit P (fst (pl_cell _ y)) i a * own_energy d P diffusion (fst (pl_cell _ y)) i)).
  { intros y Iy. destruct (pl_cell _ y) as (c & fs) eqn:Ec. destruct (G c fs) as (Wc & Jc); [apply all_in; eauto|].
    cbn [fst]. now apply cpart_diag. }
  assert (NN : forall y j, In y grid -> 0 <= hit P (fst (pl_cell _ y)) j a * own_energy d P diffusion (fst (pl_cell _ y)) j).
  { intros y j Iy. destruct (pl_cell _ y) as (c & fs) eqn:Ec. destruct (G c fs) as (Wc & _); [apply all_in; eauto|].
    cbn [fst]. unfold hit, ind. pose proof (own_nonneg d P diffusion c j S Wc). destruct (Nat.eqb _ _); lra. }
  unfold interior_cells. apply (part_lt _ _ grid (fun cf => cell_part d P diffusion (fst cf) a a) x).
  - intros y Iy. rewrite D by auto. apply rsum_nonneg. intros j _. now apply NN.
  - exact Ix.
  - now apply Nat.eqb_neq.
  - rewrite D by auto. destruct (pl_cell _ x) as (c & fs) eqn:Ec. cbn [fst] in *.
    destruct (G c fs) as (Wc & Jc); [apply all_in; eauto|].
    rewrite (rsum_single _ i); auto.
    + unfold a, hit. rewrite Nat.eqb_refl. unfold ind. lra.
    + intros j Lj Nj. unfold hit, a. destruct (Nat.eqb_spec (cc_index P c j) (cc_index P c i)) as [Eq|_]; [|simpl; ring].
      exfalso. apply Nj. now apply Jc.
Qed.
Print Assumptions C109_border_rows_lack_energy.

(** If the reference parts are added instead, every element counts once for
    every process that holds it. *)
Theorem C109_added_reference_parts_repeat_the_overlap : forall d P diffusion source neumann np N constrained g start grid sol,
  (0 < np)%nat ->
  (reference_parallel d P diffusion source neumann (by_sum N np) np N constrained g start grid sol <->
   fem_solution d P diffusion source neumann N constrained g start
     (flat_map (fun r => held_cells _ r grid) (seq 0 np)) sol).
Proof. intros. now apply reference_sum. Qed.
Print Assumptions C109_added_reference_parts_repeat_the_overlap.

(** A line of cells of length one with diffusion one. *)
Definition unit_local : local_cell R :=
  {| lc_covered := true; lc_global := fun x => x; lc_factor := fun _ => 1; lc_grad := fun _ _ _ => 0;
     lc_val := fun _ _ => 0; lc_quad := [(1/2, 1)]; lc_rquad := [(1/2, 1)] |}.
Definition unit_coarse (s : nat) : coarse_cell R :=
  {| cc_n := 2; cc_grad := fun i _ _ => match i with O => -1 | _ => 1 end;
     cc_val := fun i x => match i with O => 1 - x | _ => x end;
     cc_index := fun i => (s + i)%nat; cc_slots := 4; cc_locals := [unit_local] |}.
Definition unit_fine (s : nat) : fcell R :=
  {| fc_n := 2; fc_grad := fun i _ _ => match i with O => -1 | _ => 1 end;
     fc_val := fun i x => match i with O => 1 - x | _ => x end;
     fc_index := fun i => (s + i)%nat; fc_global := fun x => x; fc_factor := fun _ => 1;
     fc_quad := [(1/2, 1)]; fc_rquad := [(1/2, 1)] |}.
Definition unit_diff : R -> nat -> nat -> R := fun _ _ _ => 1.

(** Two coarse cells on two processes, values 0 and 2 at the ends; the unknown
    in the middle belongs to process 0.  The solution has value 1 there; with
    the rows of the owners the value is 0. *)
Definition two_coarse : list (placed (coarse_cell R * list (cface R))) :=
  [{| pl_owner := 0; pl_held := fun _ => true; pl_cell := (unit_coarse 0, []) |};
   {| pl_owner := 1; pl_held := fun _ => true; pl_cell := (unit_coarse 1, []) |}].
Definition two_ends (i : nat) : bool := match i with S O => false | _ => true end.
Definition two_values (i : nat) : R := match i with 2%nat => 2 | _ => 0 end.
Definition two_right (i : nat) : R := match i with O => 0 | 1%nat => 1 | _ => 2 end.
Lemma two_index : forall c fs i, In (c, fs) (all_cells _ two_coarse) -> (i < cc_n R c)%nat -> (cc_index R c i < 3)%nat.
Proof. intros c fs i I Li. simpl in I. destruct I as [E|[E|[]]]; injection E as <- <-; simpl in *; lia. Qed.
Lemma two_slots : forall c fs, In (c, fs) (all_cells _ two_coarse) -> (cc_slots R c = cc_n R c + 2)%nat.
Proof. intros c fs I. simpl in I. destruct I as [E|[E|[]]]; injection E as <- <-; reflexivity. Qed.
Example C109_coarse_case :
  (forall x, In x two_coarse -> (pl_owner _ x < 2)%nat) /\
  coarse_parallel 1 R unit_diff (fun _ => 0) (fun _ => 0) (by_sum 3 2) 2 3 two_ends two_values two_coarse two_right /\
  coarse_parallel 1 R unit_diff (fun _ => 0) (fun _ => 0) (by_rows 3 (fun a => if Nat.eqb a 2 then 1 else 0)%nat) 2 3 two_ends two_values two_coarse two_values /\
  ~ coarse_solution 1 R unit_diff (fun _ => 0) (fun _ => 0) 3 two_ends two_values (all_cells _ two_coarse) two_values /\
  0 < own_energy 1 R unit_diff (unit_coarse 1) 0.
Proof.
  assert (O : forall x, In x two_coarse -> (pl_owner _ x < 2)%nat).
  { intros x I. simpl in I. destruct I as [<-|[<-|[]]]; simpl; lia. }
  split; auto. split; [|split; [|split]].
  - apply C109_coarse_parts_add_up; auto.
    apply C90_multiscale_solution_balances; [exact two_index|exact two_slots|]. split.
    + intros i Li C. do 3 (destruct i as [|i]; [try reflexivity; discriminate C|]). lia.
    + intros v Z. pose proof (Z 0%nat ltac:(lia) eq_refl) as Z0. pose proof (Z 2%nat ltac:(lia) eq_refl) as Z2.
      unfold all_cells, covered, ms_energy, boundary_grad, energy, rhs_energy, load, boundary_load, test_grad, test_val, test_coarse, used_grad, used_val, dot, mv, unit_diff, two_right.
      simpl. rewrite Z0, Z2.
      field.
  - apply C109_owner_rows_balance_owned_cells; auto.
    + intros a La. destruct (Nat.eqb a 2); lia.
    + exact two_index.
    + exact two_slots.
    + intros a La. destruct a as [|[|[|a]]]; [reflexivity| |reflexivity|lia]. cbn [two_ends].
      unfold interior_cells, covered, ms_energy, boundary_grad, energy, rhs_energy, load, boundary_load, test_grad, used_grad, used_val, dot, mv, unit_diff, two_values.
      simpl. field.
  - intros S. apply C90_multiscale_solution_balances in S; [|exact two_index|exact two_slots]. destruct S as (_ & B).
    specialize (B (fun i => match i with 1%nat => 1 | _ => 0 end)).
    assert (Z : forall i, (i < 3)%nat -> two_ends i = true -> match i with 1%nat => 1 | _ => 0 end = 0).
    { intros i Li C. do 2 (destruct i as [|i]; [try reflexivity; discriminate C|]). reflexivity. }
    specialize (B Z). clear Z.
    unfold all_cells, covered, ms_energy, boundary_grad, energy, rhs_energy, load, boundary_load, test_grad, test_val, test_coarse, used_grad, used_val, dot, mv, unit_diff, two_values in B.
    simpl in B. lra.
  - unfold own_energy, covered, energy, used_grad, dot, mv, unit_diff. simpl. lra.
Qed.

(** Three elements, the last on process 1, one element of overlap on each
    side, values 0 and 4 at the ends.  The rows of the owners give the
    solution with equal steps, the sum of the parts another one. *)
Definition three_fine : list (placed (fcell R * list (cface R))) :=
  [{| pl_owner := 0; pl_held := fun r => Nat.eqb r 0; pl_cell := (unit_fine 0, []) |};
   {| pl_owner := 0; pl_held := fun _ => true; pl_cell := (unit_fine 1, []) |};
   {| pl_owner := 1; pl_held := fun _ => true; pl_cell := (unit_fine 2, []) |}].
Definition three_ends (i : nat) : bool := match i with 1%nat | 2%nat => false | _ => true end.
Definition three_values (i : nat) : R := match i with 3%nat => 4 | _ => 0 end.
Definition three_right (i : nat) : R := match i with O => 0 | 1%nat => 4/3 | 2%nat => 8/3 | _ => 4 end.
Definition three_wrong (i : nat) : R := match i with O => 0 | 1%nat => 2 | 2%nat => 3 | _ => 4 end.
Definition three_owner (a : nat) : nat := match a with 3%nat => 1 | _ => 0 end.
Example C109_reference_case :
  overlapping [3%nat] (fun js => nth 0 js 0%nat) 4 three_fine (fun x => [fc_index R (fst (pl_cell _ x)) 0]) /\
  (forall a, (a < 4)%nat -> exists x, In x three_fine /\ pl_owner _ x = three_owner a /\ touches_fine (fst (pl_cell _ x)) a) /\
  reference_parallel 1 R unit_diff (fun _ => 0) (fun _ => 0) (by_rows 4 three_owner) 2 4 three_ends three_values (fun _ => 0) three_fine three_right /\
  reference_parallel 1 R unit_diff (fun _ => 0) (fun _ => 0) (by_sum 4 2) 2 4 three_ends three_values (fun _ => 0) three_fine three_wrong /\
  ~ fem_solution 1 R unit_diff (fun _ => 0) (fun _ => 0) 4 three_ends three_values (fun _ => 0) (all_cells _ three_fine) three_wrong.
Proof.
  assert (Ov : overlapping [3%nat] (fun js => nth 0 js 0%nat) 4 three_fine (fun x => [fc_index R (fst (pl_cell _ x)) 0])).
  { split; [|split].
    - split; [|split].
      + intros js H. inversion H as [|j n js' ns' L T]; subst. simpl. lia.
      + intros js js' H H'. inversion H as [|j n t ns' L T]; subst. inversion H' as [|j' n' t' ns'' L' T']; subst.
        inversion T; subst. inversion T'; subst. simpl. now intros ->.
      + intros i Li. exists [i]. split; [|reflexivity]. constructor; [lia|constructor].
    - intros x I. simpl in I. destruct I as [<-|[<-|[<-|[]]]]; (split; [simpl; tauto|split; [reflexivity|]]);
        intros i Li; simpl in Li; destruct i as [|[|i]]; try reflexivity; lia.
    - intros x y I J H. simpl in I, J.
      destruct I as [<-|[<-|[<-|[]]]]; destruct J as [<-|[<-|[<-|[]]]]; try reflexivity.
      inversion H as [|a b l l' (A & B) T]; subst. simpl in A, B. lia. }
  assert (Ow : forall a, (a < 4)%nat -> exists x, In x three_fine /\ pl_owner _ x = three_owner a /\ touches_fine (fst (pl_cell _ x)) a).
  { intros a La. destruct a as [|[|[|[|a]]]]; [| | | |lia].
    - eexists. split; [left; reflexivity|]. split; [reflexivity|]. exists 0%nat. simpl. lia.
    - eexists. split; [left; reflexivity|]. split; [reflexivity|]. exists 1%nat. simpl. lia.
    - eexists. split; [right; left; reflexivity|]. split; [reflexivity|]. exists 1%nat. simpl. lia.
    - eexists. split; [right; right; left; reflexivity|]. split; [reflexivity|]. exists 1%nat. simpl. lia. }
  assert (L1 : forall c fs i, In (c, fs) (all_cells _ three_fine) -> (i < fc_n R c)%nat -> (fc_index R c i < 4)%nat).
  { intros c fs i I Li. simpl in I. destruct I as [E|[E|[E|[]]]]; injection E as <- <-; simpl in *; lia. }
  split; auto. split; auto. split; [|split].
  - apply (C109_one_layer_of_overlap_suffices 1 R unit_diff _ _ 2 4 three_ends three_values _ three_fine three_right three_owner _ _ _ Ov Ow).
    apply C93_reference_solution_balances; auto. split.
    + intros i Li C. do 4 (destruct i as [|i]; [try reflexivity; discriminate C|]). lia.
    + intros v Z. pose proof (Z 0%nat ltac:(lia) eq_refl) as Z0. pose proof (Z 3%nat ltac:(lia) eq_refl) as Z3.
      unfold all_cells, fine_energy, fine_load, boundary_load, fine_grad, fine_val, dot, mv, unit_diff, three_right.
      simpl. rewrite Z0, Z3. field.
  - apply C109_added_reference_parts_repeat_the_overlap; [lia|].
    apply C93_reference_solution_balances.
    { intros c fs i I Li. apply (L1 c fs); auto. apply in_flat_map in I. destruct I as (r & _ & I).
      unfold held_cells in I. apply in_map_iff in I. destruct I as (x & E & I). apply filter_In in I. apply all_in. exists x. tauto. }
    split.
    + intros i Li C. do 4 (destruct i as [|i]; [try reflexivity; discriminate C|]). lia.
    + intros v Z. pose proof (Z 0%nat ltac:(lia) eq_refl) as Z0. pose proof (Z 3%nat ltac:(lia) eq_refl) as Z3.
      unfold held_cells, fine_energy, fine_load, boundary_load, fine_grad, fine_val, dot, mv, unit_diff, three_wrong.
      simpl. rewrite Z0, Z3. field.
  - intros S. apply C93_reference_solution_balances in S; auto. destruct S as (_ & B).
    specialize (B (fun i => match i with 1%nat => 1 | _ => 0 end)).
    assert (Z : forall i, (i < 4)%nat -> three_ends i = true -> match i with 1%nat => 1 | _ => 0 end = 0).
    { intros i Li C. do 2 (destruct i as [|i]; [try reflexivity; discriminate C|]). reflexivity. }
    specialize (B Z). clear Z.
    unfold all_cells, fine_energy, fine_load, boundary_load, fine_grad, fine_val, dot, mv, unit_diff, three_wrong in B.
    simpl in B. lra.
Qed.
