(** Properties C19-C23: local grids. *)
From Coq Require Import List Arith ZArith QArith Qround Lia Lqa Bool.
From Verif Require Import Util LocalGridModel LocalGridSpec LocalGridProofs.
Import ListNotations.

(** Cell [1,2] of [0,3] refined 4 times with 2 layers. *)
Definition ex_axis : axis :=
  {| a_gll := 0; a_gur := 3; a_min := 1; a_max := 2; a_micro := 4; a_layers := 2 |}.
(** The same cell refined twice with 3 layers: both sides are clipped. *)
Definition bad_axis : axis :=
  {| a_gll := 0; a_gur := 3; a_min := 1; a_max := 2; a_micro := 2; a_layers := 3 |}.

Lemma ex_structured : structured ex_axis 1 3 1 4.
Proof. repeat split; simpl; try lia; reflexivity. Qed.
Lemma ex_fits : fits ex_axis 3 1 4.
Proof. split; right; simpl; lia. Qed.
Lemma bad_structured : structured bad_axis 1 3 1 2.
Proof. repeat split; simpl; try lia; reflexivity. Qed.

(** C19. [d] is the fine cell size of the coarse cell. *)
Theorem C19_patch_contains_cell_and_stays_in_domain : forall a d,
  axis_ok a -> (d * a_micro a == a_max a - a_min a)%Q ->
  let g := local_axis a in
  let wanted_lo := (a_min a - inject_Z (a_layers a) * d)%Q in
  let wanted_hi := (a_max a + inject_Z (a_layers a) * d)%Q in
  (a_gll a <= g_lo g /\ g_lo g <= a_min a /\ a_max a <= g_hi g /\ g_hi g <= a_gur a)%Q /\
  (a_gll a <= wanted_lo -> g_lo g == wanted_lo)%Q /\
  (wanted_lo < a_gll a -> g_lo g == a_gll a)%Q /\
  (wanted_hi <= a_gur a -> g_hi g == wanted_hi)%Q /\
  (a_gur a < wanted_hi -> g_hi g == a_gur a)%Q.
Proof. exact patch_spec. Qed.
Print Assumptions C19_patch_contains_cell_and_stays_in_domain.

Example C19_case :
  axis_ok ex_axis /\ axis_ok bad_axis /\
  (g_lo (local_axis ex_axis) == 1 # 2)%Q /\ (g_hi (local_axis ex_axis) == 5 # 2)%Q /\
  (g_lo (local_axis bad_axis) == 0)%Q /\ (g_hi (local_axis bad_axis) == 3)%Q.
Proof. repeat split; simpl; try lia; try lra; reflexivity. Qed.

(** C20. The fine width is [h/m]. *)
Theorem C20_fine_width_exactly_when_layers_fit : forall a h n c m,
  structured a h n c m ->
  ((inject_Z m * width (local_axis a) == h)%Q <->
   (c = 0 \/ a_layers a <= c * m)%Z /\ (n - 1 - c = 0 \/ a_layers a <= (n - 1 - c) * m)%Z).
Proof. intros a h n c m ST. exact (proj1 (width_iff a h n c m ST)). Qed.
Print Assumptions C20_fine_width_exactly_when_layers_fit.

Theorem C20_otherwise_coarser : forall a h n c m,
  structured a h n c m ->
  ~ ((c = 0 \/ a_layers a <= c * m)%Z /\ (n - 1 - c = 0 \/ a_layers a <= (n - 1 - c) * m)%Z) ->
  (h < inject_Z m * width (local_axis a))%Q.
Proof. intros a h n c m ST. exact (proj1 (proj2 (width_iff a h n c m ST))). Qed.
Print Assumptions C20_otherwise_coarser.

Theorem C20_few_layers_always_fit : forall a h n c m,
  structured a h n c m -> (a_layers a <= m)%Z ->
  (inject_Z m * width (local_axis a) == h)%Q.
Proof.
  intros a h n c m ST H. apply (proj1 (width_iff a h n c m ST)).
  now apply (proj2 (proj2 (width_iff a h n c m ST))).
Qed.
Print Assumptions C20_few_layers_always_fit.

Example C20_case :
  structured ex_axis 1 3 1 4 /\ structured bad_axis 1 3 1 2 /\
  (width (local_axis ex_axis) == 1 # 4)%Q /\ (width (local_axis bad_axis) == 3 # 2)%Q.
Proof.
  split; [apply ex_structured|]. split; [apply bad_structured|]. split; reflexivity.
Qed.

(** C21, one direction. *)
Theorem C21_local_nodes_are_fine_nodes : forall a h n c m,
  structured a h n c m -> (inject_Z m * width (local_axis a) == h)%Q ->
  forall j, (0 <= j <= g_n (local_axis a))%Z ->
  exists k, (0 <= k <= n * m)%Z /\
    (inject_Z m * (node (local_axis a) j - a_gll a) == inject_Z k * h)%Q.
Proof.
  intros a h n c m ST W. apply (proj1 (tiles a h n c m ST (proj1 (proj1 (width_iff _ _ _ _ _ ST)) W))).
Qed.
Print Assumptions C21_local_nodes_are_fine_nodes.

Theorem C21_covered_cells_are_the_parts : forall a h n c m,
  structured a h n c m -> (inject_Z m * width (local_axis a) == h)%Q ->
  (forall j, covers_axis a j = true <-> exists i, (0 <= i < m)%Z /\ is_part a m j i) /\
  (forall i, (0 <= i < m)%Z -> exists j, (0 <= j < g_n (local_axis a))%Z /\ is_part a m j i /\
     forall j', is_part a m j' i -> j' = j) /\
  (forall j, covers_strict_axis a j = covers_axis a j).
Proof.
  intros a h n c m ST W. apply (proj1 (width_iff _ _ _ _ _ ST)) in W.
  destruct (tiles a h n c m ST W) as (_ & off & (O1 & O2) & C & S & P).
  split; [|split; auto].
  - intros j. rewrite C. split.
    + intros H. exists (j - off)%Z. split; [lia|]. apply P. lia.
    + intros (i & H & Q). apply P in Q. lia.
  - intros i H. exists (off + i)%Z. simpl. split; [lia|]. split; [apply P; lia|].
    intros j' Q. apply P in Q. exact Q.
Qed.
Print Assumptions C21_covered_cells_are_the_parts.

(** All directions at once. *)
Theorem C21_covered_boxes : forall axes js,
  Forall (fun a => exists h n c m, structured a h n c m /\
                   (inject_Z m * width (local_axis a) == h)%Q) axes ->
  length js = length axes ->
  (covers axes js = true <->
   Forall2 (fun a j => exists m i, (a_micro a == inject_Z m)%Q /\ (0 <= i < m)%Z /\
                                   is_part a m j i) axes js) /\
  covers_strict axes js = covers axes js.
Proof.
  intros axes js F. revert js.
  induction F as [|a axes (h & n & c & m & ST & W) F IH]; intros [|j js] E; try discriminate.
  - repeat split; auto.
  - injection E as E. destruct (IH js E) as (A & B).
    destruct (C21_covered_cells_are_the_parts a h n c m ST W) as (C & _ & S).
    unfold covers, covers_strict in *. simpl. rewrite S, B. split; auto.
    rewrite andb_true_iff, A, C. split.
    + intros ((i & H & P) & Q). constructor; auto. exists m, i. repeat split; try tauto.
      * apply ST.
      * apply P.
      * apply P.
    + intros Q. inversion Q as [|? ? ? ? (m' & i & M & H & P) Q']; subst. split; auto.
      assert (M' : (inject_Z m == inject_Z m')%Q).
      { rewrite <- M. symmetry. apply ST. }
      apply (proj1 (inject_Z_injective _ _)) in M'. subst m'. exists i. auto.
Qed.
Print Assumptions C21_covered_boxes.

Example C21_case :
  structured ex_axis 1 3 1 4 /\ (inject_Z 4 * width (local_axis ex_axis) == 1)%Q /\
  g_n (local_axis ex_axis) = 8%Z /\
  map (covers_axis ex_axis) [0; 1; 2; 3; 4; 5; 6; 7]%Z =
    [false; false; true; true; true; true; false; false] /\
  is_part ex_axis 4 3 1 /\
  covers [ex_axis; ex_axis] [2; 5]%Z = true /\ covers [ex_axis; ex_axis] [2; 6]%Z = false.
Proof. split; [apply ex_structured|]. repeat split; reflexivity. Qed.

(** C22. *)
Theorem C22_fine_width_recognises_some_cell : forall a h n c m,
  structured a h n c m -> (inject_Z m * width (local_axis a) == h)%Q ->
  exists j, (0 <= j < g_n (local_axis a))%Z /\ covers_axis a j = true.
Proof.
  intros a h n c m ST W.
  destruct (C21_covered_cells_are_the_parts a h n c m ST W) as (C & P & _).
  destruct (P 0%Z) as (j & H & Q & _).
  - destruct ST as (_ & _ & M & _). lia.
  - exists j. split; auto. apply C. exists 0%Z. split; auto.
    destruct ST as (_ & _ & M & _). lia.
Qed.
Print Assumptions C22_fine_width_recognises_some_cell.

(** Admissible input (C19, C20 hypotheses), non-empty local grid, but no local
    cell is recognised as part of the coarse cell. *)
Theorem C22_stretched_mesh_can_miss_the_cell :
  exists a h n c m, structured a h n c m /\ axis_ok a /\ (0 < g_n (local_axis a))%Z /\
    (forall j, (0 <= j < g_n (local_axis a))%Z -> covers_axis a j = false) /\
    forall js, length js = 2%nat ->
      Forall (fun j => 0 <= j < g_n (local_axis a))%Z js -> covers [a; a] js = false.
Proof.
  exists bad_axis, 1%Q, 3%Z, 1%Z, 2%Z.
  assert (K : forall j, (0 <= j < g_n (local_axis bad_axis))%Z -> covers_axis bad_axis j = false).
  { intros j H. change (g_n (local_axis bad_axis)) with 2%Z in H.
    assert (j = 0 \/ j = 1)%Z as [->| ->] by lia; reflexivity. }
  split; [apply bad_structured|]. split; [apply (structured_ok _ _ _ _ _ bad_structured)|].
  split; [reflexivity|]. split; [exact K|].
  intros [|j [|j' [|? ?]]] L F; try discriminate. inversion F; subst.
  unfold covers. simpl combine. cbn [forallb fst snd]. rewrite K; auto.
Qed.
Print Assumptions C22_stretched_mesh_can_miss_the_cell.

Example C22_case :
  structured ex_axis 1 3 1 4 /\ (inject_Z 4 * width (local_axis ex_axis) == 1)%Q /\ covers_axis ex_axis 2 = true /\
  structured bad_axis 1 3 1 2 /\ g_n (local_axis bad_axis) = 2%Z /\
  map (covers_axis bad_axis) [0; 1]%Z = [false; false].
Proof. split; [apply ex_structured|]. repeat split; try apply bad_structured; reflexivity. Qed.

(** C23. *)
Theorem C23_one_grid_per_interior_cell : forall es,
  (forall e, In e es -> e_interior e = true) -> NoDup (map e_index es) ->
  exists l, make_list es = Done l /\ list_size l = length es /\
    (forall e, In e es -> get_sub_grid l e = Done (map local_axis (e_axes e))) /\
    (forall i, ~ In i (map e_index es) -> get_by_index l i = AssertFails) /\
    (forall e, e_interior e = false -> get_sub_grid l e = AssertFails).
Proof. exact list_spec. Qed.
Print Assumptions C23_one_grid_per_interior_cell.

Definition ex_entities : list entity :=
  [ {| e_index := 5; e_interior := true; e_axes := [ex_axis; bad_axis] |};
    {| e_index := 2; e_interior := true; e_axes := [bad_axis; bad_axis] |} ].

Example C23_case :
  (forall e, In e ex_entities -> e_interior e = true) /\ NoDup (map e_index ex_entities) /\
  exists l, make_list ex_entities = Done l /\ list_size l = 2%nat /\
    get_by_index l 5 = Done [local_axis ex_axis; local_axis bad_axis] /\
    get_by_index l 3 = AssertFails.
Proof.
  split; [intros e [<-|[<-|[]]]; reflexivity|].
  split; [repeat constructor; simpl; intuition discriminate|].
  eexists. split; [reflexivity|]. repeat split; reflexivity.
Qed.

(** Anything else is refused: a cell that is not interior, or two cells with the
    same index. *)
Theorem C23_other_cells_are_refused : forall es,
  make_list es = AssertFails <->
  ~ ((forall e, In e es -> e_interior e = true) /\ NoDup (map e_index es)).
Proof.
  assert (G : forall es l, build es l = AssertFails \/
    (forall e, In e es -> e_interior e = true /\ ~ In (e_index e) (map fst l)) /\ NoDup (map e_index es)).
  { induction es as [|e r IH]; intros l.
    - right. split; [intros e []|constructor].
    - cbn [build]. destruct (e_interior e) eqn:Ei; [|now left].
      destruct (assoc (e_index e) l) eqn:A; [now left|].
      apply assoc_None in A.
      destruct (IH ((e_index e, map local_axis (e_axes e)) :: l)) as [H|(H & N)]; [now left|]. right. split.
      + intros e' [<-|X]; [auto|]. destruct (H e' X) as (X1 & X2). split; auto. intros Y. apply X2. now right.
      + simpl. constructor; auto. intros Y. apply in_map_iff in Y. destruct Y as (e' & E' & Y).
        destruct (H e' Y) as (_ & X2). apply X2. left. simpl. auto. }
  intros es. split.
  - intros H (A & B). destruct (list_spec es A B) as (l & L & _). congruence.
  - intros H. unfold make_list. destruct (G es []) as [X|(X & N)]; auto. elim H. split; auto.
    intros e I. now destruct (X e I).
Qed.
Print Assumptions C23_other_cells_are_refused.
Example C23_refused :
  make_list [ {| e_index := 5; e_interior := true; e_axes := [] |}; {| e_index := 1; e_interior := false; e_axes := [] |} ] = AssertFails /\
  make_list [ {| e_index := 5; e_interior := true; e_axes := [] |}; {| e_index := 5; e_interior := true; e_axes := [ex_axis] |} ] = AssertFails.
Proof. split; reflexivity. Qed.
