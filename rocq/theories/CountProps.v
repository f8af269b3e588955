(** Theorems about the loop over the coarse cells and the numbers it prints: C122. *)
From Coq Require Import List Arith ZArith QArith Bool Lia.
From Verif Require Import Util GridModel GridSpec GridProofs GridProps CountModel CountSpec CountProofs.
Import ListNotations.
Open Scope nat_scope.

(** Every own cell is handled once; both messages show the same number, which
    is right exactly if the overlap has as many cells as it has layers. *)
Theorem C122_when_the_number_is_right : forall simplex size o p,
  let r := solve_for_all_cells simplex size o p in
  length (handled r) = own_cells p /\ NoDup (map fst (handled r)) /\
  (forall cs, In cs (map fst (handled r)) <-> Forall2 (fun e i => lo e <= i < hi e) p cs) /\
  reported r = announced r /\
  (announced r = Z.of_nat (length (handled r)) <-> length (stored_cells o p) = length (handled r) + o).
Proof.
  intros simplex size o p r. unfold r. cbn [solve_for_all_cells handled reported announced].
  rewrite map_map, map_id, map_length, own_length. split; [reflexivity|]. split; [|split; [|split; [reflexivity|]]].
  - unfold interior_cells. apply product_nodup.
  - intros cs. unfold interior_cells. rewrite product_in. split; intros H.
    + apply Forall2_map_l in H. eapply Forall2_weaken; [|exact H]. cbn. intros. lia.
    + apply Forall2_map_l. eapply Forall2_weaken; [|exact H]. cbn. intros. lia.
  - unfold coarse_grid_size. lia.
Qed.
Print Assumptions C122_when_the_number_is_right.

(** The stored cells: at most [o] layers away from an own one. *)
Theorem C122_stored_cells : forall o p cs,
  In cs (stored_cells o p) <-> Forall2 (fun e i => lo e <= i + o /\ i < hi e + o /\ i < total e) p cs.
Proof.
  intros o p cs. unfold stored_cells. rewrite product_in, Forall2_map_l. revert cs. induction p as [|e p IH]; intros cs.
  - split; intros H; inversion H; constructor.
  - split; intros H; inversion H; subst; constructor; try (now apply IH); cbn [fst snd] in *; lia.
Qed.
Print Assumptions C122_stored_cells.

(** One process: too small by the number of layers; right without overlap only. *)
Theorem C122_one_process : forall simplex size o p, valid p -> whole p ->
  let r := solve_for_all_cells simplex size o p in
  (announced r = Z.of_nat (length (handled r)) - Z.of_nat o)%Z.
Proof.
  intros simplex size o p V W r. unfold r. cbn [solve_for_all_cells handled announced]. rewrite map_length, own_length.
  unfold coarse_grid_size. rewrite stored_length by auto. f_equal. f_equal. unfold own_cells. f_equal. apply map_ext_in. intros e I.
  unfold whole in W. rewrite Forall_forall in W. specialize (W e I). unfold extra. lia.
Qed.
Print Assumptions C122_one_process.

(** Several processes with overlap: too large if on one side there is a full
    overlap and the process is more than one cell wide in the other directions. *)
Theorem C122_several_processes : forall simplex size o p a e b, valid p -> 0 < o -> p = a ++ e :: b ->
  o <= lo e \/ o <= total e - hi e -> 2 <= own_cells (a ++ b) ->
  let r := solve_for_all_cells simplex size o p in
  (announced r > Z.of_nat (length (handled r)))%Z.
Proof.
  intros simplex size o p a e b V Po -> H L r. unfold r. cbn [solve_for_all_cells handled announced]. rewrite map_length, own_length.
  unfold coarse_grid_size. rewrite stored_length by auto. unfold own_cells in *. rewrite !map_app, !prod_app in *. cbn [map prod fold_right].
  fold (prod (map (fun e => hi e - lo e + extra o e) b)). fold (prod (map (fun e => hi e - lo e) b)).
  assert (A : prod (map (fun e => hi e - lo e) a) <= prod (map (fun e => hi e - lo e + extra o e) a)) by (apply prod_le; intros; lia).
  assert (B : prod (map (fun e => hi e - lo e) b) <= prod (map (fun e => hi e - lo e + extra o e) b)) by (apply prod_le; intros; lia).
  assert (E : o <= extra o e) by (unfold extra; lia).
  set (x := prod (map (fun e => hi e - lo e) a)) in *. set (y := prod (map (fun e => hi e - lo e) b)) in *.
  set (x' := prod (map (fun e => hi e - lo e + extra o e) a)) in *. set (y' := prod (map (fun e => hi e - lo e + extra o e) b)) in *.
  assert (x * y <= x' * y') by (apply Nat.mul_le_mono; auto).
  assert (x * ((hi e - lo e) * y) + 2 * o <= x' * ((hi e - lo e + extra o e) * y')) by nia.
  lia.
Qed.
Print Assumptions C122_several_processes.

(** The number of systems solved. *)
Theorem C122_number_of_systems : forall (simplex : bool) size o p, (if simplex then 1 else 2) <= size -> valid p ->
  let boundary := if simplex then 1 else 2 in
  systems (solve_for_all_cells simplex size o p) =
  own_cells p * (size - boundary) + (own_cells p - inner_cells p) * boundary.
Proof. intros. now apply systems_count. Qed.
Print Assumptions C122_number_of_systems.

(** The check in the creation of the coarse grid never fires on a process that
    does not own the whole grid, nor with overlap on one that does. *)
Theorem C122_partition_check_never_fires : forall c comm nproc o p, valid p -> (~ whole p \/ 0 < o) ->
  setup_elements c = Some (map (fun e => Z.of_nat (total e)) p) ->
  (Z.of_nat (all_cells p) < two31)%Z -> (Z.of_nat o < two31)%Z ->
  make_coarse_grid c comm nproc (Z.of_nat (length (stored_cells o p))) (Z.of_nat o) <> RankFail.
Proof.
  intros c comm nproc o p V H E T O F.
  pose proof (stored_le_all o p V) as L.
  apply (C35_check_fires_iff c comm nproc _ _ _ E) in F; [|unfold two31 in *; lia]. destruct F as (_ & _ & (k & D)).
  assert (Tt : GridSpec.total (map (fun e => Z.of_nat (total e)) p) = Z.of_nat (all_cells p)).
  { clear. unfold all_cells. induction p as [|e p IH]; [reflexivity|]. unfold GridSpec.total in *. cbn [map prod fold_right]. rewrite IH. unfold prod. lia. }
  rewrite Tt in D. assert (K : length (stored_cells o p) < all_cells p + o).
  { destruct (Nat.eq_dec o 0) as [->|N]; [|lia]. destruct H as [H|H]; [|lia].
    pose proof (own_lt_all p V H). enough (length (stored_cells 0 p) = own_cells p) by lia.
    rewrite stored_length by auto. unfold own_cells. f_equal. apply map_ext. intros e. unfold extra. lia. }
  unfold two31, two32 in *. nia.
Qed.
Print Assumptions C122_partition_check_never_fires.

(** Four by four cells, oversampling with one layer of coarse cells. *)
Definition square (a b c d : nat) : list extent := [{| total := 4; lo := a; hi := b |}; {| total := 4; lo := c; hi := d |}].
Example C122_case :
  let count := fun o p => let r := solve_for_all_cells false 6 o p in (announced r, length (handled r), systems r) in
  count 0 (square 0 4 0 4) = (16%Z, 16, 88) /\ count 1 (square 0 4 0 4) = (15%Z, 16, 88) /\
  count 1 (square 0 2 0 4) = (11%Z, 8, 44) /\ count 1 (square 0 2 0 2) = (8%Z, 4, 22) /\
  count 2 [{| total := 1; lo := 0; hi := 1 |}] = ((-1)%Z, 1, 6) /\
  (* on a line two processes get the right number *)
  count 1 [{| total := 4; lo := 0; hi := 2 |}] = (2%Z, 2, 10) /\
  valid (square 0 2 0 2) /\ ~ whole (square 0 2 0 2).
Proof.
  intros count. repeat match goal with |- _ /\ _ => split end; try reflexivity.
  - apply Forall_cons; [cbn; lia|]. apply Forall_cons; [cbn; lia|]. constructor.
  - intros W. inversion W as [|? ? (_ & H) _]; subst. discriminate.
Qed.
Example C122_check_case :
  let c := {| c_ll := [0; 0]%Q; c_ur := [1; 1]%Q; c_layers := 3; c_coarse := [4; 4]%Q; c_micro := [4; 4]%Q; c_overlap := 1 |} in
  make_coarse_grid c 0 4 (Z.of_nat (length (stored_cells 1 (square 0 2 0 2)))) 1 <> RankFail /\
  make_coarse_grid c 0 4 (Z.of_nat (length (stored_cells 1 (square 0 4 0 4)))) 1 <> RankFail /\
  make_coarse_grid c 0 4 (Z.of_nat (length (stored_cells 0 (square 0 4 0 4)))) 0 = RankFail.
Proof. split; [|split]; vm_compute; congruence. Qed.
