(** C106: what a passing grid test means. *)
From Coq Require Import List Arith ZArith QArith Lia Lqa Bool.
From Verif Require Import Util GridModel GridSpec LocalGridModel LocalGridProofs SearchModel SearchSpec
  GtestModel GtestSpec GtestProofs.
Import ListNotations.
Open Scope Q_scope.

(** The check that the fine Lagrange points lie in the coarse grid passes for
    any two grids. *)
Theorem C106_lagrange_check_says_nothing eps coarse fine :
  0 <= eps -> coarse <> [] -> (forall b, In b fine -> solid b) ->
  check_fine_lp_in_coarse eps coarse fine = true.
Proof. apply vacuous. Qed.
Print Assumptions C106_lagrange_check_says_nothing.

(** The cells [0,1] and [5,6] have no point in common. *)
Example C106_disjoint_case :
  check_fine_lp_in_coarse 0 [[(0, 1)]] [[(5, 6)]] = true /\ check_inside 0 [[(0, 1)]] [[(5, 6)]] = false.
Proof. split; reflexivity. Qed.

(** The check of the corners: every corner lies in some coarse cell.  For two
    grids of the same box this holds for all numbers of cells. *)
Theorem C106_corner_check coarse fine d :
  (forall b, In b coarse -> solid b /\ length b = d) -> (forall b, In b fine -> length b = d) ->
  (check_inside 0 coarse fine = true <->
   forall b p, In b fine -> In p (corners b) -> exists c, In c coarse /\ lies_in p c).
Proof. apply check_inside_exact. Qed.
Print Assumptions C106_corner_check.

Theorem C106_corner_check_ignores_nesting eps ll ur ns ks :
  0 <= eps -> proper ll ur ns -> proper ll ur ks ->
  check_inside eps (structured ll ur ns) (structured ll ur ks) = true.
Proof. apply check_inside_always. Qed.
Print Assumptions C106_corner_check_ignores_nesting.

(** Match passes for 2 coarse and 3 fine cells on the unit interval, though no
    coarse cell contains the middle fine cell; the search notices. *)
Example C106_not_nested_case :
  proper [0] [1] [2%Z] /\ proper [0] [1] [3%Z] /\ ~ refines [0] [1] [2%Z] [3%Z] /\
  match_test 0 1 [2] [3 # 2] (structured [0] [1] [2%Z]) (structured [0] [1] [3%Z]) = true /\
  check_search nat (fun _ _ ps => map (fun _ => Some 0%nat) ps) 0 (structured [0] [1] [2%Z]) 2
    (structured [0] [1] [3%Z]) = false.
Proof.
  split; [repeat constructor; reflexivity|]. split; [repeat constructor; reflexivity|]. split; [|split; reflexivity].
  intros R. inversion R as [|x1 x2 x3 x4 l1 l2 l3 l4 D R']; subst.
  apply GridProofs.nested_iff in D; [|reflexivity|lia|lia]. destruct D as (q & E). lia.
Qed.

(** One process, whole numbers of cells: the match test passes exactly if the
    fine grid is finer in some direction. *)
Theorem C106_match_test c ns ms comm nproc stored layers gc comm' gf eps :
  0 <= eps -> whole c ns ms -> proper (c_ll c) (c_ur c) ns -> length ms = length ns ->
  (forall m, In m ms -> 1 <= m)%Z ->
  make_coarse_grid c comm nproc stored layers = Created gc -> make_fine_grid c comm' = Created gf ->
  (match_test eps (length ns) (c_coarse c) (c_micro c) (all_cells gc) (all_cells gf) = true <->
   exists m, In m ms /\ (2 <= m)%Z).
Proof.
  intros E W P L M G F. destruct (coarse_elements _ _ _ _ _ _ _ _ W G) as (E1 & E2 & E3).
  destruct (fine_elements _ _ _ _ _ W F) as (F1 & F2 & F3). destruct W as (W1 & W2).
  unfold all_cells. rewrite E1, E2, E3, F1, F2, F3. now apply match_test_spec.
Qed.
Print Assumptions C106_match_test.

(** The dimension check for any cells: both grids are not empty, reach equally
    far in every direction, every fine cell is smaller than every coarse cell
    and the numbers of cells are the configured ones. *)
Theorem C106_dimension_check c ns ms d coarse fine :
  whole c ns ms -> (forall n, In n ns -> 1 <= n)%Z -> (forall m, In m ms -> 1 <= m)%Z ->
  (check_dimensions d (c_coarse c) (c_micro c) coarse fine = true <->
   coarse <> [] /\ fine <> [] /\
   (forall i, (i < d)%nat -> exists lo hi, reaches i lo hi coarse /\ reaches i lo hi fine) /\
   (forall b k, In b fine -> In k coarse -> volume b < volume k) /\
   Z.of_nat (length coarse) = total ns /\ Z.of_nat (length fine) = (total ns * total ms)%Z).
Proof. intros (W1 & W2). now apply dimension_check. Qed.
Print Assumptions C106_dimension_check.

(** Two coarse cells; in the second case the fine cells end before the coarse ones. *)
Example C106_dimension_case :
  check_dimensions 1 [2] [2] [[(0, 1)]; [(1, 2)]] [[(0, 1 # 2)]; [(1 # 2, 1)]; [(1, 3 # 2)]; [(3 # 2, 2)]] = true /\
  check_dimensions 1 [2] [2] [[(0, 1)]; [(1, 2)]] [[(0, 1 # 2)]; [(1 # 2, 1)]; [(1, 3 # 2)]; [(3 # 2, 7 # 4)]] = false.
Proof. split; reflexivity. Qed.

(** The search test, one process, any numbers of cells: it passes exactly if
    every coarse node is a fine node and there are at least two coarse cells. *)
Theorem C106_search_test ent lookup eps ll ur ns ks :
  proper ll ur ns -> proper ll ur ks -> fine_tolerance eps ks ->
  reliable ent eps lookup (structured ll ur ns) ->
  (check_search ent lookup eps (structured ll ur ns) (length (structured ll ur ns)) (structured ll ur ks) = true <->
   (2 <= total ns)%Z /\ refines ll ur ns ks).
Proof. apply check_search_grids. Qed.
Print Assumptions C106_search_test.

(** Both tests on one process with grids from the configuration. *)
Theorem C106_whole_test c ns ms comm nproc stored layers gc comm' gf eps ent lookup entities :
  whole c ns ms -> proper (c_ll c) (c_ur c) ns -> length ms = length ns -> (forall m, In m ms -> 1 <= m)%Z ->
  make_coarse_grid c comm nproc stored layers = Created gc -> make_fine_grid c comm' = Created gf ->
  fine_tolerance eps (g_elements gf) -> reliable ent eps lookup (all_cells gc) ->
  (forall e, In e entities -> e_interior e = true) -> NoDup (map e_index entities) ->
  length entities = length (all_cells gc) ->
  (match_test eps (length ns) (c_coarse c) (c_micro c) (all_cells gc) (all_cells gf) = true /\
   lp_test ent lookup eps (all_cells gc) (all_cells gc) entities (length (all_cells gc)) (all_cells gf) = true <->
   (2 <= total ns)%Z /\ exists m, In m ms /\ (2 <= m)%Z).
Proof.
  intros W P L M G F T R EI ND LE.
  rewrite (C106_match_test c ns ms comm nproc stored layers gc comm' gf eps (proj1 T) W P L M G F).
  destruct (coarse_elements _ _ _ _ _ _ _ _ W G) as (E1 & E2 & E3).
  destruct (fine_elements _ _ _ _ _ W F) as (F1 & F2 & F3).
  unfold lp_test, check_local_grids. destruct (list_spec entities EI ND) as (l & -> & SZ & _).
  rewrite SZ, LE, Nat.eqb_refl, andb_true_r.
  destruct (cell_volume_finer _ _ _ P ms L M) as (Q & _).
  unfold all_cells in *. rewrite E1, E2, E3 in *. rewrite F1, F2, F3 in *.
  rewrite (vacuous eps) by (exact (proj1 T) || (now apply structured_nonempty) || (now apply structured_solid)).
  cbn [andb]. rewrite (check_search_grids ent lookup eps _ _ ns _ P Q T R).
  pose proof (multiples_refine _ _ _ P ms L M). tauto.
Qed.
Print Assumptions C106_whole_test.

(** A grid of 2 x 1 cells, refined by 1 x 2. *)
Definition gt_config : config :=
  {| c_ll := [0; 0]; c_ur := [1; 2]; c_layers := 0; c_coarse := [2; 1]; c_micro := [1; 2]; c_overlap := 1 |}.
Definition gt_lookup (_ : nat) (_ : box) (ps : list point) : list (option nat) := map (fun _ => Some 0%nat) ps.
Definition gt_entities : list entity :=
  [{| e_index := 0; e_interior := true; e_axes := [] |}; {| e_index := 1; e_interior := true; e_axes := [] |}].

Lemma gt_reliable eps cells : reliable nat eps gt_lookup cells.
Proof.
  split; [|intros n c ps; apply map_length]. intros n c ps _ _. exists (map (fun _ => 0%nat) ps).
  unfold gt_lookup. rewrite map_map, map_length. auto.
Qed.

Example C106_case : exists gc gf,
  whole gt_config [2%Z; 1%Z] [1%Z; 2%Z] /\ proper (c_ll gt_config) (c_ur gt_config) [2%Z; 1%Z] /\
  make_coarse_grid gt_config 0 1 2 0 = Created gc /\ make_fine_grid gt_config 0 = Created gf /\
  fine_tolerance (1 # 10) (g_elements gf) /\ reliable nat (1 # 10) gt_lookup (all_cells gc) /\
  match_test (1 # 10) 2 [2; 1] [1; 2] (all_cells gc) (all_cells gf) = true /\
  lp_test nat gt_lookup (1 # 10) (all_cells gc) (all_cells gc) gt_entities 2 (all_cells gf) = true.
Proof.
  do 2 eexists. split; [split; repeat constructor|]. split; [repeat constructor; reflexivity|].
  split; [vm_compute; reflexivity|]. split; [vm_compute; reflexivity|].
  split; [split; [discriminate|]; intros k [<-|[<-|[]]]; reflexivity|].
  split; [apply gt_reliable|]. split; vm_compute; reflexivity.
Qed.

(** With one coarse cell the search test fails although the grids are nested. *)
Example C106_one_cell_case :
  match_test 0 1 [1] [4] (structured [0] [1] [1%Z]) (structured [0] [1] [4%Z]) = true /\
  refines [0] [1] [1%Z] [4%Z] /\
  check_search nat gt_lookup 0 (structured [0] [1] [1%Z]) 1 (structured [0] [1] [4%Z]) = false.
Proof.
  split; [reflexivity|]. split; [|reflexivity]. constructor; [|constructor].
  apply GridProofs.nested_iff; [reflexivity|lia|lia|]. exists 4%Z. reflexivity.
Qed.

(** Several processes: whatever a process stores, the match test passes on it
    only if it stores the whole coarse and the whole fine grid, and the number
    of local grids agrees only if it stores no overlap cells. *)
Theorem C106_several_processes c ns ms eps d coarse fine entities stored :
  whole c ns ms ->
  (match_test eps d (c_coarse c) (c_micro c) coarse fine = true ->
   Z.of_nat (length coarse) = total ns /\ Z.of_nat (length fine) = (total ns * total ms)%Z) /\
  (check_local_grids entities stored = true -> length entities = stored).
Proof.
  intros (W1 & W2). split.
  - unfold match_test, check_dimensions. rewrite !andb_true_iff. intros H. decompose [and] H.
    match goal with H : Z.eqb (Z.of_nat (length coarse)) _ = true |- _ => apply Z.eqb_eq in H; rewrite H end.
    match goal with H : Z.eqb (Z.of_nat (length fine)) _ = true |- _ => apply Z.eqb_eq in H; rewrite H end.
    rewrite !(times_whole _ _ W1), (times_whole _ _ W2). split; ring.
  - unfold check_local_grids. destruct (make_list entities) as [l|] eqn:E; [|discriminate].
    intros H. apply Nat.eqb_eq in H. unfold make_list in E. apply build_length in E. unfold list_size in H.
    cbn [length] in E. lia.
Qed.
Print Assumptions C106_several_processes.

(** The left half of a grid of two coarse cells, refined by 2. *)
Example C106_half_case :
  match_test 0 1 [2] [2] [[(0, 1 # 2)]] [[(0, 1 # 4)]; [(1 # 4, 1 # 2)]] = false.
Proof. reflexivity. Qed.
