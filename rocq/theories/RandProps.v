(** Theorems about the random permeability field: C55-C61, C72, C73. *)
From Coq Require Import ZArith QArith Qround Qminmax List Arith Bool Lia Lqa.
From Verif Require Import Util RandModel RandSpec RandProofs.
Import ListNotations.
Open Scope nat_scope.

(** ** C55 *)
Theorem C55_partition_multiplies_up : forall dim n, 0 < dim -> 0 < n ->
  (partition dim n <> None <-> power_of_two n) /\
  forall pp, partition dim n = Some pp ->
    length pp = dim /\ product pp = n /\ (forall p, In p pp -> power_of_two p) /\
    (forall i j, i < dim -> j < dim -> i <= j -> nth j pp 0 <= nth i pp 0 <= 2 * nth j pp 0).
Proof. intros dim n D P. split; [now apply partition_spec|]. intros pp E. now apply (partition_some dim n pp). Qed.
Print Assumptions C55_partition_multiplies_up.
Example C55_cases :
  partition 2 1 = Some [1; 1] /\ partition 2 8 = Some [4; 2] /\ partition 3 16 = Some [4; 2; 2] /\
  partition 3 12 = None /\ partition 2 3 = None.
Proof. repeat split. Qed.

(** ** C56 *)
Theorem C56_positions_are_a_bijection : forall pp, (forall p, In p pp -> 0 < p) ->
  (forall i, i < product pp -> in_grid pp (grid_position i pp)) /\
  (forall i j, i < product pp -> j < product pp -> grid_position i pp = grid_position j pp -> i = j) /\
  (forall pos, in_grid pp pos -> exists i, i < product pp /\ grid_position i pp = pos).
Proof. exact grid_position_bijection. Qed.
Print Assumptions C56_positions_are_a_bijection.
Example C56_cases : map (fun i => grid_position i [2; 3]) (seq 0 6) =
  [[0; 0]; [1; 0]; [0; 1]; [1; 1]; [0; 2]; [1; 2]] /\ grid_position 7 [2; 2; 2] = [1; 1; 1].
Proof. split; reflexivity. Qed.

(** ** C57 *)
(** The range of a rank consists of the grid indices near its block. *)
Theorem C57_range_is_block_with_overlap : forall dim N nProc ov pp iProc rs d i,
  0 < dim -> power_of_two N -> partition dim nProc = Some pp -> (forall p, In p pp -> p <= N) ->
  iProc < nProc -> set_range dim N nProc iProc ov = Some rs -> d < dim ->
  (in_range (nth d rs (0, 0)) i <->
   near_block N (N / nth d pp 0) (nth d (grid_position iProc pp) 0) ov i).
Proof. intros. now apply (set_range_near dim N nProc ov pp). Qed.
Print Assumptions C57_range_is_block_with_overlap.

(** Every grid cell lies in the block of a rank and both its ends in the range of
    that rank. *)
Theorem C57_blocks_cover_the_grid : forall dim N nProc ov pp c,
  0 < dim -> power_of_two N -> partition dim nProc = Some pp -> (forall p, In p pp -> p <= N) ->
  (forall d, d < dim -> c d < N) ->
  exists iProc, iProc < nProc /\
    (forall d, d < dim -> N / nth d pp 0 * nth d (grid_position iProc pp) 0 <= c d <
                         N / nth d pp 0 * (nth d (grid_position iProc pp) 0 + 1)) /\
    forall rs, set_range dim N nProc iProc ov = Some rs ->
    forall d, d < dim -> in_range (nth d rs (0, 0)) (c d) /\ in_range (nth d rs (0, 0)) (c d + 1).
Proof. intros. now apply blocks_cover. Qed.
Print Assumptions C57_blocks_cover_the_grid.

(** Without overlap neighbouring ranges share exactly their common end point. *)
Theorem C57_ranges_without_overlap_meet_in_end_points : forall N proc pos pos' i,
  power_of_two N -> power_of_two proc -> proc <= N -> pos < pos' -> pos' < proc ->
  in_range (i_min N proc pos 0, i_max N proc pos 0) i ->
  in_range (i_min N proc pos' 0, i_max N proc pos' 0) i ->
  pos' = pos + 1 /\ i = N / proc * pos'.
Proof.
  intros N proc pos pos' i (a & ->) (b & ->) L P P' A B.
  destruct (pow_divides a b L) as (D & Z). now apply ranges_meet.
Qed.
Print Assumptions C57_ranges_without_overlap_meet_in_end_points.

(** More processes than segments in a direction: the upper end is in no range. *)
Theorem C57_too_many_processes_leave_a_gap : forall N proc ov, N < proc -> ov < N ->
  forall pos, pos < proc -> ~ in_range (i_min N proc pos ov, i_max N proc pos ov) N.
Proof. exact ranges_too_many. Qed.
Print Assumptions C57_too_many_processes_leave_a_gap.

(** Process numbers that are no powers of two are not diagnosed. *)
Theorem C57_other_process_numbers_are_undefined : forall dim N nProc iProc ov, 0 < nProc ->
  (set_range dim N nProc iProc ov = None <-> ~ power_of_two nProc).
Proof.
  intros dim N nProc iProc ov P. rewrite <- (partition_spec dim nProc P). unfold set_range.
  destruct (partition dim nProc); split; intros H; try congruence. exfalso. apply H. discriminate.
Qed.
Print Assumptions C57_other_process_numbers_are_undefined.

Example C57_cases :
  set_range 2 8 4 0 1 = Some [(0, 5); (0, 5)] /\ set_range 2 8 4 3 1 = Some [(3, 8); (3, 8)] /\
  set_range 2 8 8 5 0 = Some [(2, 4); (4, 8)] /\ set_range 2 8 3 0 1 = None /\
  set_range 3 4 1 0 1 = Some [(0, 4); (0, 4); (0, 4)] /\ i_max 2 4 3 1 = 1.
Proof. repeat split. Qed.

(** ** C58 *)
Theorem C58_redistribution_2d : forall N n0 nProc ws g r0 r1,
  layers2 N n0 nProc ws g -> proper N r0 -> proper N r1 ->
  exists perm, redistribute2 N n0 ws r0 r1 = Some perm /\ holds2 perm r0 r1 g.
Proof. exact redistribute2_spec. Qed.
Print Assumptions C58_redistribution_2d.
Theorem C58_redistribution_3d : forall N n0 nProc ws g r0 r1 r2,
  layers3 N n0 nProc ws g -> proper N r0 -> proper N r1 -> proper N r2 ->
  exists perm, redistribute3 N n0 ws r0 r1 r2 = Some perm /\ holds3 perm r0 r1 r2 g.
Proof. exact redistribute3_spec. Qed.
Print Assumptions C58_redistribution_3d.

(** The ranges computed for power-of-two process numbers are proper. *)
Theorem C58_ranges_are_proper : forall dim N nProc ov pp iProc rs d,
  0 < dim -> power_of_two N -> partition dim nProc = Some pp -> (forall p, In p pp -> p <= N) ->
  iProc < nProc -> set_range dim N nProc iProc ov = Some rs -> d < dim -> proper N (nth d rs (0, 0)).
Proof. intros. now apply (set_range_proper dim N nProc ov pp H H0 H1 H2 iProc). Qed.
Print Assumptions C58_ranges_are_proper.

(** Two ranks, [N = 2]: a field of 4 x 4 nodes numbered row by row. *)
Definition two_layers : list (list complex) :=
  map (fun r => map (fun k => (q (8 * r + k), 0%Q)) (seq 0 8)) [0; 1].
Example C58_case :
  layers2 2 2 2 two_layers (fun i j => (q (4 * i + j), 0%Q)) /\ proper 2 (1, 2) /\ proper 2 (0, 1) /\
  redistribute2 2 2 two_layers (1, 2) (0, 1) = Some [(q 4, 0%Q); (q 5, 0%Q); (q 8, 0%Q); (q 9, 0%Q)].
Proof.
  split; [|repeat split; simpl; lia].
  repeat split; try lia.
  - destruct r as [|[|[|r]]]; try discriminate; injection H as <-; simpl; lia.
  - intros i j I J. destruct r as [|[|[|r]]]; try discriminate; injection H as <-;
      (destruct i as [|[|i]]; [| |lia]); (destruct j as [|[|[|[|j]]]]; [| | | |lia]); reflexivity.
Qed.

(** ** C59: values. *)
Theorem C59_evaluation_interpolates_2d : forall N r0 r1 perm part minimal g x0 x1,
  fst r0 < snd r0 -> fst r1 < snd r1 -> holds2 perm r0 r1 g ->
  point_in N r0 x0 -> point_in N r1 x1 -> ~ leaves2 N r0 r1 x0 x1 ->
  exists i j s t v, cell_of (x0 * q N) i s /\ cell_of (x1 * q N) j t /\
    evaluate N [r0; r1] perm part minimal [x0; x1] = Value v /\
    (v == Qmax (bilinear (fun a b => part_of part (g a b)) i j s t) minimal)%Q.
Proof.
  intros N r0 r1 perm part minimal g x0 x1 R0 R1 H P0 P1 NL.
  destruct (evaluate2 N r0 r1 perm part minimal g x0 x1 R0 R1 H P0 P1)
    as (i & j & s & t & C0 & C1 & [(A & _)|(_ & v & E & V)]); [contradiction|].
  exists i, j, s, t, v. auto.
Qed.
Print Assumptions C59_evaluation_interpolates_2d.

Theorem C59_evaluation_interpolates_3d : forall N r0 r1 r2 perm part minimal g x0 x1 x2,
  fst r0 < snd r0 -> fst r1 < snd r1 -> fst r2 < snd r2 -> holds3 perm r0 r1 r2 g ->
  point_in N r0 x0 -> point_in N r1 x1 -> point_in N r2 x2 -> ~ leaves3 N r0 r1 r2 x0 x1 x2 ->
  exists i j k r s t v, cell_of (x0 * q N) i r /\ cell_of (x1 * q N) j s /\ cell_of (x2 * q N) k t /\
    evaluate N [r0; r1; r2] perm part minimal [x0; x1; x2] = Value v /\
    (v == Qmax (trilinear (fun a b c => part_of part (g a b c)) i j k r s t) minimal)%Q.
Proof.
  intros N r0 r1 r2 perm part minimal g x0 x1 x2 R0 R1 R2 H P0 P1 P2 NL.
  destruct (evaluate3 N r0 r1 r2 perm part minimal g x0 x1 x2 R0 R1 R2 H P0 P1 P2)
    as (i & j & k & r & s & t & C0 & C1 & C2 & [(A & _)|(_ & v & E & V)]); [contradiction|].
  exists i, j, k, r, s, t, v. auto.
Qed.
Print Assumptions C59_evaluation_interpolates_3d.

(** The interpolation reproduces grid values, is continuous across cells and
    stays between bounds of the corner values. *)
Theorem C59_interpolation_2d : forall g i j,
  (bilinear g i j 0 0 == g i j)%Q /\
  (forall t, bilinear g i j 1 t == bilinear g (S i) j 0 t)%Q /\
  (forall s, bilinear g i j s 1 == bilinear g i (S j) s 0)%Q /\
  forall lo hi s t, (forall a b, i <= a <= S i -> j <= b <= S j -> (lo <= g a b /\ g a b <= hi)%Q) ->
    (0 <= s /\ s <= 1 -> 0 <= t /\ t <= 1 -> lo <= bilinear g i j s t /\ bilinear g i j s t <= hi)%Q.
Proof.
  intros g i j. unfold bilinear.
  split; [unfold lin; ring|]. split; [intros; unfold lin; ring|]. split; [intros; unfold lin; ring|].
  intros lo hi s t B S T. apply lin_bounds; auto; apply lin_bounds; auto; apply B; lia.
Qed.
Print Assumptions C59_interpolation_2d.

Theorem C59_interpolation_3d : forall g i j k,
  (trilinear g i j k 0 0 0 == g i j k)%Q /\
  (forall s t, trilinear g i j k 1 s t == trilinear g (S i) j k 0 s t)%Q /\
  (forall r t, trilinear g i j k r 1 t == trilinear g i (S j) k r 0 t)%Q /\
  (forall r s, trilinear g i j k r s 1 == trilinear g i j (S k) r s 0)%Q /\
  forall lo hi r s t,
    (forall a b c, i <= a <= S i -> j <= b <= S j -> k <= c <= S k -> (lo <= g a b c /\ g a b c <= hi)%Q) ->
    (0 <= r /\ r <= 1 -> 0 <= s /\ s <= 1 -> 0 <= t /\ t <= 1 ->
     lo <= trilinear g i j k r s t /\ trilinear g i j k r s t <= hi)%Q.
Proof.
  intros g i j k. unfold trilinear, bilinear.
  split; [unfold lin; ring|]. split; [intros; unfold lin; ring|]. split; [intros; unfold lin; ring|].
  split; [intros; unfold lin; ring|].
  intros lo hi r s t B R S T. repeat (apply lin_bounds; auto); apply B; lia.
Qed.
Print Assumptions C59_interpolation_3d.

Theorem C59_never_below_the_minimum : forall N rs perm part minimal x v,
  evaluate N rs perm part minimal x = Value v -> (minimal <= v)%Q.
Proof.
  intros N rs perm part minimal x v E. unfold evaluate in E.
  repeat match type of E with
  | context [match ?a with _ => _ end] => destruct a; try discriminate
  end; injection E as <-; apply Q.le_max_r.
Qed.
Print Assumptions C59_never_below_the_minimum.

Theorem C59_outside_the_range_it_throws : forall N r0 r1 r2 perm part minimal x0 x1 x2,
  fst r0 <= snd r0 -> fst r1 <= snd r1 ->
  (~ (point_in N r0 x0 /\ point_in N r1 x1) ->
   evaluate N [r0; r1] perm part minimal [x0; x1] = RangeError) /\
  (~ (point_in N r0 x0 /\ point_in N r1 x1 /\ point_in N r2 x2) ->
   evaluate N [r0; r1; r2] perm part minimal [x0; x1; x2] = RangeError).
Proof. intros. split; intros; [now apply evaluate_out2|now apply evaluate_out3]. Qed.
Print Assumptions C59_outside_the_range_it_throws.

Example C59_case :
  exists v, evaluate 2 [(0, 2); (0, 2)] (map (fun k => (q k, 0%Q)) (seq 0 9)) 0 (1 # 100) [1 # 4; 1 # 4] = Value v /\ (v == 2)%Q.
Proof. eexists. split; reflexivity. Qed.
Example C59_holds : holds2 (map (fun k => (q k, 0%Q)) (seq 0 9)) (0, 2) (0, 2) (fun i j => (q (3 * i + j), 0%Q)).
Proof.
  split; [reflexivity|]. intros j0 j1 J0 J1. unfold size in *. cbn [fst snd Nat.sub Nat.add] in *.
  destruct j0 as [|[|[|j0]]]; [| | |lia]; (destruct j1 as [|[|[|j1]]]; [| | |lia]); reflexivity.
Qed.

(** ** C60: exactly the points described by [leaves2], [leaves3] read past the end. *)
Theorem C60_out_of_bounds_2d : forall N r0 r1 perm part minimal g x0 x1,
  fst r0 < snd r0 -> fst r1 < snd r1 -> holds2 perm r0 r1 g ->
  point_in N r0 x0 -> point_in N r1 x1 ->
  (evaluate N [r0; r1] perm part minimal [x0; x1] = OutOfBounds <-> leaves2 N r0 r1 x0 x1).
Proof.
  intros N r0 r1 perm part minimal g x0 x1 R0 R1 H P0 P1.
  destruct (evaluate2 N r0 r1 perm part minimal g x0 x1 R0 R1 H P0 P1)
    as (i & j & s & t & _ & _ & [(A & E)|(A & v & E & V)]); rewrite E; split; auto; try discriminate; contradiction.
Qed.
Print Assumptions C60_out_of_bounds_2d.
Theorem C60_out_of_bounds_3d : forall N r0 r1 r2 perm part minimal g x0 x1 x2,
  fst r0 < snd r0 -> fst r1 < snd r1 -> fst r2 < snd r2 -> holds3 perm r0 r1 r2 g ->
  point_in N r0 x0 -> point_in N r1 x1 -> point_in N r2 x2 ->
  (evaluate N [r0; r1; r2] perm part minimal [x0; x1; x2] = OutOfBounds <-> leaves3 N r0 r1 r2 x0 x1 x2).
Proof.
  intros N r0 r1 r2 perm part minimal g x0 x1 x2 R0 R1 R2 H P0 P1 P2.
  destruct (evaluate3 N r0 r1 r2 perm part minimal g x0 x1 x2 R0 R1 R2 H P0 P1 P2)
    as (i & j & k & r & s & t & _ & _ & _ & [(A & E)|(A & v & E & V)]); rewrite E; split; auto; try discriminate; contradiction.
Qed.
Print Assumptions C60_out_of_bounds_3d.

(** The right boundary of the unit square is such a set of points, for one
    process and every point on it. *)
Theorem C60_right_boundary_reads_past_the_end : forall N perm part minimal g ov rs x1,
  0 < N -> set_range 2 N 1 0 ov = Some rs -> holds2 perm (nth 0 rs (0, 0)) (nth 1 rs (0, 0)) g ->
  (0 <= x1 /\ x1 <= 1)%Q -> evaluate N rs perm part minimal [1%Q; x1] = OutOfBounds.
Proof.
  intros N perm part minimal g ov rs x1 PN E H (X0 & X1).
  assert (R : rs = [(0, N); (0, N)]).
  { destruct (set_range_some 2 N 1 0 ov [1; 1] eq_refl) as (rs' & E' & L & K). rewrite E in E'. injection E' as <-.
    assert (A : (i_min N 1 0 ov, i_max N 1 0 ov) = (0, N)).
    { unfold i_min, i_max. rewrite Nat.div_1_r. f_equal; lia. }
    destruct rs as [|a [|b [|? ?]]]; try discriminate.
    pose proof (K 0 ltac:(lia)) as K0. pose proof (K 1 ltac:(lia)) as K1. cbn [nth] in K0, K1.
    change (grid_position 0 [1; 1]) with [0; 0] in K0, K1. cbn [nth] in K0, K1. rewrite K0, K1, A. reflexivity. }
  subst rs. cbn [nth] in H.
  assert (QN : (0 < q N)%Q) by (unfold q; rewrite <- (Zlt_Qlt 0); lia).
  apply (C60_out_of_bounds_2d N (0, N) (0, N) perm part minimal g); auto.
  - split; cbn [fst snd]; change (q 0) with 0%Q; lra.
  - split; cbn [fst snd]; change (q 0) with 0%Q; nra.
  - left. cbn [snd]. lra.
Qed.
Print Assumptions C60_right_boundary_reads_past_the_end.

Example C60_case :
  evaluate 2 [(0, 2); (0, 2)] (map (fun k => (q k, 0%Q)) (seq 0 9)) 0 (1 # 100) [1%Q; 0%Q] = OutOfBounds /\
  evaluate 2 [(0, 2); (0, 2)] (map (fun k => (q k, 0%Q)) (seq 0 9)) 0 (1 # 100) [1 # 2; 1%Q] = OutOfBounds /\
  evaluate 2 [(0, 2); (0, 2)] (map (fun k => (q k, 0%Q)) (seq 0 9)) 0 (1 # 100) [1 # 4; 1%Q] <> OutOfBounds.
Proof. repeat split. discriminate. Qed.

(** ** C61: creation. *)
Theorem C61_create_alternates : forall n base normal transform distribute sz k,
  let f := calls n base normal transform distribute k (init sz) in
  (* number of computations and of random numbers: one computation per two calls *)
  computed f = (k + 1) / 2 /\ drawn f = 2 * n * ((k + 1) / 2) /\
  (* part in use: real after odd, imaginary after even numbers of calls *)
  part f = (k + 1) mod 2 /\
  (* the field in use is the one of the latest computation, made from its own random numbers *)
  (0 < k -> let first := 2 * n * ((k - 1) / 2) in
     perm f = distribute (transform (map (fun i =>
       ((normal (first + 2 * i)%nat * base i)%Q, (normal (first + 2 * i + 1)%nat * base i)%Q)) (seq 0 n)))).
Proof.
  intros n base normal transform distribute sz k f. unfold f.
  enough (X : let g := calls n base normal transform distribute k (init sz) in
    computed g = (k + 1) / 2 /\ drawn g = 2 * n * ((k + 1) / 2) /\ part g = (k + 1) mod 2 /\
    (0 < k -> perm g = distribute (transform (sample n base normal (2 * n * ((k - 1) / 2)))))) by exact X.
  cbv zeta.
  destruct (Nat.Even_or_Odd k) as [(m & ->)|(m & ->)].
  - rewrite calls_even. rewrite (Nat.add_comm (2 * m) 1), (Nat.mul_comm 2 m).
    rewrite Nat.div_add, Nat.mod_add by lia. change (1 / 2) with 0. change (1 mod 2) with 1. cbn [Nat.add].
    destruct m as [|m]; cbn [part drawn computed perm init].
    + repeat split; lia.
    + repeat split; auto. intros _. do 4 f_equal. replace (S m * 2 - 1) with (1 + m * 2) by lia.
      rewrite Nat.div_add by lia. reflexivity.
  - rewrite calls_odd. cbn [part drawn computed perm].
    replace (2 * m + 1 + 1) with (0 + (m + 1) * 2) by lia. rewrite Nat.div_add, Nat.mod_add by lia.
    change (0 / 2) with 0. change (0 mod 2) with 0. cbn [Nat.add]. repeat split; auto.
    intros _. do 4 f_equal. replace (2 * m + 1 - 1) with (0 + m * 2) by lia. rewrite Nat.div_add by lia. reflexivity.
Qed.
Print Assumptions C61_create_alternates.

(** Consecutive calls 2m+1 and 2m+2 use the same computed field, calls 2m+2 and
    2m+3 never do: their samples use disjoint random numbers. *)
Theorem C61_every_field_is_used_twice : forall n base normal transform distribute sz m,
  let f k := calls n base normal transform distribute k (init sz) in
  perm (f (2 * m + 2)) = perm (f (2 * m + 1)) /\ part (f (2 * m + 1)) = 0 /\ part (f (2 * m + 2)) = 1 /\
  drawn (f (2 * m + 2)) = drawn (f (2 * m + 1)) /\ drawn (f (2 * m + 3)) = drawn (f (2 * m + 2)) + 2 * n.
Proof.
  intros n base normal transform distribute sz m f. unfold f.
  replace (2 * m + 2) with (2 * (m + 1)) by lia. replace (2 * m + 3) with (2 * (m + 1) + 1) by lia.
  rewrite calls_even, !calls_odd. replace (m + 1) with (S m) by lia. cbn [part drawn computed perm]. repeat split; lia.
Qed.
Print Assumptions C61_every_field_is_used_twice.

(** Before the first call every evaluation inside the array gives the minimum. *)
Theorem C61_before_create_the_field_is_minimal : forall N rs minimal x v sz,
  (0 <= minimal)%Q ->
  evaluate N rs (perm (init sz)) (part (init sz)) minimal x = Value v -> (v == minimal)%Q.
Proof.
  intros N rs minimal x v sz M E. cbn [init perm part] in E.
  assert (Z : forall c u, perm_at (repeat (0, 0)%Q sz) 1 c = Some u -> u = 0%Q).
  { intros c u H. unfold perm_at in H. destruct (nth_error _ c) as [z|] eqn:EZ; [|discriminate H].
    apply nth_error_In in EZ. apply repeat_spec in EZ. subst z. injection H as <-. reflexivity. }
  unfold evaluate in E. destruct (locate N rs x 0) as [(cell, [|t0 [|t1 [|t2 [|? ?]]]])|]; try discriminate E.
  all: repeat match type of E with
    | context [match perm_at ?a ?b ?c with _ => _ end] =>
        let H := fresh "H" in destruct (perm_at a b c) eqn:H; [apply Z in H|discriminate E]
    end; subst; injection E as <-; apply Q.max_r; ring_simplify; exact M.
Qed.
Print Assumptions C61_before_create_the_field_is_minimal.

Example C61_case : forall base normal tr di,
  map (fun k => (part (calls 3 base normal tr di k (init 5)), computed (calls 3 base normal tr di k (init 5)),
                 drawn (calls 3 base normal tr di k (init 5)))) (seq 0 6) =
  [(1, 0, 0); (0, 1, 6); (1, 1, 6); (0, 2, 12); (1, 2, 12); (0, 3, 18)].
Proof. reflexivity. Qed.

(** ** C72: the field does not depend on the decomposition. *)
(** Two arrays holding the same global field on different ranges (from different
    ranks or different process numbers) give the same value at every point both
    can evaluate. *)
Theorem C72_value_does_not_depend_on_the_rank_2d :
  forall N g part minimal x0 x1 r0 r1 perm v r0' r1' perm' v',
  fst r0 < snd r0 -> fst r1 < snd r1 -> fst r0' < snd r0' -> fst r1' < snd r1' ->
  holds2 perm r0 r1 g -> holds2 perm' r0' r1' g ->
  evaluate N [r0; r1] perm part minimal [x0; x1] = Value v ->
  evaluate N [r0'; r1'] perm' part minimal [x0; x1] = Value v' -> (v == v')%Q.
Proof.
  intros N g part minimal x0 x1 r0 r1 perm v r0' r1' perm' v' R0 R1 R0' R1' H H' E E'.
  assert (PI : forall r, {point_in N r x0} + {~ point_in N r x0}).
  { intros r. destruct (Qlt_le_dec (x0 * q N) (q (fst r))) as [U|U]; [right; intros (A & B); lra|].
    destruct (Qlt_le_dec (q (snd r)) (x0 * q N)) as [W|W]; [right; intros (A & B); lra|left; split; auto]. }
  assert (PJ : forall r, {point_in N r x1} + {~ point_in N r x1}).
  { intros r. destruct (Qlt_le_dec (x1 * q N) (q (fst r))) as [U|U]; [right; intros (A & B); lra|].
    destruct (Qlt_le_dec (q (snd r)) (x1 * q N)) as [W|W]; [right; intros (A & B); lra|left; split; auto]. }
  assert (G : forall a b pm w, fst a < snd a -> fst b < snd b -> holds2 pm a b g ->
    evaluate N [a; b] pm part minimal [x0; x1] = Value w ->
    exists i j s t, cell_of (x0 * q N) i s /\ cell_of (x1 * q N) j t /\
      (w == Qmax (bilinear (fun c d => part_of part (g c d)) i j s t) minimal)%Q).
  { intros a b pm w A B HH EE.
    destruct (PI a) as [P0|P0]; [destruct (PJ b) as [P1|P1]|].
    - destruct (evaluate2 N a b pm part minimal g x0 x1 A B HH P0 P1)
        as (i & j & s & t & C0 & C1 & [(_ & X)|(_ & u & X & U)]); rewrite EE in X; [discriminate|].
      injection X as <-. exists i, j, s, t. auto.
    - rewrite evaluate_out2 in EE; [discriminate|lia|tauto].
    - rewrite evaluate_out2 in EE; [discriminate|lia|tauto]. }
  destruct (G _ _ _ _ R0 R1 H E) as (i & j & s & t & C0 & C1 & V).
  destruct (G _ _ _ _ R0' R1' H' E') as (i' & j' & s' & t' & C0' & C1' & V').
  destruct (cell_unique _ _ _ _ _ C0 C0') as (<- & S). destruct (cell_unique _ _ _ _ _ C1 C1') as (<- & T).
  rewrite V, V'. apply Qmax_compat. unfold bilinear, lin. rewrite S, T. reflexivity.
Qed.
Print Assumptions C72_value_does_not_depend_on_the_rank_2d.

(** From the layers to the value: for a power-of-two process number every point
    of the half open unit square is evaluated correctly by some rank. *)
Theorem C72_every_point_is_evaluated_by_some_rank_2d :
  forall N nProc n0 ov ws g pp part minimal x0 x1,
  power_of_two N -> partition 2 nProc = Some pp -> (forall p, In p pp -> p <= N) ->
  layers2 N n0 nProc ws g -> (0 <= x0 /\ x0 < 1)%Q -> (0 <= x1 /\ x1 < 1)%Q ->
  exists iProc r0 r1 perm i j s t v, iProc < nProc /\
    set_range 2 N nProc iProc ov = Some [r0; r1] /\ redistribute2 N n0 ws r0 r1 = Some perm /\
    cell_of (x0 * q N) i s /\ cell_of (x1 * q N) j t /\
    evaluate N [r0; r1] perm part minimal [x0; x1] = Value v /\
    (v == Qmax (bilinear (fun a b => part_of part (g a b)) i j s t) minimal)%Q.
Proof.
  intros N nProc n0 ov ws g pp part minimal x0 x1 PN EP LE LY X0 X1.
  assert (NP : 0 < N) by (destruct PN as (a & ->); apply pow_pos).
  assert (QN : (0 < q N)%Q) by (unfold q; rewrite <- (Zlt_Qlt 0); lia).
  assert (CELL : forall x, (0 <= x /\ x < 1)%Q -> exists i s, cell_of (x * q N) i s /\ i < N).
  { intros x (A & B). exists (Z.to_nat (Qfloor (x * q N))), (x * q N - inject_Z (Qfloor (x * q N)))%Q.
    assert (F1 := Qfloor_le (x * q N)). assert (F2 := Qlt_floor (x * q N)).
    assert (Z0 : (0 <= Qfloor (x * q N))%Z).
    { assert (H : (0 <= x * q N)%Q) by nra. apply Qfloor_resp_le in H. exact H. }
    split; [|].
    - unfold cell_of. unfold q at 2. rewrite Z2Nat.id by auto. rewrite inject_Z_plus in F2.
      change (inject_Z 1) with 1%Q in F2. repeat split; lra.
    - assert (H : (inject_Z (Qfloor (x * q N)) < q N)%Q) by nra. unfold q in H. rewrite <- Zlt_Qlt in H. unfold q. lia. }
  destruct (CELL x0 X0) as (i & s & C0 & I). destruct (CELL x1 X1) as (j & t & C1 & J).
  destruct (blocks_cover 2 N nProc ov pp ltac:(lia) PN EP LE (fun d => match d with 0 => i | _ => j end))
    as (iProc & IP & BL & CV).
  { intros d L. destruct d; auto. }
  destruct (set_range_some 2 N nProc iProc ov pp EP) as (rs & ER & LR & KR).
  destruct rs as [|r0 [|r1 [|? ?]]]; try discriminate.
  assert (PR0 : proper N r0) by (apply (set_range_proper 2 N nProc ov pp ltac:(lia) PN EP LE iProc _ 0 IP ER ltac:(lia))).
  assert (PR1 : proper N r1) by (apply (set_range_proper 2 N nProc ov pp ltac:(lia) PN EP LE iProc _ 1 IP ER ltac:(lia))).
  destruct (redistribute2_spec N n0 nProc ws g r0 r1 LY PR0 PR1) as (pm & RD & HO).
  destruct (CV _ ER 0 ltac:(lia)) as (A1 & A2). destruct (CV _ ER 1 ltac:(lia)) as (B1 & B2).
  cbn [nth] in A1, A2, B1, B2. unfold in_range in *.
  assert (IN : forall (r : range) (x : Q) (k : nat) (u : Q), cell_of (x * q N) k u -> fst r <= k <= snd r -> fst r <= k + 1 <= snd r -> point_in N r x).
  { intros r x k u (E & U0 & U1) (K1 & _) (_ & K2). apply q_le in K1. apply q_le in K2. rewrite q_add in K2.
    change (q 1) with 1%Q in K2. split; lra. }
  assert (P0 : point_in N r0 x0) by (apply (IN r0 x0 i s); auto).
  assert (P1 : point_in N r1 x1) by (apply (IN r1 x1 j t); auto).
  assert (BELOW : forall (r : range) (x : Q) (k : nat) (u : Q), cell_of (x * q N) k u -> k + 1 <= snd r -> ~ (x * q N == q (snd r))%Q).
  { intros r x k u (E & U0 & U1) K2 EQ. apply q_le in K2. rewrite q_add in K2. change (q 1) with 1%Q in K2. lra. }
  destruct (evaluate2 N r0 r1 pm part minimal g x0 x1) as (i' & j' & s' & t' & C0' & C1' & [(LV & _)|(_ & v & EV & V)]); auto;
    try (apply PR0); try (apply PR1).
  - exfalso. destruct LV as [Z|(_ & Z)].
    + apply (BELOW r0 x0 i s C0); auto. lia.
    + apply (BELOW r1 x1 j t C1); auto. lia.
  - exists iProc, r0, r1, pm, i', j', s', t', v. auto 10.
Qed.
Print Assumptions C72_every_point_is_evaluated_by_some_rank_2d.

(** The same in three dimensions. *)
Theorem C72_value_does_not_depend_on_the_rank_3d :
  forall N g part minimal x0 x1 x2 r0 r1 r2 perm v r0' r1' r2' perm' v',
  fst r0 < snd r0 -> fst r1 < snd r1 -> fst r2 < snd r2 ->
  fst r0' < snd r0' -> fst r1' < snd r1' -> fst r2' < snd r2' ->
  holds3 perm r0 r1 r2 g -> holds3 perm' r0' r1' r2' g ->
  evaluate N [r0; r1; r2] perm part minimal [x0; x1; x2] = Value v ->
  evaluate N [r0'; r1'; r2'] perm' part minimal [x0; x1; x2] = Value v' -> (v == v')%Q.
Proof.
  intros N g part minimal x0 x1 x2 r0 r1 r2 perm v r0' r1' r2' perm' v' R0 R1 R2 R0' R1' R2' H H' E E'.
  assert (PI : forall x r, {point_in N r x} + {~ point_in N r x}).
  { intros x r. destruct (Qlt_le_dec (x * q N) (q (fst r))) as [U|U]; [right; intros (A & B); lra|].
    destruct (Qlt_le_dec (q (snd r)) (x * q N)) as [W|W]; [right; intros (A & B); lra|left; split; auto]. }
  assert (G : forall a b c pm w, fst a < snd a -> fst b < snd b -> fst c < snd c -> holds3 pm a b c g ->
    evaluate N [a; b; c] pm part minimal [x0; x1; x2] = Value w ->
    exists i j k r s t, cell_of (x0 * q N) i r /\ cell_of (x1 * q N) j s /\ cell_of (x2 * q N) k t /\
      (w == Qmax (trilinear (fun a b c => part_of part (g a b c)) i j k r s t) minimal)%Q).
  { intros a b c pm w A B C HH EE.
    destruct (PI x0 a) as [P0|P0]; [destruct (PI x1 b) as [P1|P1]; [destruct (PI x2 c) as [P2|P2]|]|].
    - destruct (evaluate3 N a b c pm part minimal g x0 x1 x2 A B C HH P0 P1 P2)
        as (i & j & k & r & s & t & C0 & C1 & C2 & [(_ & X)|(_ & u & X & U)]); rewrite EE in X; [discriminate|].
      injection X as <-. exists i, j, k, r, s, t. auto.
    - rewrite evaluate_out3 in EE; [discriminate|lia|lia|tauto].
    - rewrite evaluate_out3 in EE; [discriminate|lia|lia|tauto].
    - rewrite evaluate_out3 in EE; [discriminate|lia|lia|tauto]. }
  destruct (G _ _ _ _ _ R0 R1 R2 H E) as (i & j & k & r & s & t & C0 & C1 & C2 & V).
  destruct (G _ _ _ _ _ R0' R1' R2' H' E') as (i' & j' & k' & r' & s' & t' & C0' & C1' & C2' & V').
  destruct (cell_unique _ _ _ _ _ C0 C0') as (<- & R). destruct (cell_unique _ _ _ _ _ C1 C1') as (<- & S).
  destruct (cell_unique _ _ _ _ _ C2 C2') as (<- & T).
  rewrite V, V'. apply Qmax_compat. unfold trilinear, bilinear, lin. rewrite R, S, T. reflexivity.
Qed.
Print Assumptions C72_value_does_not_depend_on_the_rank_3d.

Theorem C72_every_point_is_evaluated_by_some_rank_3d :
  forall N nProc n0 ov ws g pp part minimal x0 x1 x2,
  power_of_two N -> partition 3 nProc = Some pp -> (forall p, In p pp -> p <= N) ->
  layers3 N n0 nProc ws g -> (0 <= x0 /\ x0 < 1)%Q -> (0 <= x1 /\ x1 < 1)%Q -> (0 <= x2 /\ x2 < 1)%Q ->
  exists iProc r0 r1 r2 perm i j k r s t v, iProc < nProc /\
    set_range 3 N nProc iProc ov = Some [r0; r1; r2] /\ redistribute3 N n0 ws r0 r1 r2 = Some perm /\
    cell_of (x0 * q N) i r /\ cell_of (x1 * q N) j s /\ cell_of (x2 * q N) k t /\
    evaluate N [r0; r1; r2] perm part minimal [x0; x1; x2] = Value v /\
    (v == Qmax (trilinear (fun a b c => part_of part (g a b c)) i j k r s t) minimal)%Q.
Proof.
  intros N nProc n0 ov ws g pp part minimal x0 x1 x2 PN EP LE LY X0 X1 X2.
  assert (NP : 0 < N) by (destruct PN as (a & ->); apply pow_pos).
  assert (QN : (0 < q N)%Q) by (unfold q; rewrite <- (Zlt_Qlt 0); lia).
  assert (CELL : forall x, (0 <= x /\ x < 1)%Q -> exists i s, cell_of (x * q N) i s /\ i < N).
  { intros x (A & B). exists (Z.to_nat (Qfloor (x * q N))), (x * q N - inject_Z (Qfloor (x * q N)))%Q.
    assert (F1 := Qfloor_le (x * q N)). assert (F2 := Qlt_floor (x * q N)).
    assert (Z0 : (0 <= Qfloor (x * q N))%Z).
    { assert (H : (0 <= x * q N)%Q) by nra. apply Qfloor_resp_le in H. exact H. }
    split; [|].
    - unfold cell_of. unfold q at 2. rewrite Z2Nat.id by auto. rewrite inject_Z_plus in F2.
      change (inject_Z 1) with 1%Q in F2. repeat split; lra.
    - assert (H : (inject_Z (Qfloor (x * q N)) < q N)%Q) by nra. unfold q in H. rewrite <- Zlt_Qlt in H. unfold q. lia. }
  destruct (CELL x0 X0) as (i & r & C0 & I). destruct (CELL x1 X1) as (j & s & C1 & J).
  destruct (CELL x2 X2) as (k & t & C2 & K).
  destruct (blocks_cover 3 N nProc ov pp ltac:(lia) PN EP LE (fun d => match d with 0 => i | 1 => j | _ => k end))
    as (iProc & IP & BL & CV).
  { intros d L. destruct d as [|[|d]]; auto. }
  destruct (set_range_some 3 N nProc iProc ov pp EP) as (rs & ER & LR & KR).
  destruct rs as [|r0 [|r1 [|r2 [|? ?]]]]; try discriminate.
  assert (PR0 : proper N r0) by (apply (set_range_proper 3 N nProc ov pp ltac:(lia) PN EP LE iProc _ 0 IP ER ltac:(lia))).
  assert (PR1 : proper N r1) by (apply (set_range_proper 3 N nProc ov pp ltac:(lia) PN EP LE iProc _ 1 IP ER ltac:(lia))).
  assert (PR2 : proper N r2) by (apply (set_range_proper 3 N nProc ov pp ltac:(lia) PN EP LE iProc _ 2 IP ER ltac:(lia))).
  destruct (redistribute3_spec N n0 nProc ws g r0 r1 r2 LY PR0 PR1 PR2) as (pm & RD & HO).
  destruct (CV _ ER 0 ltac:(lia)) as (A1 & A2). destruct (CV _ ER 1 ltac:(lia)) as (B1 & B2).
  destruct (CV _ ER 2 ltac:(lia)) as (D1 & D2).
  cbn [nth] in A1, A2, B1, B2, D1, D2. unfold in_range in *.
  assert (IN : forall (a : range) (x : Q) (k : nat) (u : Q), cell_of (x * q N) k u -> fst a <= k <= snd a -> fst a <= k + 1 <= snd a -> point_in N a x).
  { intros a x m u (E & U0 & U1) (K1 & _) (_ & K2). apply q_le in K1. apply q_le in K2. rewrite q_add in K2.
    change (q 1) with 1%Q in K2. split; lra. }
  assert (P0 : point_in N r0 x0) by (apply (IN r0 x0 i r); auto).
  assert (P1 : point_in N r1 x1) by (apply (IN r1 x1 j s); auto).
  assert (P2 : point_in N r2 x2) by (apply (IN r2 x2 k t); auto).
  assert (BELOW : forall (a : range) (x : Q) (k : nat) (u : Q), cell_of (x * q N) k u -> k + 1 <= snd a -> ~ (x * q N == q (snd a))%Q).
  { intros a x m u (E & U0 & U1) K2 EQ. apply q_le in K2. rewrite q_add in K2. change (q 1) with 1%Q in K2. lra. }
  destruct (evaluate3 N r0 r1 r2 pm part minimal g x0 x1 x2)
    as (i' & j' & k' & r' & s' & t' & C0' & C1' & C2' & [(LV & _)|(_ & v & EV & V)]); auto;
    try (apply PR0); try (apply PR1); try (apply PR2).
  - exfalso. destruct LV as [Z|(_ & [Z|(_ & Z)])].
    + apply (BELOW r0 x0 i r C0); auto. lia.
    + apply (BELOW r1 x1 j s C1); auto. lia.
    + apply (BELOW r2 x2 k t C2); auto. lia.
  - exists iProc, r0, r1, r2, pm, i', j', k', r', s', t', v. auto 12.
Qed.
Print Assumptions C72_every_point_is_evaluated_by_some_rank_3d.

Example C72_case :
  power_of_two 2 /\ partition 2 2 = Some [2; 1] /\ layers2 2 2 2 two_layers (fun i j => (q (4 * i + j), 0%Q)) /\
  set_range 2 2 2 1 1 = Some [(0, 2); (0, 2)].
Proof. split; [now exists 1|]. split; [reflexivity|]. split; [apply C58_case|reflexivity]. Qed.

(** ** C73: data of the random problem. *)
(** The diffusion is a symmetric multiple of the identity, the flux is its
    application, and it is uniformly elliptic with the configured minimum. *)
Theorem C73_random_diffusion_is_elliptic : forall N rs perm part minimal x v dim xi,
  evaluate N rs perm part minimal x = Value v ->
  (forall i j, rand_tensor v i j = rand_tensor v j i) /\
  (forall i, i < dim ->
     (rand_flux v xi i == fold_right Qplus 0 (map (fun j => rand_tensor v i j * xi j) (seq 0 dim)))%Q) /\
  (fold_right Qplus 0 (map (fun i => minimal * (xi i * xi i)) (seq 0 dim)) <=
   fold_right Qplus 0 (map (fun i => rand_flux v xi i * xi i) (seq 0 dim)))%Q.
Proof.
  intros N rs perm part minimal x v dim xi E. apply C59_never_below_the_minimum in E. split; [|split].
  - intros i j. unfold rand_tensor. rewrite Nat.eqb_sym. destruct (Nat.eqb j i); reflexivity.
  - intros i L. unfold rand_flux, rand_tensor at 1. rewrite Nat.eqb_refl.
    assert (G : forall n a, (fold_right Qplus 0 (map (fun j => rand_tensor v i j * xi j) (seq a n)) ==
      if Nat.leb a i && Nat.ltb i (a + n) then v * xi i else 0)%Q).
    { induction n as [|n IH]; intros a.
      - cbn [seq map fold_right]. destruct (Nat.leb_spec a i); destruct (Nat.ltb_spec i (a + 0)); simpl; try reflexivity; lia.
      - cbn [seq map fold_right]. rewrite IH. unfold rand_tensor. destruct (Nat.eqb_spec i a) as [->|NE].
        + destruct (Nat.leb_spec (S a) a); [lia|]. destruct (Nat.leb_spec a a); [|lia].
          destruct (Nat.ltb_spec a (a + S n)); [|lia]. simpl. ring.
        + destruct (Nat.leb_spec (S a) i); destruct (Nat.leb_spec a i); destruct (Nat.ltb_spec i (S a + n));
            destruct (Nat.ltb_spec i (a + S n)); simpl; try lia; ring. }
    rewrite G. cbn [Nat.leb Nat.add]. destruct (Nat.ltb_spec i dim); [|lia]. simpl. reflexivity.
  - generalize (seq 0 dim) as l. induction l as [|i l IH]; cbn [map fold_right]; [lra|].
    assert (S : (0 <= xi i * xi i)%Q) by (destruct (Qlt_le_dec (xi i) 0); nra).
    assert (S2 : (minimal * (xi i * xi i) <= rand_flux v xi i * xi i)%Q).
    { unfold rand_flux, rand_tensor. rewrite Nat.eqb_refl. nra. }
    lra.
Qed.
Print Assumptions C73_random_diffusion_is_elliptic.

(** Boundary values: one on the left, zero on the right face, no flow. *)
Theorem C73_random_boundary_data : forall x,
  ((x 0%nat == 0)%Q -> (rand_dirichlet x == 1)%Q) /\ ((x 0%nat == 1)%Q -> (rand_dirichlet x == 0)%Q) /\
  ((0 <= x 0%nat /\ x 0%nat <= 1)%Q -> (0 <= rand_dirichlet x /\ rand_dirichlet x <= 1)%Q) /\
  rand_neumann x = 0%Q.
Proof. intros x. unfold rand_dirichlet, rand_neumann. repeat split; intros; lra. Qed.
Print Assumptions C73_random_boundary_data.

(** The field has as many segments as coarse cells exactly for powers of two,
    otherwise fewer, but more than half as many. *)
Theorem C73_segments : forall cells, 0 < cells ->
  segments cells <= cells < 2 * segments cells /\ power_of_two (segments cells) /\
  (segments cells = cells <-> power_of_two cells).
Proof.
  intros cells P. unfold segments. pose proof (Nat.log2_spec cells P) as (A & B).
  rewrite Nat.pow_succ_r' in B. split; auto. split; [eexists; reflexivity|]. split.
  - intros E. exists (Nat.log2 cells). auto.
  - intros (k & ->). now rewrite Nat.log2_pow2 by lia.
Qed.
Print Assumptions C73_segments.
Example C73_case : segments 8 = 8 /\ segments 12 = 8.
Proof. split; reflexivity. Qed.
