(** Theorems about floating point rounding in cell numbers and local grids:
    C125, C126. *)
From Coq Require Import ZArith QArith Qround Qabs List Arith Bool Lia Lqa.
From Verif Require Import Util GridModel SpeModel SpeSpec RandModel LocalGridModel LocalGridSpec
  RoundModel RoundSpec RoundProofs.
Import ListNotations.
Local Open Scope Q_scope.

(** ** C125 *)

(** The roundings considered contain the usual one of IEEE doubles; each result
    has a relative error of at most 2^-52. *)
Theorem C125_double_precision_is_covered : rounding binary64.
Proof. exact binary64_rounding. Qed.
Print Assumptions C125_double_precision_is_covered.

Theorem C125_relative_error : forall rnd x, rounding rnd -> Qabs (rnd x - x) <= two (-52) * Qabs x.
Proof. intros rnd x H. exact (rnd_near rnd H x). Qed.
Print Assumptions C125_relative_error.

(** 0.1 + 0.2 in doubles is not 0.3. *)
Example C125_case_rounding :
  binary64 (binary64 (1 # 10) + binary64 (2 # 10)) == (5404319552844596 # 18014398509481984) /\
  ~ binary64 (3 # 10) == (5404319552844596 # 18014398509481984) /\
  binary64 (- (3 # 4)) == - (3 # 4).
Proof. split; [reflexivity|]. split; [|reflexivity]. vm_compute. discriminate. Qed.

(** The overlap of the coarse grid is that of exact arithmetic for whole
    numbers of fine cells. *)
Theorem C125_overlap_is_exact : forall rnd c, rounding rnd -> (0 <= c_layers c < 2 ^ 52)%Z ->
  (forall m, In m (c_micro c) -> exists z, (1 <= z)%Z /\ m == inject_Z z) ->
  overlap_fl rnd c = setup_overlap c.
Proof. exact overlap_same. Qed.
Print Assumptions C125_overlap_is_exact.

Definition a_config (m : Q) (L : Z) : config :=
  {| c_ll := [0; 0]; c_ur := [1; 1]; c_layers := L; c_coarse := [4; 4]; c_micro := [m; 8]; c_overlap := 1 |}.
Example C125_case_overlap :
  overlap_fl binary64 (a_config 3 4) = Some [2; 1]%Z /\
  (forall m, In m (c_micro (a_config 3 4)) -> exists z, (1 <= z)%Z /\ m == inject_Z z).
Proof.
  split; [vm_compute; reflexivity|].
  intros m [<-|[<-|[]]]; [exists 3%Z|exists 8%Z]; split; lia || reflexivity.
Qed.

(** Not so for fractions: one layer of overlap is missing. *)
Theorem C125_overlap_of_fractions : exists m, representable m /\ 0 < m /\
  overlap_fl binary64 (a_config m 4) = Some [3; 1]%Z /\ setup_overlap (a_config m 4) = Some [4; 1]%Z.
Proof.
  exists (binary64 (4 # 3)). split; [apply binary64_rounding|].
  split; [reflexivity|]. split; vm_compute; reflexivity.
Qed.
Print Assumptions C125_overlap_of_fractions.

(** The partition of the processes is that of exact arithmetic. *)
Theorem C125_partition_is_exact : forall lg dim n, rounded_log2 lg -> (0 < n)%nat -> (Z.of_nat n < 2 ^ 46)%Z ->
  partition_fl lg dim n = RandModel.partition dim n.
Proof. exact partition_same. Qed.
Print Assumptions C125_partition_is_exact.

Example C125_case_partition : rounded_log2 some_log2 /\
  partition_fl some_log2 3 16 = Some [4; 2; 2]%nat /\ partition_fl some_log2 3 12 = None.
Proof.
  split; [exact some_log2_rounded|].
  split; (rewrite partition_same; [reflexivity|exact some_log2_rounded|lia|reflexivity]).
Qed.

(** SPE10: always a cell of the table, and one that contains a point very near
    to the given one. *)
Theorem C125_spe10_cell_is_near : forall rnd ne ll ur c, rounding rnd -> (0 < ne < 2 ^ 63)%Z ->
  ll < ur -> ll <= c -> c <= ur ->
  exists i c', which_partition_fl rnd ne ll ur c = Some i /\
    in_cell ne ll ur c' i /\ Qabs (c' - c) <= two (-49) * (c - ll).
Proof. exact which_near. Qed.
Print Assumptions C125_spe10_cell_is_near.

(** The right one except next to a face. *)
Theorem C125_spe10_cell_is_right : forall rnd ne ll ur c i, rounding rnd -> (0 < ne < 2 ^ 63)%Z ->
  ll < ur -> (0 <= i < ne)%Z ->
  ll + inject_Z i * ((ur - ll) / inject_Z ne) + two (-49) * (ur - ll) <= c ->
  c < ll + inject_Z (i + 1) * ((ur - ll) / inject_Z ne) - two (-49) * (ur - ll) ->
  which_partition_fl rnd ne ll ur c = Some i.
Proof. exact which_inside. Qed.
Print Assumptions C125_spe10_cell_is_right.

(** Next to a face it can be the neighbour: the double nearest to 0.3 lies in
    cell 8 of the 60 cells of [0, 2], cell 9 is found. *)
Theorem C125_spe10_neighbour_is_found : exists c, representable c /\ in_cell 60 0 2 c 8 /\
  which_partition_fl binary64 60 0 2 c = Some 9%Z.
Proof.
  exists (binary64 (3 # 10)). split; [apply binary64_rounding|]. split.
  - split; [lia|]. split; [vm_compute; discriminate|]. left. vm_compute. reflexivity.
  - vm_compute. reflexivity.
Qed.
Print Assumptions C125_spe10_neighbour_is_found.

Example C125_case_spe10 :
  which_partition_fl binary64 60 0 2 (1 # 2) = Some 15%Z /\
  which_partition_fl binary64 60 0 2 2 = Some 59%Z /\
  0 + inject_Z 15 * ((2 - 0) / inject_Z 60) + two (-49) * (2 - 0) <= 0.51 /\
  0.51 < 0 + inject_Z 16 * ((2 - 0) / inject_Z 60) - two (-49) * (2 - 0).
Proof.
  split; [vm_compute; reflexivity|]. split; [vm_compute; reflexivity|].
  split; vm_compute; [discriminate|reflexivity].
Qed.

(** Tarbert: the interval of a point very near to the given one. *)
Theorem C125_tarbert_interval_is_near : forall rnd x dd, rounding rnd -> 0 <= x dd ->
  exists x', interval_fl rnd x dd = interval x' dd /\ Qabs (x' dd - x dd) <= two (-49) * x dd.
Proof. exact interval_near. Qed.
Print Assumptions C125_tarbert_interval_is_near.

(** Inside the domain, also if its upper corner is rounded, the numbers are
    those of exact arithmetic for points of the domain. *)
Theorem C125_tarbert_interval_in_range : forall rnd x dd, rounding rnd -> (dd < 3)%nat -> 0 <= x dd ->
  x dd <= tar_box dd * (1 + two (-49)) -> (0 <= interval_fl rnd x dd <= tar_cells dd)%Z.
Proof. exact interval_range. Qed.
Print Assumptions C125_tarbert_interval_in_range.

Theorem C125_tarbert_neighbour_is_found : exists x, representable (x 2%nat) /\
  interval x 2 = 2%Z /\ interval_fl binary64 x 2 = 3%Z.
Proof.
  exists (fun _ => binary64 (18288 # 10000)). split; [apply binary64_rounding|]. split; vm_compute; reflexivity.
Qed.
Print Assumptions C125_tarbert_neighbour_is_found.

Example C125_case_tarbert :
  binary64 (SpeModel.tar_ur 0) <= tar_box 0 * (1 + two (-49)) /\
  interval_fl binary64 (fun _ => binary64 (SpeModel.tar_ur 0)) 0 = 60%Z /\
  interval_fl binary64 (fun _ => 100) 1 = 32%Z.
Proof. split; [vm_compute; discriminate|]. split; vm_compute; reflexivity. Qed.

(** Random field: nothing is rounded when a point is located. *)
Theorem C125_random_location_is_exact : forall rnd k N ranges x cell, rounding rnd ->
  Z.of_nat N = (2 ^ k)%Z -> (0 <= k)%Z ->
  Forall (fun r => (Z.of_nat (snd r) <= 2 ^ 53)%Z) ranges -> Forall representable x ->
  same_place (locate_fl rnd N ranges x cell) (locate N ranges x cell).
Proof. intros rnd k N ranges x cell Hr HN Hk. exact (locate_same rnd k N Hr HN Hk ranges x cell). Qed.
Print Assumptions C125_random_location_is_exact.

Example C125_case_random :
  same_place (locate_fl binary64 8 [(0, 4); (4, 8)]%nat [binary64 (3 # 10); 0.75] 0)
             (Some (12%nat, [binary64 (3 # 10) * 8 - 2; 0])) /\
  Forall representable [binary64 (3 # 10); 0.75].
Proof.
  split.
  - vm_compute. split; [reflexivity|]. repeat constructor.
  - constructor; [apply binary64_rounding|]. constructor; [|constructor].
    apply (representable_intro 3 (-2)); [discriminate|reflexivity].
Qed.

(** ** C126 *)

(** The corners of a local grid are right up to rounding. *)
Theorem C126_corners_are_near : forall rnd a b h n c m w, rounding rnd -> computed a b h n c m w ->
  Qabs (g_lo (local_axis_fl rnd a) - g_lo (local_axis b)) <= 12 * w * (a_gur a - a_gll a) /\
  Qabs (g_hi (local_axis_fl rnd a) - g_hi (local_axis b)) <= 12 * w * (a_gur a - a_gll a).
Proof. exact corners_near. Qed.
Print Assumptions C126_corners_are_near.

(** So is the number of cells unless the layers end on the boundary. *)
Theorem C126_number_of_cells : forall rnd a b h n c m w, rounding rnd -> computed a b h n c m w ->
  ~ touches (a_layers a) n c m ->
  g_n (local_axis_fl rnd a) = g_n (local_axis b).
Proof. exact number_same. Qed.
Print Assumptions C126_number_of_cells.

(** If they do, the layers of one or both sides can be missing. *)
Theorem C126_missing_layers : forall rnd a b h n c m w, rounding rnd -> computed a b h n c m w ->
  exists k, (0 <= k <= 2)%Z /\ g_n (local_axis_fl rnd a) = (g_n (local_axis b) - k * a_layers a)%Z.
Proof. exact number_range. Qed.
Print Assumptions C126_missing_layers.

(** Coordinates with few binary digits: everything is exact. *)
Theorem C126_binary_coordinates_are_exact : forall rnd a e x d m, rounding rnd ->
  a_min a == inject_Z x * two e -> a_max a == inject_Z (x + m * d) * two e -> a_micro a == inject_Z m ->
  (1 <= m)%Z -> (0 <= a_layers a)%Z -> (Z.abs x + (m + a_layers a) * Z.abs d <= 2 ^ 53)%Z ->
  same_grid (local_axis_fl rnd a) (local_axis a).
Proof. exact local_axis_exact. Qed.
Print Assumptions C126_binary_coordinates_are_exact.

(** Cell [c] of [n] cells of [0, 1], [m] fine cells each: as stored and exact. *)
Definition stored_axis (n c m L : Z) : axis :=
  {| a_gll := 0; a_gur := 1; a_min := binary64 (inject_Z c / inject_Z n);
     a_max := binary64 (inject_Z (c + 1) / inject_Z n); a_micro := inject_Z m; a_layers := L |}.
Definition exact_axis (n c m L : Z) : axis :=
  {| a_gll := 0; a_gur := 1; a_min := inject_Z c / inject_Z n;
     a_max := inject_Z (c + 1) / inject_Z n; a_micro := inject_Z m; a_layers := L |}.

Lemma stored_computed n c m L : (0 <= c < n)%Z -> (1 <= m)%Z -> (0 <= L)%Z -> (16 * (n * m) * (n * 2) <= 2 ^ 52)%Z ->
  computed (stored_axis n c m L) (exact_axis n c m L) (1 / inject_Z n) n c m (inject_Z (n * 2) * two (-52)).
Proof.
  intros Hc Hm HL HB. assert (Np : 0 < inject_Z n) by (apply (inj_lt 0); lia).
  assert (N1 : 1 <= inject_Z n) by (apply (inj_le 1); lia).
  assert (WE : inject_Z (n * 2) * two (-52) * (1 / inject_Z n) == 2 * ulp).
  { rewrite inj_mul. change (inject_Z 2) with 2. change (two (-52)) with ulp. field. lra. }
  assert (Near : forall k, (0 <= k <= n)%Z ->
    Qabs (binary64 (inject_Z k / inject_Z n) - inject_Z k / inject_Z n) <= 2 * ulp).
  { intros k Hk. eapply Qle_trans; [apply rnd_near, binary64_rounding|].
    assert (E : inject_Z k / inject_Z n * inject_Z n == inject_Z k) by (field; lra).
    assert (K0 : 0 <= inject_Z k / inject_Z n).
    { apply (le_cancel _ _ _ Np). rewrite E, Qmult_0_l. apply (inj_le 0). lia. }
    assert (K1 : inject_Z k / inject_Z n <= 1).
    { apply (le_cancel _ _ _ Np). rewrite E, Qmult_1_l. apply inj_le. lia. }
    rewrite Qabs_pos by exact K0.
    assert (ulp * (inject_Z k / inject_Z n) <= ulp * 1) by (apply Qmult_le_l; [apply ulp_small|exact K1]).
    destruct ulp_small. lra. }
  split; cbn [a_gll a_gur a_min a_max a_micro a_layers stored_axis exact_axis]; try reflexivity.
  - unfold structured. cbn [a_gll a_gur a_min a_max a_micro a_layers exact_axis].
    split; [|split; [exact Hc|split; [exact Hm|split; [exact HL|split; [|split; [|split]]]]]].
    + unfold Qdiv. rewrite Qmult_1_l. apply Qinv_lt_0_compat, Np.
    + field. lra.
    + rewrite inj_add. change (inject_Z 1) with 1. field. lra.
    + field. lra.
    + reflexivity.
  - split; [apply representable_0|apply (representable_Z 1); discriminate].
  - rewrite WE. apply Near. lia.
  - rewrite WE. apply Near. lia.
  - rewrite WE. discriminate.
  - assert (1 * two (-52) <= inject_Z (n * 2) * two (-52)); [|lra].
    apply Qmult_le_r; [reflexivity|]. apply (inj_le 1). lia.
  - apply inj_le in HB. rewrite !inj_mul in HB. change (inject_Z 16) with 16 in HB. change (inject_Z 2) with 2 in HB.
    rewrite !inj_mul. change (inject_Z 2) with 2.
    assert (16 * (inject_Z n * inject_Z m) * (inject_Z n * 2) * two (-52) <= inject_Z (2 ^ 52) * two (-52))
      by (apply Qmult_le_r; [reflexivity|exact HB]).
    assert (inject_Z (2 ^ 52) * two (-52) == 1) by reflexivity. lra.
Qed.

(** Layers that end on the boundary: in exact arithmetic they fit and the local
    cells are fine cells; in doubles eleven cells are missing and the local
    cells are half as wide again. *)
Theorem C126_touching_boundary_goes_wrong :
  let a := stored_axis 10 1 11 11 in let b := exact_axis 10 1 11 11 in
  computed a b (1 / 10) 10 1 11 (20 * two (-52)) /\ fits b 10 1 11 /\
  g_n (local_axis b) = 33%Z /\ width (local_axis b) == 1 # 110 /\
  g_n (local_axis_fl binary64 a) = 22%Z /\ (149 # 100) * (1 # 110) <= width (local_axis_fl binary64 a).
Proof.
  split; [apply (stored_computed 10 1 11 11); lia|].
  split; [split; right; cbn; lia|].
  split; [reflexivity|]. split; [reflexivity|]. split; [vm_compute; reflexivity|vm_compute; discriminate].
Qed.
Print Assumptions C126_touching_boundary_goes_wrong.

(** Two cells for the whole interval instead of six. *)
Example C126_case_last_cell :
  g_n (local_axis (exact_axis 3 2 2 4)) = 6%Z /\ g_n (local_axis_fl binary64 (stored_axis 3 2 2 4)) = 2%Z /\
  g_lo (local_axis_fl binary64 (stored_axis 3 2 2 4)) == 0 /\ g_hi (local_axis_fl binary64 (stored_axis 3 2 2 4)) == 1.
Proof. repeat split; vm_compute; reflexivity. Qed.

(** No layer touches, nothing is lost. *)
Example C126_case_right : computed (stored_axis 10 4 8 3) (exact_axis 10 4 8 3) (1 / 10) 10 4 8 (20 * two (-52)) /\
  ~ touches 3 10 4 8 /\ g_n (local_axis_fl binary64 (stored_axis 10 4 8 3)) = 14%Z.
Proof.
  split; [apply (stored_computed 10 4 8 3); lia|]. split; [unfold touches; lia|vm_compute; reflexivity].
Qed.
(** Powers of two: exact though the layers end on the boundary. *)
Example C126_case_binary :
  a_min (stored_axis 4 1 8 8) == inject_Z 8 * two (-5) /\
  a_max (stored_axis 4 1 8 8) == inject_Z (8 + 8 * 1) * two (-5) /\
  touches 8 4 1 8 /\ g_n (local_axis_fl binary64 (stored_axis 4 1 8 8)) = 24%Z.
Proof. split; [reflexivity|]. split; [reflexivity|]. split; [unfold touches; lia|vm_compute; reflexivity]. Qed.
