(** Theorems about grid creation: C32-C35, C67. *)
From Coq Require Import List Arith ZArith QArith Qround Lia Lqa Bool.
From Verif Require Import Util GridModel GridSpec GridProofs.
Import ListNotations.
Open Scope Z_scope.

Theorem C32_coarse_overlap_smallest : forall c o i,
  (forall m, In m (c_micro c) -> (0 < m)%Q) ->
  setup_overlap c = Some o -> (i < length (c_micro c))%nat ->
  smallest_cover (c_layers c) (nth i (c_micro c) 0%Q) (nth i o 0) /\ length o = length (c_micro c).
Proof. exact setup_overlap_nth. Qed.
Print Assumptions C32_coarse_overlap_smallest.

(** The computation is defined whenever the result fits an unsigned int. *)
Theorem C32_coarse_overlap_defined : forall c,
  (forall m, In m (c_micro c) -> (0 < m)%Q) -> 0 <= c_layers c ->
  (forall m, In m (c_micro c) -> (inject_Z (c_layers c) <= inject_Z (two32 - 1) * m)%Q) ->
  exists o, setup_overlap c = Some o.
Proof. exact setup_overlap_total. Qed.
Print Assumptions C32_coarse_overlap_defined.

Definition ex_config : config :=
  {| c_ll := [0; 0]%Q; c_ur := [1; 2]%Q; c_layers := 7; c_coarse := [4; 8]%Q;
     c_micro := [3; 5 # 2]%Q; c_overlap := 1 |}.

Example C32_case : setup_overlap ex_config = Some [3; 3].
Proof. reflexivity. Qed.

Theorem C33_whole_numbers_refine : forall c ns ms comm g n m i,
  whole c ns ms -> make_fine_grid c comm = Created g ->
  nth_error ns i = Some n -> nth_error ms i = Some m ->
  nth_error (g_elements g) i = Some (n * m) /\
  (forall a b, (a < b)%Q -> 0 < n -> 0 < m -> nested a b n (n * m)).
Proof.
  intros c ns ms comm g n m i (W1 & W2) H Hn Hm. split.
  - unfold make_fine_grid in H.
    destruct (setup_elements c) as [e0|]; [|discriminate].
    destruct (setup_overlap c) as [o|]; [|discriminate].
    destruct (all_some _) as [e|] eqn:E; [|discriminate].
    assert (GE : g_elements g = e).
    { unfold create_cube_grid in H. destruct (setup_fine_overlap c); [discriminate|].
      destruct (forallb _ _); [|discriminate]. injection H as <-. reflexivity. }
    rewrite GE. clear GE H g. revert e E ms W2 i Hn Hm. generalize (c_micro c) as ys.
    induction W1 as [|x z xs zs XZ W1 IH]; intros ys e E ms W2 i Hn Hm.
    + destruct i; discriminate.
    + destruct W2 as [|y w ys ws YW W2]; [destruct i; discriminate|].
      simpl in E. destruct (to_unsigned (x * y)) as [k|] eqn:U; [|discriminate].
      destruct (all_some _) as [r|] eqn:R in E; [|discriminate]. injection E as <-.
      destruct i as [|i]; simpl in Hn, Hm |- *.
      * injection Hn as <-. injection Hm as <-. f_equal.
        assert (Q : (x * y == inject_Z (z * w))%Q) by (rewrite inject_Z_mult, XZ, YW; reflexivity).
        rewrite (to_unsigned_comp _ _ Q) in U.
        unfold to_unsigned in U. rewrite Qfloor_Z, Qceiling_Z in U.
        destruct (Qle_bool 0 (inject_Z (z * w)));
          destruct ((0 <=? z * w) && (z * w <? two32)); congruence.
      * eapply IH; eauto.
  - intros a b AB N M. apply nested_iff; auto; [nia|]. exists m. ring.
Qed.
Print Assumptions C33_whole_numbers_refine.

(** In general the grids are nested exactly when the cell count divides. *)
(** The coarse grid has the configured numbers of cells, and both grids cover
    the configured box. *)
Theorem C33_coarse_grid_as_configured : forall c ns ms comm nproc stored layers g,
  whole c ns ms -> make_coarse_grid c comm nproc stored layers = Created g ->
  g_elements g = ns /\ g_ll g = c_ll c /\ g_ur g = c_ur c /\
  forall comm' g', make_fine_grid c comm' = Created g' -> g_ll g' = g_ll g /\ g_ur g' = g_ur g.
Proof.
  intros c ns ms comm nproc stored layers g (W1 & W2) H. unfold make_coarse_grid in H.
  destruct (setup_elements c) as [e|] eqn:E; [|discriminate].
  destruct (setup_overlap c) as [o|]; [|discriminate].
  destruct (create_cube_grid (c_ll c) (c_ur c) e o comm) as [g0| | |] eqn:G; try discriminate.
  destruct (_ && _); [discriminate|]. injection H as ->.
  unfold create_cube_grid in G. destruct o as [|o r]; [discriminate|].
  destruct (forallb _ _); [|discriminate]. injection G as <-. cbn [g_elements g_ll g_ur].
  split; [|split; [|split]]; auto.
  - unfold setup_elements in E. revert e E. clear W2.
    induction W1 as [|x z xs zs XZ W1 IH]; intros e E; simpl in E.
    + congruence.
    + destruct (to_unsigned x) as [k|] eqn:U; [|discriminate].
      destruct (all_some (map to_unsigned xs)) as [l|]; [|discriminate]. injection E as <-.
      rewrite (IH l eq_refl). f_equal. rewrite (to_unsigned_comp _ _ XZ) in U.
      unfold to_unsigned in U. rewrite Qfloor_Z, Qceiling_Z in U.
      destruct (Qle_bool 0 (inject_Z z)); destruct ((0 <=? z) && (z <? two32)); congruence.
  - intros comm' g' H'. unfold make_fine_grid in H'.
    destruct (setup_elements c) as [e0|]; [|discriminate].
    destruct (setup_overlap c) as [o'|]; [|discriminate].
    destruct (all_some _) as [e'|]; [|discriminate].
    unfold create_cube_grid in H'. destruct (setup_fine_overlap c); [discriminate|].
    destruct (forallb _ _); [|discriminate]. injection H' as <-. auto.
Qed.
Print Assumptions C33_coarse_grid_as_configured.

Theorem C33_nested_iff_divides : forall a b n k, (a < b)%Q -> 0 < n -> 0 < k ->
  (nested a b n k <-> exists q, k = q * n).
Proof. exact nested_iff. Qed.
Print Assumptions C33_nested_iff_divides.

Definition ex_whole : config :=
  {| c_ll := [0; 0]%Q; c_ur := [1; 2]%Q; c_layers := 2; c_coarse := [4; 8]%Q;
     c_micro := [3; 2]%Q; c_overlap := 1 |}.

Example C33_case : whole ex_whole [4; 8] [3; 2] /\
  (exists g, make_fine_grid ex_whole 0 = Created g /\ g_elements g = [12; 16]) /\
  exists g, make_coarse_grid ex_whole 0 1 32 0 = Created g /\ g_elements g = [4; 8].
Proof.
  split; [split; repeat constructor; reflexivity|].
  split; (eexists; split; [vm_compute; reflexivity|reflexivity]).
Qed.

(** Fractional refinement: 2 coarse cells, 3/2 fine cells per coarse cell. *)
Example C33_fractional_not_nested :
  let c := {| c_ll := [0]%Q; c_ur := [1]%Q; c_layers := 0; c_coarse := [2]%Q;
              c_micro := [3 # 2]%Q; c_overlap := 0 |} in
  (exists g g', make_coarse_grid c 0 1 2 0 = Created g /\ g_elements g = [2] /\
                make_fine_grid c 0 = Created g' /\ g_elements g' = [3]) /\
  ~ nested 0 1 2 3.
Proof.
  split.
  - do 2 eexists. repeat split; vm_compute; reflexivity.
  - intros H. apply nested_iff in H; [|reflexivity|lia|lia]. destruct H as (q & E). lia.
Qed.

Theorem C34_created_iff_uniform : forall ll ur e o comm,
  o <> [] ->
  (create_cube_grid ll ur e o comm =
     Created {| g_ll := ll; g_ur := ur; g_elements := e; g_overlap := nth 0 o 0; g_comm := comm |} <->
   forall i j, (i < length o)%nat -> (j < length o)%nat -> nth i o 0 = nth j o 0) /\
  (create_cube_grid ll ur e o comm = Nonuniform <->
   exists i j, (i < length o)%nat /\ (j < length o)%nat /\ nth i o 0 <> nth j o 0).
Proof. exact create_iff. Qed.
Print Assumptions C34_created_iff_uniform.

(** Consequence for the coarse grid: with different refinement per direction
    creation fails exactly when the covering numbers differ. *)
Theorem C34_coarse_grid_rejected_iff : forall c comm nproc stored layers e o,
  setup_elements c = Some e -> setup_overlap c = Some o -> o <> [] ->
  (forall m, In m (c_micro c) -> (0 < m)%Q) ->
  (make_coarse_grid c comm nproc stored layers = Nonuniform <->
   exists i j, (i < length (c_micro c))%nat /\ (j < length (c_micro c))%nat /\
     forall n, ~ (smallest_cover (c_layers c) (nth i (c_micro c) 0%Q) n /\
                  smallest_cover (c_layers c) (nth j (c_micro c) 0%Q) n)).
Proof.
  intros c comm nproc stored layers e o E O NE P. unfold make_coarse_grid. rewrite E, O.
  pose proof (create_iff (c_ll c) (c_ur c) e o comm NE) as (_ & I).
  assert (LO : length o = length (c_micro c)).
  { destruct (c_micro c) as [|m ms] eqn:M.
    - unfold setup_overlap in O. rewrite M in O. simpl in O. injection O as <-. auto.
    - rewrite <- M in *. apply (setup_overlap_nth c o 0 P O). rewrite M. simpl. lia. }
  transitivity (exists i j, (i < length o)%nat /\ (j < length o)%nat /\ nth i o 0 <> nth j o 0).
  - rewrite <- I. destruct (create_cube_grid _ _ _ _ _); try tauto.
    destruct (_ && _); split; discriminate.
  - rewrite LO. split; intros (i & j & Li & Lj & D); exists i, j; split; auto; split; auto.
    + intros n (A & B). apply D.
      destruct (setup_overlap_nth c o i P O Li) as (A' & _).
      destruct (setup_overlap_nth c o j P O Lj) as (B' & _).
      rewrite (smallest_cover_unique _ _ _ _ A' A), (smallest_cover_unique _ _ _ _ B' B). auto.
    + intros X. apply (D (nth i o 0)). split.
      * apply (setup_overlap_nth c o i P O Li).
      * rewrite X. apply (setup_overlap_nth c o j P O Lj).
Qed.
Print Assumptions C34_coarse_grid_rejected_iff.

Example C34_case :
  create_cube_grid [0; 0]%Q [1; 1]%Q [4; 4] [2; 2] 0 <> Nonuniform /\
  create_cube_grid [0; 0]%Q [1; 1]%Q [4; 4] [2; 3] 0 = Nonuniform /\
  (* 2 layers: one coarse cell of 2, two of 1 *)
  make_coarse_grid {| c_ll := [0; 0]%Q; c_ur := [1; 1]%Q; c_layers := 2; c_coarse := [4; 4]%Q;
     c_micro := [2; 1]%Q; c_overlap := 1 |} 0 1 16 1 = Nonuniform.
Proof. split; [discriminate|]. split; vm_compute; reflexivity. Qed.

Theorem C35_check_fires_iff : forall c comm nproc stored layers e,
  setup_elements c = Some e ->
  - two31 <= stored - layers < two31 ->
  (make_coarse_grid c comm nproc stored layers = RankFail <->
   (exists o, setup_overlap c = Some o /\ o <> [] /\
      forall i j, (i < length o)%nat -> (j < length o)%nat -> nth i o 0 = nth j o 0) /\
   (1 < nproc)%nat /\ (two32 | stored - layers - total e)).
Proof. exact coarse_rankfail. Qed.
Print Assumptions C35_check_fires_iff.

(** The same for both grids at once; the fine grid is made without the check. *)
Theorem C35_check_fires_for_both_grids_iff : forall c world comm nproc stored layers e,
  setup_elements c = Some e ->
  - two31 <= stored - layers < two31 ->
  snd (make_grids c world comm nproc stored layers) <> RankFail /\
  (fst (make_grids c world comm nproc stored layers) = RankFail <->
   (exists o, setup_overlap c = Some o /\ o <> [] /\
      forall i j, (i < length o)%nat -> (j < length o)%nat -> nth i o 0 = nth j o 0) /\
   (1 < nproc)%nat /\ (two32 | stored - layers - total e)).
Proof.
  intros c world comm nproc stored layers e E B. split; [|exact (coarse_rankfail c comm nproc stored layers e E B)].
  cbn [make_grids snd]. unfold make_fine_grid, create_cube_grid.
  repeat match goal with |- context [match ?x with _ => _ end] => destruct x end; discriminate.
Qed.
Print Assumptions C35_check_fires_for_both_grids_iff.

(** Small grids without overlap: fires exactly on a rank storing every cell. *)
Theorem C35_exact_without_overlap : forall c comm nproc stored e x r,
  setup_elements c = Some e -> setup_overlap c = Some (x :: r) ->
  Forall (eq x) r -> total e < two31 -> 0 <= stored <= total e ->
  (make_coarse_grid c comm nproc stored 0 = RankFail <-> (1 < nproc)%nat /\ stored = total e).
Proof.
  intros c comm nproc stored e x r E O U T S.
  rewrite (coarse_rankfail c comm nproc stored 0 e E) by (unfold two31 in *; lia).
  rewrite Z.sub_0_r. split.
  - intros (_ & P & (k & D)). split; auto. unfold two32, two31 in *. nia.
  - intros (P & ->). split; [|split; auto].
    + exists (x :: r). split; auto. split; [discriminate|].
      assert (A : forall i, (i < length (x :: r))%nat -> nth i (x :: r) 0 = x).
      { intros [|i] L; auto. simpl in *. rewrite Forall_forall in U. symmetry. apply U, nth_In. lia. }
      intros i j Li Lj. rewrite A, A; auto.
    + exists 0. ring.
Qed.
Print Assumptions C35_exact_without_overlap.

(** With an overlap the bad partition is not detected. *)
Theorem C35_missed_with_overlap : forall c comm nproc layers e,
  setup_elements c = Some e -> 0 <= total e < two31 -> 0 < layers < two31 ->
  make_coarse_grid c comm nproc (total e) layers <> RankFail.
Proof.
  intros c comm nproc layers e E T L H.
  apply (coarse_rankfail c comm nproc (total e) layers e E) in H; [|unfold two31 in *; lia].
  destruct H as (_ & _ & (k & D)). unfold two31, two32 in *. nia.
Qed.
Print Assumptions C35_missed_with_overlap.

Example C35_case :
  let c := {| c_ll := [0; 0]%Q; c_ur := [1; 1]%Q; c_layers := 0; c_coarse := [4; 4]%Q;
     c_micro := [2; 2]%Q; c_overlap := 1 |} in
  make_coarse_grid c 0 2 16 0 = RankFail /\ make_coarse_grid c 0 2 8 0 <> RankFail /\
  make_coarse_grid c 0 1 16 0 <> RankFail /\ make_coarse_grid c 0 2 16 1 <> RankFail.
Proof. repeat split; vm_compute; try reflexivity; discriminate. Qed.

(** Beyond 32 bits the check stops a rank with a small part of the cells. *)
Example C35_misfires_on_large_grids :
  let c := {| c_ll := [0; 0]%Q; c_ur := [1; 1]%Q; c_layers := 0; c_coarse := [65536; 65537]%Q;
     c_micro := [2; 2]%Q; c_overlap := 1 |} in
  make_coarse_grid c 0 2 65536 0 = RankFail /\ total [65536; 65537] = 65536 * 65537.
Proof. split; vm_compute; reflexivity. Qed.

(** The communicator handed to make_grids reaches the coarse grid only. *)
Theorem C67_fine_grid_uses_default_communicator : forall c world comm nproc stored layers g g',
  make_grids c world comm nproc stored layers = (Created g, Created g') ->
  g_comm g = comm /\ g_comm g' = world /\
  g_ll g = g_ll g' /\ g_ur g = g_ur g' /\
  0 <= g_overlap g' < 2 ^ 32 /\ (exists k, g_overlap g' = c_overlap c + k * 2 ^ 32).
Proof.
  intros c world comm nproc stored layers g g' H. unfold make_grids in H.
  injection H as H1 H2. unfold make_coarse_grid in H1. unfold make_fine_grid in H2.
  destruct (setup_elements c) as [e|]; [|discriminate].
  destruct (setup_overlap c) as [o|]; [|discriminate].
  destruct (all_some _) as [f|]; [|discriminate].
  unfold create_cube_grid in *.
  destruct o as [|x r]; [discriminate|]. destruct (forallb (Z.eqb x) r); [|discriminate].
  destruct (_ && _) in H1; [discriminate|].
  destruct (setup_fine_overlap c) as [|y s] eqn:F; [discriminate|].
  destruct (forallb (Z.eqb y) s); [|discriminate].
  injection H1 as <-. injection H2 as <-. cbn [g_comm g_ll g_ur g_overlap]. do 4 (split; [reflexivity|]).
  assert (Y : y = c_overlap c mod 2 ^ 32).
  { unfold setup_fine_overlap in F. destruct (c_coarse c); [discriminate|]. simpl in F. injection F as <- _. reflexivity. }
  subst y. split; [apply Z.mod_pos_bound; lia|]. exists (- (c_overlap c / 2 ^ 32)).
  pose proof (Z.div_mod (c_overlap c) (2 ^ 32)). lia.
Qed.
Print Assumptions C67_fine_grid_uses_default_communicator.

Example C67_case : exists g g',
  make_grids ex_whole 0 7 2 16 1 = (Created g, Created g') /\ g_comm g = 7%nat /\ g_comm g' = 0%nat.
Proof. do 2 eexists. split; [vm_compute; reflexivity|]. split; reflexivity. Qed.
