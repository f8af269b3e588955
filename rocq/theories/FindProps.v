(** Theorems about finding the coarse cell of a fine cell and the covered local
    cells with rounding: C130. *)
From Coq Require Import ZArith QArith Qround Qabs List Arith Bool Lia Lqa.
From Verif Require Import Util LocalGridModel LocalGridSpec RoundModel RoundSpec RoundProofs RoundProps
  SearchModel SearchSpec SearchProps FindModel FindSpec FindProofs.
Import ListNotations.
Local Open Scope Q_scope.

Theorem C130_double_precision_scales : scaling binary64.
Proof. exact binary64_scaling. Qed.
Print Assumptions C130_double_precision_scales.

(** ** Covered local cells *)
(** Rounding does not change which local cells count as covered, unless the
    layers end on the boundary. *)
Theorem C130_covered_cells : forall rnd a b h n c m w j, rounding rnd -> computed a b h n c m w ->
  fits b n c m -> ~ touches (a_layers a) n c m -> 1024 * inject_Z (n * m) * w <= 1 ->
  (0 <= j < g_n (local_axis b))%Z -> covers_axis_fl rnd a j = covers_axis b j.
Proof. intros rnd a b h n c m w j Hr Hc Hf Ht Hs. exact (covers_same rnd a b h n c m w Hr Hc Hf Ht Hs j). Qed.
Print Assumptions C130_covered_cells.

Example C130_case_covered :
  computed (stored_axis 10 4 8 3) (exact_axis 10 4 8 3) (1 / 10) 10 4 8 (20 * two (-52)) /\
  fits (exact_axis 10 4 8 3) 10 4 8 /\ ~ touches 3 10 4 8 /\ 1024 * inject_Z (10 * 8) * (20 * two (-52)) <= 1 /\
  map (covers_axis_fl binary64 (stored_axis 10 4 8 3)) [0; 1; 2; 3; 10; 11; 13]%Z =
    [false; false; false; true; true; false; false].
Proof.
  split; [apply (stored_computed 10 4 8 3); lia|]. split; [split; right; cbn; lia|].
  split; [unfold touches; lia|]. split; [vm_compute; discriminate|vm_compute; reflexivity].
Qed.

(** If they do: eight local cells are covered instead of eleven, and they are
    nine per cent wider than the coarse cell. *)
Theorem C130_touching_covers_too_much :
  let a := stored_axis 10 1 11 11 in
  let js := filter (covers_axis_fl binary64 a) (map Z.of_nat (seq 0 22)) in
  g_n (local_axis_fl binary64 a) = 22%Z /\ js = [7; 8; 9; 10; 11; 12; 13; 14]%Z /\
  inject_Z (Z.of_nat (List.length js)) * width (local_axis_fl binary64 a) >= (109 # 100) * (a_max a - a_min a).
Proof. split; [vm_compute; reflexivity|]. split; [vm_compute; reflexivity|vm_compute; discriminate]. Qed.
Print Assumptions C130_touching_covers_too_much.

(** ** The coarse cell of a fine cell *)
Lemma Forall2_len {A B} (P : A -> B -> Prop) l k : Forall2 P l k -> List.length k = List.length l.
Proof. induction 1; cbn [List.length]; congruence. Qed.
Lemma pairs rnd ds c f : coarse_cell ds c -> fine_cell ds f ->
  (holds_cell rnd ds c f = true <-> Forall2 (fun p k => both rnd (fst p) (snd p) k = true) (combine ds c) f).
Proof.
  intros C F. apply holds_cell_iff; [exact (Forall2_len _ _ _ C)|exact (Forall2_len _ _ _ F)].
Qed.

(** No other cell is found. *)
Theorem C130_no_other_cell : forall rnd ds c f, rounding rnd -> Forall grid_ok ds -> Forall moderate ds ->
  coarse_cell ds c -> fine_cell ds f -> holds_cell rnd ds c f = true -> c = home ds f.
Proof.
  intros rnd ds c f Hr Ok Mo C F H. apply (pairs rnd ds c f C F) in H.
  revert f F H. induction C as [|d i ds c Hi C IH]; intros f F H.
  - inversion F; subst. reflexivity.
  - inversion F as [|? k ? f' Hk F']; subst. inversion Ok as [|? ? Ok1 Ok2]; subst.
    inversion Mo as [|? ? (r & R1 & R2) Mo2]; subst. cbn [combine] in H.
    inversion H as [|? ? ? ? B H']; subst. cbn [fst snd] in B. cbn [home combine map fst snd]. f_equal.
    + apply (only_home rnd d r Hr Ok1 R1); try assumption.
      assert (two (-42) * (r * inject_Z (d_m d)) <= two (-42) * two 42) by (apply Qmult_le_l; [reflexivity|exact R2]).
      assert (two (-42) * two 42 == 1) by reflexivity.
      assert (two 10 * ulp == two (-42)) by reflexivity. rewrite <- Qmult_assoc, H2. lra.
    + apply IH; assumption.
Qed.
Print Assumptions C130_no_other_cell.

(** The right one is found for refinements by powers of two, *)
Theorem C130_powers_of_two : forall rnd ds f, rounding rnd -> scaling rnd -> Forall grid_ok ds -> Forall moderate ds ->
  Forall power ds -> fine_cell ds f -> coarse_cell ds (home ds f) /\ holds_cell rnd ds (home ds f) f = true.
Proof.
  intros rnd ds f Hr Sc Ok Mo Po F.
  assert (C : coarse_cell ds (home ds f) /\
    Forall2 (fun p k => both rnd (fst p) (snd p) k = true) (combine ds (home ds f)) f).
  { induction F as [|d k ds f Hk F IH]; [split; constructor|].
    inversion Ok as [|? ? Ok1 Ok2]; subst. inversion Mo as [|? ? (r & R1 & R2) Mo2]; subst.
    inversion Po as [|? ? (e & E1 & E2) Po2]; subst. destruct (IH Ok2 Mo2 Po2) as [I1 I2].
    cbn [home combine map fst snd]. split; constructor; try assumption.
    - apply (home_bounds d Ok1), Hk.
    - apply (home_power rnd d r Hr Ok1 R1 k e); try assumption.
      destruct (dir_units d r Ok1 R1) as (_ & _ & _ & M1 & Rr & _).
      assert (r * 1 <= r * inject_Z (d_m d)) by (apply Qmult_le_l; lra).
      assert (16 * ulp * r <= 16 * ulp * two 42) by (apply Qmult_le_l; [reflexivity|lra]).
      assert (16 * ulp * two 42 <= 1) by discriminate. lra. }
  destruct C as [C1 C2]. split; [exact C1|]. apply pairs; assumption.
Qed.
Print Assumptions C130_powers_of_two.

(** and on few coarse cells. *)
Theorem C130_few_coarse_cells : forall rnd ds f, rounding rnd -> Forall grid_ok ds -> Forall few ds ->
  fine_cell ds f -> coarse_cell ds (home ds f) /\ holds_cell rnd ds (home ds f) f = true.
Proof.
  intros rnd ds f Hr Ok Fe F.
  assert (C : coarse_cell ds (home ds f) /\
    Forall2 (fun p k => both rnd (fst p) (snd p) k = true) (combine ds (home ds f)) f).
  { induction F as [|d k ds f Hk F IH]; [split; constructor|].
    inversion Ok as [|? ? Ok1 Ok2]; subst. inversion Fe as [|? ? R1 Fe2]; subst.
    destruct (IH Ok2 Fe2) as [I1 I2].
    cbn [home combine map fst snd]. split; constructor; try assumption.
    - apply (home_bounds d Ok1), Hk.
    - apply (home_few rnd d 5 Hr Ok1 R1 k); [lra|assumption]. }
  destruct C as [C1 C2]. split; [exact C1|]. apply pairs; assumption.
Qed.
Print Assumptions C130_few_coarse_cells.

(** ** The search *)
Theorem C130_search_finds_the_cell : forall rnd ds ent lookup cells wsize qs st f,
  rounding rnd -> Forall grid_ok ds -> Forall moderate ds ->
  Forall few ds \/ scaling rnd /\ Forall power ds ->
  complete (list Z) (list Q) ent (inside rnd ds) lookup cells -> (2 <= wsize)%nat ->
  searches (list Z) (list Q) ent (inside rnd ds) lookup cells wsize fresh qs = Some st ->
  Forall (coarse_cell ds) cells -> fine_cell ds f -> In (home ds f) cells ->
  exists ret st' v, search (list Z) (list Q) ent (inside rnd ds) lookup cells wsize st (corners rnd ds f) = Found ret st' v /\
    current_coarse (list Z) st' = Some (home ds f).
Proof.
  intros rnd ds ent lookup cells wsize qs st f Hr Ok Mo Cond Cm W Hs Cc F Hin.
  assert (H : holds_cell rnd ds (home ds f) f = true).
  { destruct Cond as [Fe|[Sc Po]]; [apply C130_few_coarse_cells|apply C130_powers_of_two]; assumption. }
  destruct (C25_search_succeeds (list Z) (list Q) ent (inside rnd ds) lookup cells wsize qs st (corners rnd ds f))
    as (ret & st' & v & S & _); try assumption.
  - intro E. rewrite E in Hin. destruct Hin.
  - apply corners_nonempty.
  - exists (home ds f). split; [exact Hin|]. intros p Hp. unfold holds_cell in H. rewrite forallb_forall in H. apply H, Hp.
  - exists ret, st', v. split; [exact S|].
    apply C24_remembered_cell_contains_all_points in S; [|apply corners_nonempty].
    destruct S as (c & Ec & Ic & Hc). rewrite Ec. f_equal.
    apply (C130_no_other_cell rnd ds c f Hr Ok Mo); try assumption.
    + rewrite Forall_forall in Cc. apply Cc, Ic.
    + unfold holds_cell. apply forallb_forall. exact Hc.
Qed.
Print Assumptions C130_search_finds_the_cell.

(** ** Three fine cells in each of 78 coarse cells of the unit interval: the
    search fails in doubles. *)
Definition unit_interval (n m : Z) : direction := {| d_lo := 0; d_up := 1; d_n := n; d_m := m |}.

Lemma unit_ok n m : (1 <= n)%Z -> (1 <= m)%Z -> grid_ok (unit_interval n m).
Proof.
  intros N M. split; cbn; try assumption; try reflexivity.
  - apply representable_0.
  - apply (representable_Z 1). discriminate.
Qed.
Lemma unit_remote n m : (1 <= n)%Z -> remoteness (unit_interval n m) (inject_Z n).
Proof.
  intro N. unfold remoteness, coarse_width. cbn [d_lo d_up d_n unit_interval].
  assert (Np : 0 < inject_Z n) by (apply (inj_lt 0); lia).
  assert (E : inject_Z n * ((1 - 0) / inject_Z n) == 1) by (field; lra). rewrite E. discriminate.
Qed.
Lemma unit_moderate n m : (1 <= n)%Z -> (n * m <= 2 ^ 42)%Z -> moderate (unit_interval n m).
Proof.
  intros N M. exists (inject_Z n). split; [apply unit_remote, N|]. cbn [d_m unit_interval].
  rewrite <- inj_mul, (two_Z 42) by lia. apply inj_le, M.
Qed.

Theorem C130_search_fails : forall ent lookup cells wsize qs st,
  let ds := [unit_interval 78 3] in
  cells <> [] -> (1 <= wsize)%nat ->
  searches (list Z) (list Q) ent (inside binary64 ds) lookup cells wsize fresh qs = Some st ->
  Forall (coarse_cell ds) cells ->
  exists st' v, search (list Z) (list Q) ent (inside binary64 ds) lookup cells wsize st (corners binary64 ds [209%Z]) =
    Throws st' v.
Proof.
  intros ent lookup cells wsize qs st ds NE W Hs Cc.
  destruct (C26_failure_is_reported (list Z) (list Q) ent (inside binary64 ds) lookup cells wsize qs st
    (corners binary64 ds [209%Z]) NE W Hs) as (st' & v & S & _).
  - apply corners_nonempty.
  - intros c Ic Hc. rewrite Forall_forall in Cc. specialize (Cc c Ic).
    assert (H : holds_cell binary64 ds c [209%Z] = true) by (apply forallb_forall; exact Hc).
    assert (E : c = home ds [209%Z]).
    { apply (C130_no_other_cell binary64 ds c [209%Z] binary64_rounding); try assumption.
      - constructor; [|constructor]. apply unit_ok; lia.
      - constructor; [|constructor]. apply unit_moderate; lia.
      - constructor; [|constructor]. cbn. lia. }
    rewrite E in H. revert H. vm_compute. discriminate.
  - exists st', v. exact S.
Qed.
Print Assumptions C130_search_fails.

(** The neighbour of that fine cell is found, so is a cell at the same place with
    four fine cells in each coarse cell. *)
Example C130_case_search :
  let found n m k := holds_cell binary64 [unit_interval n m] (home [unit_interval n m] [k]) [k] in
  found 78%Z 3%Z 209%Z = false /\ found 78%Z 3%Z 208%Z = true /\ found 78%Z 4%Z 279%Z = true /\
  found 77%Z 3%Z 209%Z = true /\
  Forall moderate [unit_interval 78 4] /\ Forall power [unit_interval 78 4] /\ Forall few [unit_interval 5 7].
Proof.
  do 4 (split; [vm_compute; reflexivity|]).
  split; [|split]; (constructor; [|constructor]).
  - apply unit_moderate; lia.
  - exists 2%Z. split; [lia|reflexivity].
  - apply (unit_remote 5). lia.
Qed.
