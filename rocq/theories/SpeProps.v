(** Theorems about the permeability tables: C50-C52, C54, C71. *)
From Coq Require Import ZArith QArith Qabs List Arith Bool Lia Lqa.
From Verif Require Import Util SpeModel SpeSpec SpeProofs.
Import ListNotations.
Open Scope nat_scope.

(** ** C50: SPE10 lookup. *)
Theorem C50_spe10_reads_the_containing_cell : forall t ll ur x y,
  length t = data_size ->
  (forall dd, dd < 3 -> (ll dd < ur dd)%Q /\ (ll dd <= x dd)%Q /\ (x dd <= ur dd)%Q) ->
  exists w y', spe_evaluate (Some t) ll ur x y = Value y' /\
    (forall dd, dd < 3 -> in_cell (spe_cells dd) (ll dd) (ur dd) (x dd) (w dd)) /\
    (forall k, k < 3 -> nth_error t (entry k w) = Some (y' k k)) /\
    (forall i j, i <> j -> y' i j = y i j).
Proof. exact spe_lookup. Qed.
Print Assumptions C50_spe10_reads_the_containing_cell.

Theorem C50_cell_of_a_point_is_unique : forall ne ll ur c w v, (ll < ur)%Q ->
  in_cell ne ll ur c w -> in_cell ne ll ur c v -> w = v.
Proof. exact in_cell_unique. Qed.
Print Assumptions C50_cell_of_a_point_is_unique.

Theorem C50_different_cells_use_different_entries : forall k w l v, k < 3 -> l < 3 ->
  (forall dd, dd < 3 -> (0 <= w dd < spe_cells dd)%Z) ->
  (forall dd, dd < 3 -> (0 <= v dd < spe_cells dd)%Z) ->
  entry k w = entry l v -> k = l /\ forall dd, dd < 3 -> w dd = v dd.
Proof. exact entry_inj. Qed.
Print Assumptions C50_different_cells_use_different_entries.

(** Size of the table, and the configured box. *)
Theorem C50_table_and_box :
  Z.of_nat data_size = (3 * (60 * 220 * 85))%Z /\
  (forall dd, dd < 3 -> spe_ll dd = 0%Q /\ spe_ur dd = spe_box dd).
Proof.
  split; [unfold data_size; rewrite Z2Nat.id; [reflexivity|discriminate]|].
  intros [|[|[|dd]]] L; try (split; reflexivity). lia.
Qed.
Print Assumptions C50_table_and_box.

(** The configured box meets the hypotheses; its upper corner lies in the last
    cell, whose number is the largest. *)
Example C50_upper_corner :
  (forall dd, dd < 3 -> (spe_ll dd < spe_ur dd)%Q /\ (spe_ll dd <= spe_ur dd)%Q /\ (spe_ur dd <= spe_ur dd)%Q) /\
  which_partition 60 0 2 2 = Some 59%Z /\ which_partition 220 0 5 5 = Some 219%Z /\
  which_partition 85 0 1 1 = Some 84%Z /\ which_partition 60 0 2 (1 # 100) = Some 0%Z /\
  number (fun dd => match dd with 0 => 59%Z | 1 => 219%Z | _ => 84%Z end) = 1121999%Z /\
  in_cell 60 0 2 1 30.
Proof.
  split; [|repeat (split; [reflexivity|])].
  - intros dd L. destruct dd as [|[|[|dd]]]; [repeat split; discriminate..|lia].
  - split; [lia|]. split; [discriminate|]. left. reflexivity.
Qed.
Example C50_a_table : length (repeat (Some 1%Q) data_size) = data_size.
Proof. apply repeat_length. Qed.
(** Points below the lower corner are undefined. *)
Example C50_outside : which_partition 60 0 2 (- (1) # 100) = None.
Proof. reflexivity. Qed.

(** ** C51: reading the SPE10 file. *)
Theorem C51_spe10_reading : forall size mn mx ws, (mn < mx)%Q ->
  exists t, Forall2 (fun e v => exists q, e = Some q /\ (q == affine mn mx v)%Q) t (leading ws) /\
  spe_read size mn mx (Some ws) =
    match Nat.compare (length (leading ws)) size with
    | Lt => WrongCount (length (leading ws))
    | Eq => Loaded t
    | Gt => Overrun
    end.
Proof. exact spe_read_res. Qed.
Print Assumptions C51_spe10_reading.

Theorem C51_spe10_values_in_requested_range : forall mn mx v,
  (mn < mx)%Q -> (file_min <= v)%Q -> (v <= file_max)%Q ->
  (mn <= affine mn mx v)%Q /\ (affine mn mx v <= mx)%Q.
Proof. exact affine_range. Qed.
Print Assumptions C51_spe10_values_in_requested_range.

(** With the configured limits the values are those of the file. *)
Theorem C51_spe10_default_limits_keep_the_values : forall v,
  (affine file_min file_max v == v)%Q.
Proof. exact affine_id. Qed.
Print Assumptions C51_spe10_default_limits_keep_the_values.

Theorem C51_spe10_missing_file_or_bad_limits : forall size mn mx ws,
  spe_read size mn mx None = FileMissing /\
  ((mx <= mn)%Q -> spe_read size mn mx (Some ws) = RangeError).
Proof.
  intros size mn mx ws. split; auto. intros H. unfold spe_read.
  apply Qle_bool_iff in H. now rewrite H.
Qed.
Print Assumptions C51_spe10_missing_file_or_bad_limits.

Example C51_cases :
  spe_read 2 0 1 (Some [Num file_min; Num file_max; Junk; Num 7]) <> Overrun /\
  spe_read 2 0 1 (Some [Num 1]) = WrongCount 1 /\
  spe_read 2 0 1 (Some [Num 1; Junk; Num 2]) = WrongCount 1 /\
  spe_read 2 0 1 (Some [Num 1; Num 2; Num 3]) = Overrun /\
  (exists a b, spe_read 2 0 1 (Some [Num file_min; Num file_max]) = Loaded [Some a; Some b] /\ a == 0 /\ b == 1)%Q.
Proof.
  split; [discriminate|]. repeat (split; [reflexivity|]).
  eexists _, _. split; [reflexivity|]. split; reflexivity.
Qed.

(** Reading and looking up together: for a complete file every point of the
    closed box gets the file's values of its cell. *)
Theorem C51_spe10_file_values_reach_evaluate : forall ws ll ur x y,
  length (leading ws) = data_size ->
  (forall dd, dd < 3 -> (ll dd < ur dd)%Q /\ (ll dd <= x dd)%Q /\ (x dd <= ur dd)%Q) ->
  exists t w y', spe_read data_size file_min file_max (Some ws) = Loaded t /\
    spe_evaluate (Some t) ll ur x y = Value y' /\
    (forall dd, dd < 3 -> in_cell (spe_cells dd) (ll dd) (ur dd) (x dd) (w dd)) /\
    (forall k, k < 3 -> exists v q, nth_error (leading ws) (entry k w) = Some v /\ y' k k = Some q /\ (q == v)%Q).
Proof.
  intros ws ll ur x y L D.
  destruct (spe_read_res data_size file_min file_max ws ltac:(reflexivity)) as (t & F & E).
  rewrite L, Nat.compare_refl in E.
  assert (Lt : length t = data_size) by (rewrite <- L; clear - F; induction F; simpl; auto).
  destruct (spe_lookup t ll ur x y Lt D) as (w & y' & V & I & K & _).
  exists t, w, y'. split; [exact E|]. split; [exact V|]. split; [exact I|].
  intros k Lk. specialize (K k Lk). clear - F K. revert K. generalize (entry k w) as i. intros i. revert i.
  induction F as [|e v t vs (q & -> & Q) F IH]; intros i K; destruct i; try discriminate; simpl in *.
  - injection K as K. exists v, q. split; auto. split; auto. rewrite Q. apply affine_id.
  - apply IH; auto.
Qed.
Print Assumptions C51_spe10_file_values_reach_evaluate.

(** ** C52: Tarbert lookup. *)
Theorem C52_tarbert_reads_the_containing_cell : forall dim t x m,
  (dim = 2 \/ dim = 3) -> length t = tar_size ->
  (forall dd, dd < dim -> (0 <= x dd)%Q /\ (x dd < tar_ur dd)%Q) ->
  exists w y', tar_evaluate dim (Some t) x m = Value y' /\
    (forall dd, dd < dim -> in_cell (tar_cells dd) 0 (tar_ur dd) (x dd) (w dd)) /\
    (forall dd, dim <= dd -> w dd = 0%Z) /\
    (forall k, k < dim -> nth_error t (entry k w) = Some (y' k k)) /\
    (forall i j, i <> j -> y' i j = m i j).
Proof.
  intros dim t x m Hd Lt D.
  destruct (tar_lookup dim t x m Hd Lt) as (y' & V & K & O).
  { intros dd L. destruct (D dd L). split; auto. lra. }
  exists (place dim x), y'. split; auto. split; [|split; [|split; auto]].
  - intros dd L. unfold place. apply Nat.ltb_lt in L as L'. rewrite L'. destruct (D dd L).
    apply interval_cell; auto. destruct Hd; lia.
  - intros dd L. unfold place. apply Nat.ltb_ge in L. now rewrite L.
Qed.
Print Assumptions C52_tarbert_reads_the_containing_cell.

Theorem C52_tarbert_accesses_stay_inside_the_table : forall dim t x m,
  (dim = 2 \/ dim = 3) -> length t = tar_size ->
  (forall dd, dd < dim -> (0 <= x dd)%Q /\ (x dd <= tar_ur dd)%Q) ->
  tar_evaluate dim (Some t) x m <> Undefined.
Proof.
  intros dim t x m Hd Lt D. destruct (tar_lookup dim t x m Hd Lt D) as (y' & -> & _). discriminate.
Qed.
Print Assumptions C52_tarbert_accesses_stay_inside_the_table.

(** Size of the table and the configured box. *)
Theorem C52_tarbert_table_and_box :
  Z.of_nat tar_size = (3 * (60 * 220 * 85))%Z /\
  (forall dd, dd < 3 -> (tar_ur dd == tar_box dd)%Q).
Proof.
  split; [unfold tar_size; rewrite Z2Nat.id; [reflexivity|discriminate]|].
  intros [|[|[|dd]]] L; try reflexivity. lia.
Qed.
Print Assumptions C52_tarbert_table_and_box.

(** On the upper boundaries the next row's or layer's cell is read. *)
Theorem C52_tarbert_upper_boundaries_read_another_cell : forall t x m w,
  length t = tar_size ->
  (forall dd, dd < 3 -> (0 <= x dd)%Q) ->
  in_cell 35 0 (tar_ur 2) (x 2) (w 2) -> (x 2%nat < tar_ur 2)%Q ->
  (x 1%nat == tar_ur 1)%Q -> in_cell 60 0 (tar_ur 0) (x 0) (w 0) -> (x 0%nat < tar_ur 0)%Q ->
  exists y', tar_evaluate 3 (Some t) x m = Value y' /\
    forall k, k < 3 ->
      nth_error t (entry k (fun dd => match dd with 0 => w 0 | 1 => 0%Z | _ => (w 2%nat + 1)%Z end)) = Some (y' k k).
Proof.
  intros t x m w Lt P I2 L2 E1 I0 L0.
  destruct (tar_lookup 3 t x m (or_intror eq_refl) Lt) as (y' & V & K & _).
  { intros dd L. split; [apply P; auto|]. destruct dd as [|[|[|dd]]]; [lra|lra|lra|lia]. }
  exists y'. split; auto. intros k L. rewrite <- (K k L). f_equal. unfold entry. do 2 f_equal.
  assert (W0 : interval x 0 = w 0).
  { eapply in_cell_unique; [|apply (interval_cell x 0); auto|exact I0]. reflexivity. }
  assert (W2 : interval x 2 = w 2).
  { eapply in_cell_unique; [|apply (interval_cell x 2); auto|exact I2]. reflexivity. }
  rewrite (number_past_y (place 3 x)).
  - unfold number, place. cbn [Nat.ltb Nat.leb]. now rewrite W0, W2.
  - unfold place. cbn [Nat.ltb Nat.leb]. apply (interval_upper x 1); auto.
Qed.
Print Assumptions C52_tarbert_upper_boundaries_read_another_cell.

Theorem C52_tarbert_without_data : forall dim x m, tar_evaluate dim None x m = NoData.
Proof. reflexivity. Qed.
Print Assumptions C52_tarbert_without_data.

Example C52_points :
  interval (fun _ => 10 # 1) 0 = 1%Z /\ interval (fun _ => 10 # 1) 1 = 3%Z /\ interval (fun _ => 10 # 1) 2 = 16%Z /\
  interval tar_ur 0 = 60%Z /\ interval tar_ur 1 = 220%Z /\ interval tar_ur 2 = 35%Z /\
  in_cell 60 0 (tar_ur 0) (10 # 1) 1 /\ in_cell 35 0 (tar_ur 2) (10 # 1) 16.
Proof. repeat split; try reflexivity; try discriminate; left; reflexivity. Qed.

(** ** C54: reading the Tarbert file. *)
Theorem C54_tarbert_reading : forall size vs space,
  tar_read size (Some (map Num vs, space)) =
  Some (if Nat.leb (length (kept vs space)) size
        then Loaded (map Some (kept vs space) ++ repeat None (size - length (kept vs space)))
        else Overrun).
Proof. exact tar_read_numbers. Qed.
Print Assumptions C54_tarbert_reading.

Theorem C54_tarbert_unreadable_word_overruns : forall size ws space,
  ~ all_numbers ws -> tar_read size (Some (ws, space)) = Some Overrun.
Proof.
  intros size ws space H. destruct (words_split ws) as [A|(vs & r & ->)]; [contradiction|].
  apply tar_read_junk.
Qed.
Print Assumptions C54_tarbert_unreadable_word_overruns.

(** A file with exactly the expected values is complete only if white space
    follows the last value; otherwise the last entry is never written. *)
Theorem C54_tarbert_last_value : forall vs v space,
  tar_read (length (vs ++ [v])) (Some (map Num (vs ++ [v]), space)) =
  Some (Loaded (map Some vs ++ [if space then Some v else None])).
Proof.
  intros vs v space. rewrite tar_read_numbers. unfold kept. destruct space.
  - rewrite Nat.leb_refl, Nat.sub_diag, map_app. cbn [repeat map]. now rewrite app_nil_r.
  - rewrite removelast_last, app_length. cbn [length]. rewrite Nat.add_1_r.
    replace (Nat.leb (length vs) (S (length vs))) with true by (symmetry; apply Nat.leb_le; lia).
    replace (S (length vs) - length vs) with 1 by lia. reflexivity.
Qed.
Print Assumptions C54_tarbert_last_value.

(** A missing file is silent until the diffusion is evaluated. *)
Theorem C54_tarbert_missing_file : forall size,
  tar_read size None = None /\ tar_destroy None = true /\
  forall dim x m, tar_evaluate dim None x m = NoData.
Proof. repeat split. Qed.
Print Assumptions C54_tarbert_missing_file.

(** Destroying an object that has read a file is undefined. *)
Theorem C54_tarbert_destruction : forall perm, tar_destroy perm = true <-> perm = None.
Proof. intros [t|]; simpl; split; congruence. Qed.
Print Assumptions C54_tarbert_destruction.

Example C54_cases :
  tar_read 3 (Some ([Num 1; Num 2], true)) = Some (Loaded [Some 1%Q; Some 2%Q; None]) /\
  tar_read 3 (Some ([Num 1; Num 2; Num 3], false)) = Some (Loaded [Some 1%Q; Some 2%Q; None]) /\
  tar_read 1 (Some ([Num 1; Num 2], true)) = Some Overrun /\
  tar_read 3 (Some ([Num 1; Junk], true)) = Some Overrun /\
  tar_read 2 (Some ([], false)) = Some (Loaded [None; None]).
Proof. repeat split. Qed.

(** ** C71: boundary data of SPE10 and Tarbert. *)
(** SPE10: zero source, zero Dirichlet value on the upper y face; the lower y
    face is a Neumann face with value one; zero on other Neumann faces away
    from it.  [eq0] recognises zero. *)
Theorem C71_spe10_data : forall dim eq0 x,
  eq0 0%Q = true ->
  spe_source x = 0%Q /\ spe_dirichlet x = 0%Q /\
  spe_boundary dim {| f_axis := 1; f_up := true |} = Dirichlet /\
  (forall f, f <> {| f_axis := 1; f_up := true |} -> spe_boundary dim f = Neumann) /\
  (x 1 = 0%Q -> spe_neumann eq0 x = 1%Q) /\ (eq0 (x 1) = false -> spe_neumann eq0 x = 0%Q).
Proof.
  intros dim eq0 x E. split; [reflexivity|]. split; [reflexivity|]. split; [reflexivity|].
  split; [|split].
  - intros [a u] N. unfold spe_boundary, face_eqb. cbn [f_axis f_up].
    destruct (Nat.eqb_spec a 1); [|reflexivity]. subst. destruct u; [congruence|reflexivity].
  - intros H. unfold spe_neumann. now rewrite H, E.
  - intros H. unfold spe_neumann. now rewrite H.
Qed.
Print Assumptions C71_spe10_data.

(** Tarbert in three dimensions: the same with value minus one. *)
Theorem C71_tarbert_data_3d : forall x,
  tar_source x = 0%Q /\ tar_dirichlet x = 0%Q /\
  tar_boundary 3 {| f_axis := 1; f_up := true |} = Dirichlet /\
  (forall f, f <> {| f_axis := 1; f_up := true |} -> tar_boundary 3 f = Neumann) /\
  ((x 1%nat == 0)%Q -> tar_neumann x = (-(1))%Q) /\
  ((1 # 1000000 <= x 1%nat)%Q -> tar_neumann x = 0%Q).
Proof.
  intros x. split; [reflexivity|]. split; [reflexivity|]. split; [reflexivity|]. split; [|split].
  - intros [a u] N. unfold tar_boundary, face_eqb. cbn [f_axis f_up].
    destruct (Nat.eqb_spec a 1); [|reflexivity]. subst. destruct u; [congruence|reflexivity].
  - intros E. unfold tar_neumann. rewrite E. reflexivity.
  - intros L. unfold tar_neumann. rewrite Qabs_pos by lra.
    assert (H : Qle_bool (1 # 1000000) (x 1%nat) = true) by (now apply Qle_bool_iff). now rewrite H.
Qed.
Print Assumptions C71_tarbert_data_3d.

(** In two dimensions the face with nonzero Neumann values is the Dirichlet
    face: away from it all data are zero, so the zero function solves. *)
Theorem C71_tarbert_data_2d_vanish : forall f x,
  tar_boundary 2 f = Neumann -> (1 # 1000000 <= x 1%nat)%Q ->
  tar_source x = 0%Q /\ tar_dirichlet x = 0%Q /\ tar_neumann x = 0%Q /\
  f <> {| f_axis := 1; f_up := false |}.
Proof.
  intros f x N L. repeat (split; [reflexivity|]). split.
  - unfold tar_neumann. rewrite Qabs_pos by lra.
    assert (H : Qle_bool (1 # 1000000) (x 1) = true) by (now apply Qle_bool_iff).
    now rewrite H.
  - intros ->. discriminate.
Qed.
Print Assumptions C71_tarbert_data_2d_vanish.

Example C71_faces :
  tar_boundary 2 {| f_axis := 1; f_up := false |} = Dirichlet /\
  tar_boundary 2 {| f_axis := 1; f_up := true |} = Neumann /\
  tar_boundary 2 {| f_axis := 0; f_up := true |} = Neumann /\
  tar_neumann (fun _ => 0%Q) = (-(1))%Q /\ tar_neumann tar_ur = 0%Q.
Proof. repeat split. Qed.
