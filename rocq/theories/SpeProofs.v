(** Proofs for C50-C52, C54, C71. *)
From Coq Require Import ZArith QArith Qround List Arith Bool Lia Lqa.
From Verif Require Import Util SpeModel SpeSpec.
Import ListNotations.
Open Scope nat_scope.

Lemma floor_bounds : forall q f, Qfloor q = f -> (inject_Z f <= q)%Q /\ (q < inject_Z (f + 1))%Q.
Proof. intros q f <-. split; [apply Qfloor_le|apply Qlt_floor]. Qed.

Lemma inject_lt : forall a b, (inject_Z a < inject_Z b)%Q -> (a < b)%Z.
Proof. intros a b H. now rewrite Zlt_Qlt. Qed.
Lemma inject_le : forall a b, (inject_Z a <= inject_Z b)%Q -> (a <= b)%Z.
Proof. intros a b H. now rewrite Zle_Qle. Qed.

(** Equal cells. *)
Lemma floor_cell : forall ne ll ur c, (0 < ne)%Z -> (ll < ur)%Q -> (ll <= c)%Q -> (c <= ur)%Q ->
  let f := Qfloor (inject_Z ne * ((c - ll) / (ur - ll))) in
  (0 <= f <= ne)%Z /\
  (inject_Z f * (ur - ll) <= inject_Z ne * (c - ll))%Q /\
  (inject_Z ne * (c - ll) < inject_Z (f + 1) * (ur - ll))%Q /\ (f = ne -> c == ur)%Q.
Proof.
  intros ne ll ur c P L A B f.
  destruct (floor_bounds _ f eq_refl) as (F1 & F2).
  set (t := ((c - ll) / (ur - ll))%Q) in *.
  assert (LP : (0 < ur - ll)%Q) by lra.
  assert (E : (c - ll == t * (ur - ll))%Q) by (unfold t; field; lra).
  assert (NP : (0 < inject_Z ne)%Q) by (change 0%Q with (inject_Z 0); rewrite <- Zlt_Qlt; auto).
  assert (T0 : (0 <= t)%Q) by (apply Qle_shift_div_l; lra).
  assert (T1 : (t <= 1)%Q) by (apply Qle_shift_div_r; lra).
  clearbody t. set (n := inject_Z ne) in *.
  assert (N1 : (n * t <= n)%Q) by nra. assert (N0 : (0 <= n * t)%Q) by nra.
  split; [|split; [|split]].
  - split.
    + assert (0 < f + 1)%Z; [|lia]. apply inject_lt. change (inject_Z 0) with 0%Q. lra.
    + apply inject_le. fold n. lra.
  - assert (H : (n * (c - ll) == (n * t) * (ur - ll))%Q) by (rewrite E; ring). rewrite H. nra.
  - assert (H : (n * (c - ll) == (n * t) * (ur - ll))%Q) by (rewrite E; ring). rewrite H. nra.
  - intros K. rewrite K in F1. fold n in F1. assert (T : (t == 1)%Q) by nra.
    assert (H : (c - ll == ur - ll)%Q) by (rewrite E, T; ring). lra.
Qed.

Lemma which_cell : forall ne ll ur c, (0 < ne < 2 ^ 64)%Z -> (ll < ur)%Q -> (ll <= c)%Q -> (c <= ur)%Q ->
  exists w, which_partition ne ll ur c = Some w /\ in_cell ne ll ur c w.
Proof.
  intros ne ll ur c P L A B. unfold which_partition.
  destruct (floor_cell ne ll ur c ltac:(lia) L A B) as (F0 & F1 & F2 & F3).
  set (f := Qfloor (inject_Z ne * ((c - ll) / (ur - ll)))) in *. clearbody f.
  unfold to_size_t. replace ((0 <=? f)%Z && (f <? 2 ^ 64)%Z) with true.
  2:{ symmetry. apply andb_true_intro. split; [apply Z.leb_le|apply Z.ltb_lt]; lia. }
  exists (Z.min f (ne - 1)). split; auto. unfold in_cell.
  destruct (Z.eq_dec f ne) as [->|N].
  - rewrite Z.min_r by lia. specialize (F3 eq_refl). split; [lia|]. split; [|right; auto].
    assert (H : (inject_Z (ne - 1) <= inject_Z ne)%Q) by (rewrite <- Zle_Qle; lia). nra.
  - rewrite Z.min_l by lia. split; [lia|]. auto.
Qed.

Lemma in_cell_unique : forall ne ll ur c w v, (ll < ur)%Q ->
  in_cell ne ll ur c w -> in_cell ne ll ur c v -> w = v.
Proof.
  assert (K : forall ne ll ur c w v, (ll < ur)%Q ->
    in_cell ne ll ur c w -> in_cell ne ll ur c v -> (w < v)%Z -> False).
  { intros ne ll ur c w v L (W0 & W1 & W2) (V0 & V1 & V2) H.
    destruct W2 as [W2|(W2 & _)]; [|lia].
    assert (I : (inject_Z (w + 1) <= inject_Z v)%Q) by (rewrite <- Zle_Qle; lia). nra. }
  intros ne ll ur c w v L W V.
  destruct (Z.lt_trichotomy w v) as [H|[H|H]]; [|exact H|]; exfalso;
    [exact (K _ _ _ _ _ _ L W V H)|exact (K _ _ _ _ _ _ L V W H)].
Qed.

Lemma access_in : forall t i, (0 <= i < Z.of_nat (length t))%Z ->
  exists v, access t i = Some v /\ nth_error t (Z.to_nat i) = Some v.
Proof.
  intros t i H. unfold access. replace (i <? 0)%Z with false by (symmetry; apply Z.ltb_ge; lia).
  destruct (nth_error t (Z.to_nat i)) eqn:E; [eauto|].
  apply nth_error_None in E. lia.
Qed.

Lemma data_size_Z : Z.of_nat data_size = 3366000%Z.
Proof. unfold data_size. rewrite Z2Nat.id; [reflexivity|discriminate]. Qed.
Lemma tar_size_Z : Z.of_nat tar_size = 3366000%Z.
Proof. unfold tar_size. rewrite Z2Nat.id; [reflexivity|discriminate]. Qed.

Lemma number_bounds : forall w, (0 <= w 0%nat < 60)%Z -> (0 <= w 1%nat < 220)%Z -> (0 <= w 2%nat < 85)%Z ->
  (0 <= number w < 1122000)%Z.
Proof. intros w H0 H1 H2. unfold number. lia. Qed.

Lemma number_inj : forall w v,
  (forall dd, dd < 3 -> (0 <= w dd < spe_cells dd)%Z) ->
  (forall dd, dd < 3 -> (0 <= v dd < spe_cells dd)%Z) ->
  number w = number v -> forall dd, dd < 3 -> w dd = v dd.
Proof.
  intros w v W V E. unfold number in E.
  pose proof (W 0 ltac:(lia)). pose proof (W 1 ltac:(lia)). pose proof (W 2 ltac:(lia)).
  pose proof (V 0 ltac:(lia)). pose proof (V 1 ltac:(lia)). pose proof (V 2 ltac:(lia)).
  unfold spe_cells in *.
  assert (w 0 = v 0 /\ w 1 = v 1 /\ w 2 = v 2) as (E0 & E1 & E2) by lia.
  intros dd L. destruct dd as [|[|[|dd]]]; auto; lia.
Qed.

Lemma entry_inj : forall k w l v, k < 3 -> l < 3 ->
  (forall dd, dd < 3 -> (0 <= w dd < spe_cells dd)%Z) ->
  (forall dd, dd < 3 -> (0 <= v dd < spe_cells dd)%Z) ->
  entry k w = entry l v -> k = l /\ forall dd, dd < 3 -> w dd = v dd.
Proof.
  intros k w l v K L W V E. unfold entry in E.
  pose proof (number_bounds w (W 0 ltac:(lia)) (W 1 ltac:(lia)) (W 2 ltac:(lia))).
  pose proof (number_bounds v (V 0 ltac:(lia)) (V 1 ltac:(lia)) (V 2 ltac:(lia))).
  apply Z2Nat.inj in E; [|lia|lia].
  assert (k = l) by lia. split; auto. apply number_inj; auto. lia.
Qed.

Lemma diag3 : forall y a b c k, k < 3 ->
  set_diag (set_diag (set_diag y 0 a) 1 b) 2 c k k = nth k [a; b; c] None.
Proof. intros y a b c k L. destruct k as [|[|[|k]]]; [reflexivity..|lia]. Qed.
Lemma off3 : forall y a b c i j, i <> j ->
  set_diag (set_diag (set_diag y 0 a) 1 b) 2 c i j = y i j.
Proof.
  intros y a b c i j N. unfold set_diag.
  destruct (Nat.eqb_spec i 2), (Nat.eqb_spec j 2); try lia; cbn [andb];
  destruct (Nat.eqb_spec i 1), (Nat.eqb_spec j 1); try lia; cbn [andb];
  destruct (Nat.eqb_spec i 0), (Nat.eqb_spec j 0); try lia; reflexivity.
Qed.

Lemma spe_lookup : forall t ll ur x y,
  length t = data_size ->
  (forall dd, dd < 3 -> (ll dd < ur dd)%Q /\ (ll dd <= x dd)%Q /\ (x dd <= ur dd)%Q) ->
  exists w y', spe_evaluate (Some t) ll ur x y = Value y' /\
    (forall dd, dd < 3 -> in_cell (spe_cells dd) (ll dd) (ur dd) (x dd) (w dd)) /\
    (forall k, k < 3 -> nth_error t (entry k w) = Some (y' k k)) /\
    (forall i j, i <> j -> y' i j = y i j).
Proof.
  intros t ll ur x y Lt D.
  assert (W : forall dd, dd < 3 -> exists w, which_partition (model2_elements dd) (ll dd) (ur dd) (x dd) = Some w /\
      in_cell (spe_cells dd) (ll dd) (ur dd) (x dd) w).
  { intros dd L. destruct (D dd L) as (A & B & C).
    assert (E : model2_elements dd = spe_cells dd) by (destruct dd as [|[|[|dd]]]; [reflexivity..|lia]).
    rewrite E. apply which_cell; auto. destruct dd as [|[|[|dd]]]; [split; reflexivity..|lia]. }
  destruct (W 0 ltac:(lia)) as (w0 & E0 & I0). destruct (W 1 ltac:(lia)) as (w1 & E1 & I1).
  destruct (W 2 ltac:(lia)) as (w2 & E2 & I2). clear W.
  set (w := fun dd => match dd with 0 => w0 | 1 => w1 | _ => w2 end).
  assert (B : (0 <= number w < 1122000)%Z).
  { apply number_bounds; unfold w; [apply I0|apply I1|apply I2]. }
  assert (LZ : Z.of_nat (length t) = 3366000%Z) by (rewrite Lt; apply data_size_Z).
  assert (EN : entries_per_dim = 1122000%Z) by reflexivity.
  assert (II : (w0 + w1 * model2_elements 0 + w2 * model2_elements 1 * model2_elements 0 = number w)%Z).
  { unfold number, w. change (model2_elements 0) with 60%Z. change (model2_elements 1) with 220%Z. ring. }
  destruct (access_in t (number w)) as (a & A1 & A2); [lia|].
  destruct (access_in t (1122000 + number w)) as (b & B1 & B2); [lia|].
  destruct (access_in t (2244000 + number w)) as (c & C1 & C2); [lia|].
  exists w, (set_diag (set_diag (set_diag y 0 a) 1 b) 2 c). split; [|split; [|split]].
  - unfold spe_evaluate. rewrite E0, E1, E2, II, EN.
    change (2 * 1122000)%Z with 2244000%Z. now rewrite A1, B1, C1.
  - intros dd L. destruct dd as [|[|[|dd]]]; auto; lia.
  - intros k L. rewrite diag3 by auto. unfold entry.
    destruct k as [|[|[|k]]]; [exact A2|exact B2|exact C2|lia].
  - intros i j N. apply off3; auto.
Qed.

(** SPE10 reader. *)
Lemma firstn_upd_S : forall A (t : list A) c x, c < length t ->
  firstn (S c) (upd t c x) = firstn c t ++ [x].
Proof.
  intros A t c x L. rewrite upd_split by auto.
  rewrite firstn_app, firstn_length_le by lia.
  rewrite firstn_all2 by (rewrite firstn_length_le; lia).
  replace (S c - c) with 1 by lia. reflexivity.
Qed.
Lemma skipn_upd : forall A (t : list A) c x m, c < m -> skipn m (upd t c x) = skipn m t.
Proof.
  induction t as [|y t IH]; intros c x m L; simpl; auto.
  destruct c; destruct m; simpl; auto; try lia. apply IH. lia.
Qed.

Lemma spe_loop_res : forall scale shift file c t, c <= length t ->
  spe_loop scale shift file c t =
  let vs := leading file in
  if Nat.leb (c + length vs) (length t)
  then Some (firstn c t ++ map (fun v => Some (v * scale + shift)%Q) vs ++ skipn (c + length vs) t,
             c + length vs)
  else None.
Proof.
  intros scale shift file. induction file as [|[q|] r IH]; intros c t L; cbn [leading spe_loop length map app]; cbv zeta.
  - rewrite Nat.add_0_r. replace (c <=? length t) with true by (symmetry; now apply Nat.leb_le).
    now rewrite firstn_skipn.
  - destruct (Nat.ltb_spec c (length t)).
    + rewrite IH by (rewrite upd_length; lia). cbv zeta. rewrite upd_length.
      replace (S c + length (leading r)) with (c + S (length (leading r))) by lia.
      destruct (Nat.leb_spec (c + S (length (leading r))) (length t)); auto.
      rewrite firstn_upd_S, skipn_upd by lia. rewrite <- app_assoc. reflexivity.
    + destruct (Nat.leb_spec (c + S (length (leading r))) (length t)); [lia|auto].
  - rewrite Nat.add_0_r. replace (c <=? length t) with true by (symmetry; now apply Nat.leb_le).
    now rewrite firstn_skipn.
Qed.

Lemma qlt_not_le_bool : forall a b, (a < b)%Q -> Qle_bool b a = false.
Proof.
  intros a b H. destruct (Qle_bool b a) eqn:E; auto. apply Qle_bool_iff in E. lra.
Qed.

Lemma spe_read_res : forall size mn mx ws, (mn < mx)%Q ->
  exists t, Forall2 (fun e v => exists q, e = Some q /\ (q == affine mn mx v)%Q) t (leading ws) /\
  spe_read size mn mx (Some ws) =
    match Nat.compare (length (leading ws)) size with
    | Lt => WrongCount (length (leading ws))
    | Eq => Loaded t
    | Gt => Overrun
    end.
Proof.
  intros size mn mx ws L. unfold spe_read. rewrite qlt_not_le_bool by auto.
  set (scale := ((mx - mn) / (model_2_max - model_2_min))%Q).
  set (shift := (mn - scale * model_2_min)%Q).
  exists (map (fun v => Some (v * scale + shift)%Q) (leading ws)). split.
  - induction (leading ws) as [|v vs IH]; cbn [map]; constructor; auto.
    eexists. split; [reflexivity|]. unfold affine, shift. change file_min with model_2_min. change file_max with model_2_max. fold scale. ring.
  - rewrite spe_loop_res by lia. cbv zeta. rewrite repeat_length. cbn [plus firstn app].
    destruct (Nat.compare_spec (length (leading ws)) size) as [E|E|E].
    + rewrite E, Nat.leb_refl, Nat.eqb_refl. rewrite skipn_all2 by (rewrite repeat_length; lia).
      now rewrite app_nil_r.
    + replace (length (leading ws) <=? size) with true by (symmetry; apply Nat.leb_le; lia).
      replace (length (leading ws) =? size) with false by (symmetry; apply Nat.eqb_neq; lia). reflexivity.
    + replace (length (leading ws) <=? size) with false by (symmetry; apply Nat.leb_gt; lia). reflexivity.
Qed.

Lemma affine_range : forall mn mx v, (mn < mx)%Q -> (file_min <= v)%Q -> (v <= file_max)%Q ->
  (mn <= affine mn mx v)%Q /\ (affine mn mx v <= mx)%Q.
Proof.
  intros mn mx v L A B. unfold affine.
  assert (D : (0 < file_max - file_min)%Q) by reflexivity.
  set (s := ((v - file_min) / (file_max - file_min))%Q).
  assert (S0 : (0 <= s)%Q) by (apply Qle_shift_div_l; lra).
  assert (S1 : (s <= 1)%Q) by (apply Qle_shift_div_r; lra).
  assert (E : ((v - file_min) * ((mx - mn) / (file_max - file_min)) == s * (mx - mn))%Q)
    by (unfold s; field; lra).
  rewrite E. split; nra.
Qed.
Lemma affine_id : forall v, (affine file_min file_max v == v)%Q.
Proof. intros v. unfold affine. field. unfold file_max, file_min. lra. Qed.

(** Tarbert lookup. *)
Lemma tar_geometry : forall dd, dd < 3 ->
  (tar_ur dd == inject_Z (tar_cells dd) * delta dd)%Q /\ (0 < delta dd)%Q.
Proof. intros dd L. destruct dd as [|[|[|dd]]]; [split; reflexivity..|lia]. Qed.

Lemma tar_cells_pos : forall dd, (0 < tar_cells dd)%Z.
Proof. intros [|[|dd]]; reflexivity. Qed.

Lemma interval_bounds : forall x dd, dd < 3 -> (0 <= x dd)%Q -> (x dd <= tar_ur dd)%Q ->
  (0 <= interval x dd <= tar_cells dd)%Z /\
  (inject_Z (interval x dd) * delta dd <= x dd)%Q /\
  (x dd < inject_Z (interval x dd + 1) * delta dd)%Q.
Proof.
  intros x dd L A B. destruct (tar_geometry dd L) as (G & P). unfold interval.
  set (f := Qfloor (x dd / delta dd)).
  destruct (floor_bounds _ f eq_refl) as (F1 & F2). clearbody f.
  set (t := (x dd / delta dd)%Q) in *.
  assert (E : (x dd == t * delta dd)%Q) by (unfold t; field; lra). clearbody t.
  assert (T0 : (0 <= t)%Q) by nra.
  assert (T1 : (t <= inject_Z (tar_cells dd))%Q) by (rewrite G, E in B; nra).
  split; [split|split].
  - assert (0 < f + 1)%Z; [|lia]. apply inject_lt. change (inject_Z 0) with 0%Q. lra.
  - apply inject_le. lra.
  - rewrite E. nra.
  - rewrite E. nra.
Qed.

Lemma interval_cell : forall x dd, dd < 3 -> (0 <= x dd)%Q -> (x dd < tar_ur dd)%Q ->
  in_cell (tar_cells dd) 0 (tar_ur dd) (x dd) (interval x dd).
Proof.
  intros x dd L A B. destruct (tar_geometry dd L) as (G & P).
  destruct (interval_bounds x dd L A ltac:(lra)) as ((I0 & I1) & I2 & I3).
  set (i := interval x dd) in *. clearbody i. set (n := tar_cells dd) in *.
  assert (NP : (0 < inject_Z n)%Q)
    by (change 0%Q with (inject_Z 0); rewrite <- Zlt_Qlt; apply tar_cells_pos).
  unfold in_cell.
  assert (LT : (i < n)%Z).
  { apply inject_lt. rewrite G in B. nra. }
  split; [lia|]. split; [|left]; rewrite G.
  - setoid_replace (inject_Z i * (inject_Z n * delta dd - 0))%Q with (inject_Z n * (inject_Z i * delta dd))%Q by ring.
    nra.
  - setoid_replace (inject_Z (i + 1) * (inject_Z n * delta dd - 0))%Q
      with (inject_Z n * (inject_Z (i + 1) * delta dd))%Q by ring.
    nra.
Qed.

(** Interval numbers of a point in dimension [dim]. *)
Definition place (dim : nat) (x : nat -> Q) : nat -> Z :=
  fun dd => if Nat.ltb dd dim then interval x dd else 0%Z.

Lemma tar_lookup : forall dim t x m,
  (dim = 2 \/ dim = 3) -> length t = tar_size ->
  (forall dd, dd < dim -> (0 <= x dd)%Q /\ (x dd <= tar_ur dd)%Q) ->
  exists y', tar_evaluate dim (Some t) x m = Value y' /\
    (forall k, k < dim -> nth_error t (entry k (place dim x)) = Some (y' k k)) /\
    (forall i j, i <> j -> y' i j = m i j).
Proof.
  intros dim t x m Hd Lt D.
  assert (LZ : Z.of_nat (length t) = 3366000%Z) by (rewrite Lt; apply tar_size_Z).
  assert (Bd : forall dd, dd < dim -> (0 <= interval x dd <= tar_cells dd)%Z).
  { intros dd L. destruct (D dd L). destruct Hd; apply interval_bounds; auto; lia. }
  destruct Hd; subst dim.
  - pose proof (Bd 0 ltac:(lia)) as B0. pose proof (Bd 1 ltac:(lia)) as B1. unfold tar_cells in *.
    set (p := place 2 x).
    assert (EN : (interval x 0 + interval x 1 * 60 = number p)%Z)
      by (unfold number, p, place; cbn [Nat.ltb Nat.leb]; ring).
    assert (Bn : (0 <= number p <= 13260)%Z) by lia.
    destruct (access_in t (number p)) as (a & A1 & A2); [lia|].
    destruct (access_in t (number p + 1122000)) as (b & B2 & B3); [lia|].
    exists (set_diag (set_diag m 0 a) 1 b). split; [|split].
    + unfold tar_evaluate. rewrite EN, A1, B2. reflexivity.
    + intros k L. unfold entry. destruct k as [|[|k]]; [exact A2| |lia].
      replace (Z.of_nat 1 * 1122000 + number p)%Z with (number p + 1122000)%Z by lia. exact B3.
    + intros i j N. unfold set_diag.
      destruct (Nat.eqb_spec i 1), (Nat.eqb_spec j 1); try lia; cbn [andb];
      destruct (Nat.eqb_spec i 0), (Nat.eqb_spec j 0); try lia; reflexivity.
  - pose proof (Bd 0 ltac:(lia)) as B0. pose proof (Bd 1 ltac:(lia)) as B1. pose proof (Bd 2 ltac:(lia)) as B2.
    unfold tar_cells in *. set (p := place 3 x).
    assert (EN : (interval x 0 + interval x 1 * 60 + interval x 2 * 220 * 60 = number p)%Z)
      by (unfold number, p, place; cbn [Nat.ltb Nat.leb]; ring).
    assert (Bn : (0 <= number p <= 475260)%Z) by lia.
    destruct (access_in t (number p)) as (a & A1 & A2); [lia|].
    destruct (access_in t (number p + 1122000)) as (b & B3 & B4); [lia|].
    destruct (access_in t (number p + 2244000)) as (c & C1 & C2); [lia|].
    exists (set_diag (set_diag (set_diag m 0 a) 1 b) 2 c). split; [|split].
    + unfold tar_evaluate. rewrite EN, A1, B3, C1. reflexivity.
    + intros k L. rewrite diag3 by auto. unfold entry.
      destruct k as [|[|[|k]]]; [exact A2| | |lia].
      * replace (Z.of_nat 1 * 1122000 + number p)%Z with (number p + 1122000)%Z by lia. exact B4.
      * replace (Z.of_nat 2 * 1122000 + number p)%Z with (number p + 2244000)%Z by lia. exact C2.
    + intros i j N. apply off3; auto.
Qed.

Lemma interval_upper : forall x dd, dd < 3 -> (x dd == tar_ur dd)%Q -> interval x dd = tar_cells dd.
Proof.
  intros x dd L E. destruct (tar_geometry dd L) as (G & P).
  destruct (interval_bounds x dd L) as ((I0 & I1) & I2 & I3).
  - rewrite E. destruct dd as [|[|[|dd]]]; [discriminate..|lia].
  - rewrite E. apply Qle_refl.
  - assert (tar_cells dd < interval x dd + 1)%Z; [|lia].
    apply inject_lt. rewrite E, G in I3. nra.
Qed.

(** Tarbert reader. *)
Lemma tar_loop_fail : forall room ws sp v c t,
  tar_loop room {| s_words := ws; s_space := sp; s_fail := true; s_eof := false |} v c t = Overrun.
Proof. induction room as [|room IH]; intros ws sp v c t; cbn; auto. Qed.

Lemma removelast_cons : forall (q : Q) r, r <> [] -> removelast (q :: r) = q :: removelast r.
Proof. intros q r N. destruct r; [congruence|reflexivity]. Qed.

Lemma tar_loop_res : forall vs sp v c t room, room = length t - c -> c <= length t ->
  tar_loop room {| s_words := map Num vs; s_space := sp; s_fail := false; s_eof := false |} (Some v) c t =
  let E := v :: kept vs sp in
  if Nat.leb (length E) room then Loaded (firstn c t ++ map Some E ++ skipn (c + length E) t) else Overrun.
Proof.
  induction vs as [|q vs IH]; intros sp v c t room R L; cbv zeta.
  - destruct room as [|room].
    + cbn. destruct sp; reflexivity.
    + assert (K : kept [] sp = []) by (destruct sp; reflexivity). rewrite K. cbn.
      assert (LE : tar_loop room {| s_words := []; s_space := sp; s_fail := true; s_eof := true |}
                     (Some v) (S c) (upd t c (Some v)) = Loaded (upd t c (Some v))) by (destruct room; reflexivity).
      rewrite LE. f_equal. rewrite upd_split by lia. now rewrite Nat.add_1_r.
  - destruct room as [|room].
    + cbn [tar_loop s_eof length Nat.leb]. reflexivity.
    + cbn [tar_loop s_eof map]. unfold extract. cbn [s_fail s_eof orb s_words s_space].
      destruct vs as [|q' vs'].
      * cbn [map]. destruct sp; cbn [negb].
        -- change (@nil word) with (map Num []). rewrite (IH true q (S c) (upd t c (Some v)) room)
             by (rewrite upd_length; lia). cbv zeta.
           cbn [kept length map Nat.leb]. destruct room as [|room]; [reflexivity|]. cbn [Nat.leb].
           f_equal. rewrite firstn_upd_S, skipn_upd by lia. rewrite <- app_assoc.
           replace (S c + 1) with (c + 2) by lia. reflexivity.
        -- assert (LE : tar_loop room {| s_words := []; s_space := false; s_fail := false; s_eof := true |}
                     (Some q) (S c) (upd t c (Some v)) = Loaded (upd t c (Some v))) by (destruct room; reflexivity).
           rewrite LE. cbn. f_equal. rewrite upd_split by lia. now rewrite Nat.add_1_r.
      * cbn [map]. change (Num q' :: map Num vs') with (map Num (q' :: vs')).
        rewrite (IH sp q (S c) (upd t c (Some v)) room) by (rewrite upd_length; lia). cbv zeta.
        assert (K : kept (q :: q' :: vs') sp = q :: kept (q' :: vs') sp)
          by (unfold kept; destruct sp; [reflexivity|apply removelast_cons; discriminate]).
        rewrite K. set (E := kept (q' :: vs') sp). cbn [length map Nat.leb].
        destruct room as [|room]; [reflexivity|]. cbn [Nat.leb].
        destruct (length E <=? room); [|reflexivity].
        f_equal. rewrite firstn_upd_S, skipn_upd by lia. rewrite <- app_assoc.
        replace (S c + S (length E)) with (c + S (S (length E))) by lia. reflexivity.
Qed.

Lemma skipn_repeat : forall A (x : A) n m, skipn m (repeat x n) = repeat x (n - m).
Proof. induction n as [|n IH]; intros m; destruct m; simpl; auto. Qed.

Lemma tar_read_numbers : forall size vs sp,
  tar_read size (Some (map Num vs, sp)) =
  Some (if Nat.leb (length (kept vs sp)) size
        then Loaded (map Some (kept vs sp) ++ repeat None (size - length (kept vs sp)))
        else Overrun).
Proof.
  intros size vs sp. unfold tar_read, extract. cbn [s_fail s_eof orb s_words s_space].
  destruct vs as [|q vs]; cbn [map].
  - assert (K : kept [] sp = []) by (destruct sp; reflexivity). rewrite K. cbn.
    rewrite Nat.sub_0_r. destruct size; reflexivity.
  - destruct vs as [|q' vs']; cbn [map].
    + destruct sp; cbn [negb].
      * change (@nil word) with (map Num []).
        rewrite tar_loop_res by (rewrite ?repeat_length; lia). cbv zeta. cbn [kept]. f_equal.
        destruct (Nat.leb (length [q]) size) eqn:E; auto. cbn [firstn app map]. now rewrite skipn_repeat.
      * destruct size; reflexivity.
    + change (Num q' :: map Num vs') with (map Num (q' :: vs')).
      rewrite tar_loop_res by (rewrite ?repeat_length; lia). cbv zeta.
      assert (K : kept (q :: q' :: vs') sp = q :: kept (q' :: vs') sp)
          by (unfold kept; destruct sp; [reflexivity|apply removelast_cons; discriminate]).
      rewrite <- K. f_equal. destruct (Nat.leb (length (kept (q :: q' :: vs') sp)) size) eqn:E; auto.
      cbn [firstn app plus]. now rewrite skipn_repeat.
Qed.

Lemma tar_loop_junk : forall vs r sp v c t room,
  tar_loop room {| s_words := map Num vs ++ Junk :: r; s_space := sp; s_fail := false; s_eof := false |} v c t
    = Overrun.
Proof.
  induction vs as [|q vs IH]; intros r sp v c t room.
  - destruct room; cbn; auto. apply tar_loop_fail.
  - destruct room; [reflexivity|]. cbn [map app tar_loop s_eof]. unfold extract. cbn [s_fail s_eof orb s_words s_space].
    destruct vs as [|q' vs']; cbn [map app]; apply (IH r).
Qed.

Lemma tar_read_junk : forall size vs r sp,
  tar_read size (Some (map Num vs ++ Junk :: r, sp)) = Some Overrun.
Proof.
  intros size vs r sp. unfold tar_read, extract. cbn [s_fail s_eof orb s_words s_space].
  destruct vs as [|q vs]; cbn [map app].
  - now rewrite tar_loop_fail.
  - f_equal. destruct vs as [|q' vs']; cbn [map app]; [apply (tar_loop_junk [])|apply (tar_loop_junk (q' :: vs'))].
Qed.

Lemma words_split : forall ws, all_numbers ws \/ exists vs r, ws = map Num vs ++ Junk :: r.
Proof.
  induction ws as [|w ws IH]; [left; intros w []|].
  destruct w as [q|].
  - destruct IH as [IH|(vs & r & ->)].
    + left. intros w [<-|I]; eauto.
    + right. exists (q :: vs), r. reflexivity.
  - right. exists [], ws. reflexivity.
Qed.

(** Entry reached from interval numbers one past the end. *)
Lemma number_past_y : forall w, w 1 = 220%Z ->
  number w = number (fun dd => match dd with 0 => w 0 | 1 => 0%Z | _ => (w 2%nat + 1)%Z end).
Proof. intros w E. unfold number. rewrite E. ring. Qed.
