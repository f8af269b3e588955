(** Proofs for C86. *)
From Coq Require Import List Arith ZArith QArith Lia Lqa Bool.
From Verif Require Import Util GridModel VisModel VisSpec.
Import ListNotations.
Open Scope Z_scope.

Lemma inside_unit : forall lo hi y, (lo < hi)%Q ->
  (Qle_bool 0 ((y - lo) / (hi - lo)) && Qle_bool ((y - lo) / (hi - lo)) 1 = true <->
   (lo <= y /\ y <= hi)%Q).
Proof.
  intros lo hi y L. rewrite andb_true_iff, !Qle_bool_iff.
  assert (P : (0 < hi - lo)%Q) by lra.
  split; intros (A & B); split.
  - apply (Qmult_le_compat_r _ _ (hi - lo)) in A; [|lra].
    setoid_replace ((y - lo) / (hi - lo) * (hi - lo))%Q with (y - lo)%Q in A by (field; lra). lra.
  - apply (Qmult_le_compat_r _ _ (hi - lo)) in B; [|lra].
    setoid_replace ((y - lo) / (hi - lo) * (hi - lo))%Q with (y - lo)%Q in B by (field; lra). lra.
  - apply Qle_shift_div_l; auto. lra.
  - apply Qle_shift_div_r; auto. lra.
Qed.

Lemma corners_nonempty : forall b, corners b <> [].
Proof.
  induction b as [|(lo, hi) b IH]; simpl; [discriminate|].
  destruct (corners b); [congruence|discriminate].
Qed.

Lemma forallb_map {A B} (p : B -> bool) (f : A -> B) : forall l,
  forallb p (map f l) = forallb (fun x => p (f x)) l.
Proof. induction l as [|x l IH]; simpl; auto. now rewrite IH. Qed.

Lemma forallb_const_and {A} (c : bool) (p : A -> bool) : forall l, l <> [] ->
  forallb (fun x => c && p x) l = c && forallb p l.
Proof.
  induction l as [|x l IH]; intros N; [congruence|]. simpl. destruct l as [|y l].
  - simpl. destruct c, (p x); reflexivity.
  - rewrite IH by discriminate. destruct c, (p x); reflexivity.
Qed.

Lemma covers_cons : forall lo hi r flo fhi fr,
  (lo < hi)%Q -> (flo <= fhi)%Q ->
  (covers_strict ((lo, hi) :: r) ((flo, fhi) :: fr) = true <->
   (lo <= flo /\ fhi <= hi)%Q /\ covers_strict r fr = true).
Proof.
  intros lo hi r flo fhi fr L F. unfold covers_strict. cbn [corners].
  rewrite forallb_app, !forallb_map. cbn [check_inside].
  rewrite !forallb_const_and by apply corners_nonempty.
  rewrite !andb_true_iff.
  pose proof (inside_unit lo hi flo L) as I1. pose proof (inside_unit lo hi fhi L) as I2.
  rewrite andb_true_iff in I1, I2. rewrite I1, I2. intuition lra.
Qed.

Lemma axis_inside : forall d c j, direction_ok d ->
  ((fst (coarse_interval d c) <= fst (fine_interval d j) /\
    snd (fine_interval d j) <= snd (coarse_interval d c))%Q <-> j / d_m d = c).
Proof.
  intros d c j (L & N & M). unfold coarse_interval, fine_interval, node. cbn [fst snd].
  set (w := ((d_hi d - d_lo d) / inject_Z (d_n d * d_m d))%Q).
  assert (N0 : (0 < inject_Z (d_n d))%Q) by (change 0%Q with (inject_Z 0); rewrite <- Zlt_Qlt; lia).
  assert (M0 : (0 < inject_Z (d_m d))%Q) by (change 0%Q with (inject_Z 0); rewrite <- Zlt_Qlt; lia).
  assert (W : ((d_hi d - d_lo d) / inject_Z (d_n d) == inject_Z (d_m d) * w)%Q).
  { unfold w. rewrite inject_Z_mult. field. split; lra. }
  assert (P : (0 < w)%Q).
  { unfold w. apply Qlt_shift_div_l.
    - change 0%Q with (inject_Z 0). rewrite <- Zlt_Qlt. nia.
    - lra. }
  rewrite W.
  assert (C : forall x y, (d_lo d + inject_Z x * (inject_Z (d_m d) * w) <= d_lo d + inject_Z y * w)%Q <-> x * d_m d <= y).
  { intros x y. rewrite Zle_Qle, inject_Z_mult. split; intros H.
    - apply (Qmult_le_r _ _ w P). lra.
    - apply (Qmult_le_r _ _ w P) in H. lra. }
  assert (D : forall x y, (d_lo d + inject_Z y * w <= d_lo d + inject_Z x * (inject_Z (d_m d) * w))%Q <-> y <= x * d_m d).
  { intros x y. rewrite Zle_Qle, inject_Z_mult. split; intros H.
    - apply (Qmult_le_r _ _ w P). lra.
    - apply (Qmult_le_r _ _ w P) in H. lra. }
  rewrite C, D. split.
  - intros (A & B). symmetry. apply (Z.div_unique j (d_m d) c (j - c * d_m d)); [left; lia|lia].
  - intros <-. pose proof (Z.div_mod j (d_m d) ltac:(lia)). pose proof (Z.mod_pos_bound j (d_m d) M). lia.
Qed.

Lemma interval_order : forall d c, direction_ok d ->
  (fst (coarse_interval d c) < snd (coarse_interval d c))%Q.
Proof.
  intros d c (L & N & M). unfold coarse_interval, node. cbn [fst snd].
  assert (N0 : (0 < inject_Z (d_n d))%Q) by (change 0%Q with (inject_Z 0); rewrite <- Zlt_Qlt; lia).
  assert (P : (0 < (d_hi d - d_lo d) / inject_Z (d_n d))%Q) by (apply Qlt_shift_div_l; lra).
  rewrite inject_Z_plus. change (inject_Z 1) with 1%Q. lra.
Qed.
Lemma fine_order : forall d c, direction_ok d ->
  (fst (fine_interval d c) <= snd (fine_interval d c))%Q.
Proof.
  intros d c (L & N & M). unfold fine_interval, node. cbn [fst snd].
  assert (N0 : (0 < inject_Z (d_n d * d_m d))%Q)
    by (change 0%Q with (inject_Z 0); rewrite <- Zlt_Qlt; nia).
  assert (P : (0 < (d_hi d - d_lo d) / inject_Z (d_n d * d_m d))%Q) by (apply Qlt_shift_div_l; lra).
  rewrite inject_Z_plus. change (inject_Z 1) with 1%Q. lra.
Qed.

Lemma covers_iff : forall ds cs js, Forall direction_ok ds -> multi_index ds cs -> multi_index ds js ->
  (covers_strict (coarse_box ds cs) (fine_box ds js) = true <-> parent ds js = cs).
Proof.
  induction ds as [|d ds IH]; intros cs js F C J; unfold multi_index in *.
  - destruct cs; [|discriminate]. destruct js; [|discriminate]. split; reflexivity.
  - destruct cs as [|c cs]; [discriminate|]. destruct js as [|j js]; [discriminate|].
    inversion F as [|? ? D F']; subst. simpl in C, J.
    unfold coarse_box, fine_box, parent. cbn [combine map fst snd].
    change (map (fun p => coarse_interval (fst p) (snd p)) (combine ds cs)) with (coarse_box ds cs).
    change (map (fun p => fine_interval (fst p) (snd p)) (combine ds js)) with (fine_box ds js).
    change (map (fun p => snd p / d_m (fst p)) (combine ds js)) with (parent ds js).
    rewrite (surjective_pairing (coarse_interval d c)), (surjective_pairing (fine_interval d j)).
    rewrite covers_cons by (apply interval_order || apply fine_order; auto).
    rewrite axis_inside by auto. rewrite (IH cs js F'); unfold multi_index; [|lia|lia].
    split; [intros (-> & ->); reflexivity|]. intros E. injection E as E1 E2. auto.
Qed.

Lemma mark_fold : forall c v fines f i,
  fold_left (fun f e => if covers_strict (ce_box c) (fe_box e) then set_cell f (fe_index e) v else f) fines f i =
  if existsb (fun e => Nat.eqb (fe_index e) i && covers_strict (ce_box c) (fe_box e)) fines then v else f i.
Proof.
  intros c v. induction fines as [|e fines IH]; intros f i; simpl; auto.
  rewrite IH. destruct (existsb _ fines) eqn:E; [now rewrite orb_true_r|]. rewrite orb_false_r.
  destruct (covers_strict _ _); [|now rewrite andb_false_r].
  unfold set_cell. rewrite Nat.eqb_sym, andb_true_r. destruct (Nat.eqb (fe_index e) i) eqn:X; auto.
Qed.

Lemma fine_walk_at : forall ds fines c i js, nth_error fines i = Some js ->
  existsb (fun e => Nat.eqb (fe_index e) i && covers_strict (ce_box c) (fe_box e)) (fine_walk ds fines) =
  covers_strict (ce_box c) (fine_box ds js).
Proof.
  intros ds fines c i js H. unfold fine_walk.
  assert (G : forall l s k, nth_error l k = Some js ->
    existsb (fun e => Nat.eqb (fe_index e) (s + k) && covers_strict (ce_box c) (fe_box e))
      (map (fun p => {| fe_index := fst p; fe_box := fine_box ds (snd p) |}) (combine (seq s (length l)) l)) =
    covers_strict (ce_box c) (fine_box ds js) /\ True).
  { induction l as [|x l IH]; intros s k K; [destruct k; discriminate|].
    split; auto. simpl. destruct k as [|k].
    - injection K as ->. rewrite Nat.add_0_r, Nat.eqb_refl. simpl.
      assert (Z : forall l s', (s < s')%nat ->
        existsb (fun e => Nat.eqb (fe_index e) s && covers_strict (ce_box c) (fe_box e))
          (map (fun p => {| fe_index := fst p; fe_box := fine_box ds (snd p) |}) (combine (seq s' (length l)) l)) = false).
      { clear. induction l as [|y l IH]; intros s' L; simpl; auto.
        rewrite (proj2 (Nat.eqb_neq s' s)) by lia. simpl. apply IH. lia. }
      rewrite Z by lia. now rewrite orb_false_r.
    - rewrite (proj2 (Nat.eqb_neq s (s + S k))) by lia. simpl.
      replace (s + S k)%nat with (S s + k)%nat by lia. apply (proj1 (IH (S s) k K)). }
  exact (proj1 (G fines 0%nat i H)).
Qed.

Lemma mark_value : forall ds id cs fines i js,
  Forall direction_ok ds -> multi_index ds cs -> multi_index ds js -> nth_error fines i = Some js ->
  let v := mark {| ce_id := id; ce_box := coarse_box ds cs |} (fine_walk ds fines) i in
  (parent ds js = cs -> v = Z.modulo id 4294967296) /\ (parent ds js <> cs -> v = 0).
Proof.
  intros ds id cs fines i js F C J H v. unfold v, mark. rewrite mark_fold, (fine_walk_at ds fines _ i js H).
  cbn [ce_box ce_id]. pose proof (covers_iff ds cs js F C J) as I.
  destruct (covers_strict _ _).
  - split; [reflexivity|]. intros N. destruct (N (proj1 I eq_refl)).
  - split; [|reflexivity]. intros E. apply I in E. discriminate.
Qed.

Lemma loop_enough : forall fines cs p, (length cs <= p)%nat ->
  subgrid_loop cs fines p = Some
    (map (fun c => Some (mark c fines)) cs ++ repeat None (p - length cs),
     map (fun _ => Some (fun _ => 0)) cs ++ repeat None (p - length cs)).
Proof.
  intros fines. induction cs as [|c cs IH]; intros p L; simpl in *.
  - now rewrite Nat.sub_0_r.
  - destruct p as [|p]; [lia|]. rewrite IH by lia. reflexivity.
Qed.
Lemma loop_short : forall fines cs p, (p < length cs)%nat -> subgrid_loop cs fines p = None.
Proof.
  intros fines. induction cs as [|c cs IH]; intros p L; simpl in *; [lia|].
  destruct p as [|p]; auto. now rewrite IH by lia.
Qed.
Lemma output_some : forall {A} (f : A -> nat -> Z) l, output_all (map (fun x => Some (f x)) l) = Some (map f l).
Proof. induction l as [|x l IH]; simpl; auto. now rewrite IH. Qed.
Lemma output_null : forall {A} (f : A -> nat -> Z) l k, (0 < k)%nat ->
  output_all (map (fun x => Some (f x)) l ++ repeat None k) = None.
Proof.
  induction l as [|x l IH]; intros k K; simpl; [destruct k; [lia|reflexivity]|]. now rewrite IH.
Qed.
