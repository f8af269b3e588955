(** Proofs for C55-C61, C72, C73. *)
From Coq Require Import ZArith QArith Qround Qminmax List Arith Bool Lia Lqa.
From Verif Require Import Util RandModel RandSpec.
Import ListNotations.
Open Scope nat_scope.

(** ** Partition. *)
Lemma pow_pos : forall k, 0 < 2 ^ k.
Proof. intros k. pose proof (Nat.pow_nonzero 2 k). lia. Qed.

Lemma partition_spec : forall dim n, 0 < n ->
  (partition dim n <> None <-> power_of_two n).
Proof.
  intros dim n P. unfold partition. destruct (Nat.eqb_spec (2 ^ Nat.log2 n) n) as [E|E].
  - split; intros _; [exists (Nat.log2 n); auto|discriminate].
  - split; [congruence|]. intros (k & ->). exfalso. apply E. now rewrite Nat.log2_pow2 by lia.
Qed.

Lemma product_map_pow : forall (f : nat -> nat) l, product (map (fun i => 2 ^ f i) l) = 2 ^ (list_sum (map f l)).
Proof.
  intros f. induction l as [|a l IH]; simpl; auto. unfold product in *. simpl. rewrite IH.
  now rewrite Nat.pow_add_r.
Qed.
Lemma sum_ind_seq : forall m n s, m <= n -> 
  list_sum (map (fun i => if Nat.ltb i (s + m) then 1 else 0) (seq s n)) = m.
Proof.
  induction m as [|m IH]; intros n s L.
  - clear L. revert s. induction n as [|n IHn]; intros s; [reflexivity|].
    change (list_sum (map (fun i => if Nat.ltb i (s + 0) then 1 else 0) (seq s (S n)))) with
      ((if Nat.ltb s (s + 0) then 1 else 0) + list_sum (map (fun i => if Nat.ltb i (s + 0) then 1 else 0) (seq (S s) n))).
    destruct (Nat.ltb_spec s (s + 0)); [lia|].
    rewrite <- (IHn (S s)) at 2. cbn [Nat.add]. f_equal. apply map_ext_in. intros i I. apply in_seq in I.
    destruct (Nat.ltb_spec i (s + 0)); destruct (Nat.ltb_spec i (S (s + 0))); lia.
  - destruct n as [|n]; [lia|].
    change (list_sum (map (fun i => if Nat.ltb i (s + S m) then 1 else 0) (seq s (S n)))) with
      ((if Nat.ltb s (s + S m) then 1 else 0) + list_sum (map (fun i => if Nat.ltb i (s + S m) then 1 else 0) (seq (S s) n))).
    destruct (Nat.ltb_spec s (s + S m)); [|lia].
    replace (s + S m) with (S s + m) by lia. rewrite IH by lia. reflexivity.
Qed.
Lemma sum_map_add : forall (f : nat -> nat) c l, list_sum (map (fun i => c + f i) l) = length l * c + list_sum (map f l).
Proof. intros f c. induction l as [|a l IH]; [reflexivity|]. cbn [map list_sum fold_right length]. unfold list_sum in *. cbn [fold_right]. rewrite IH. lia. Qed.

Lemma partition_some : forall dim n pp, 0 < dim -> partition dim n = Some pp ->
  length pp = dim /\ product pp = n /\ (forall p, In p pp -> power_of_two p) /\
  (forall i j, i < dim -> j < dim -> i <= j -> nth j pp 0 <= nth i pp 0 <= 2 * nth j pp 0).
Proof.
  intros dim n pp D E. unfold partition in E.
  destruct (Nat.eqb_spec (2 ^ Nat.log2 n) n) as [EN|]; [|discriminate]. injection E as <-.
  set (L := Nat.log2 n) in *. set (A := L / dim). set (M := L - A * dim).
  assert (HM : M < dim).
  { unfold M, A. pose proof (Nat.div_mod L dim ltac:(lia)). pose proof (Nat.mod_upper_bound L dim ltac:(lia)). nia. }
  split; [now rewrite map_length, seq_length|]. split; [|split].
  - rewrite (product_map_pow (fun i => A + if Nat.ltb i M then 1 else 0)).
    rewrite (sum_map_add (fun i => if Nat.ltb i M then 1 else 0)), seq_length.
    pose proof (sum_ind_seq M dim 0 ltac:(lia)) as SI. cbn [Nat.add] in SI. rewrite SI. rewrite <- EN at 1. f_equal.
    unfold M, A. pose proof (Nat.div_mod L dim ltac:(lia)). nia.
  - intros p I. apply in_map_iff in I. destruct I as (i & <- & _). eexists. reflexivity.
  - intros i j Li Lj Lij.
    assert (G : forall k, k < dim -> nth k (map (fun i0 => 2 ^ (A + (if Nat.ltb i0 M then 1 else 0))) (seq 0 dim)) 0
                 = 2 ^ (A + (if Nat.ltb k M then 1 else 0))).
    { intros k Lk. rewrite (nth_indep _ 0 ((fun i0 => 2 ^ (A + (if Nat.ltb i0 M then 1 else 0))) 0)) by (now rewrite map_length, seq_length).
      rewrite (map_nth (fun i0 => 2 ^ (A + (if Nat.ltb i0 M then 1 else 0)))). now rewrite seq_nth. }
    rewrite !G by auto. rewrite !Nat.pow_add_r.
    pose proof (pow_pos A). destruct (Nat.ltb_spec i M); destruct (Nat.ltb_spec j M); simpl; lia.
Qed.

(** ** Grid positions. *)
Lemma off_product : forall pp i, i <= length pp -> off pp i = product (firstn i pp).
Proof.
  intros pp. induction i as [|i IH]; intros L; [reflexivity|]. cbn [off]. rewrite IH by lia.
  assert (E : nth_error pp i = Some (nth i pp 0)) by (apply nth_error_nth'; lia).
  rewrite (firstn_S_nth_error _ _ _ _ E). unfold product. rewrite fold_right_app. cbn [fold_right].
  generalize (firstn i pp) as l. intros l. rewrite Nat.mul_1_r. generalize (nth i pp 0) as a. intros a.
  induction l as [|b l IHl]; simpl; [lia|]. rewrite <- Nat.mul_assoc, IHl. reflexivity.
Qed.
Lemma off_all : forall pp, off pp (length pp) = product pp.
Proof. intros. rewrite off_product by auto. now rewrite firstn_all. Qed.

(** Mixed radix number of a position. *)
Fixpoint radix (pp pos : list nat) (n : nat) : nat :=
  match n with O => 0 | S m => radix pp pos m + nth m pos 0 * off pp m end.

Lemma off_pos : forall pp n, (forall p, In p pp -> 0 < p) -> n <= length pp -> 0 < off pp n.
Proof.
  intros pp n H. induction n as [|n IH]; intros L; simpl; [lia|].
  assert (0 < nth n pp 0) by (apply H, nth_In; lia). specialize (IH ltac:(lia)). nia.
Qed.

Lemma radix_ext : forall pp a b n, (forall i, i < n -> nth i a 0 = nth i b 0) -> radix pp a n = radix pp b n.
Proof. intros pp a b. induction n as [|n IH]; simpl; intros H; auto. rewrite IH, (H n); auto. Qed.

Lemma position_loop_spec : forall pp n i, (forall p, In p pp -> 0 < p) -> n <= length pp -> i < off pp n ->
  length (position_loop pp n i) = n /\
  (forall k, k < n -> nth k (position_loop pp n i) 0 < nth k pp 0) /\
  radix pp (position_loop pp n i) n = i.
Proof.
  intros pp n. induction n as [|n IH]; intros i H L I.
  - simpl in *. repeat split; auto; try lia.
  - cbn [position_loop]. set (o := off pp n) in *. set (p := i / o).
    assert (O : 0 < o) by (apply off_pos; auto; lia).
    pose proof (Nat.div_mod i o ltac:(lia)) as DM. pose proof (Nat.mod_upper_bound i o ltac:(lia)) as MB. fold p in DM.
    assert (R : i - p * o < o) by nia.
    destruct (IH (i - p * o) H ltac:(lia) R) as (L1 & K & RX).
    split; [rewrite app_length, L1; simpl; lia|]. split.
    + intros k Lk. destruct (Nat.eq_dec k n) as [->|N].
      * rewrite app_nth2 by lia. rewrite L1, Nat.sub_diag. cbn [nth].
        cbn [off] in I. fold o in I. unfold p. apply Nat.div_lt_upper_bound; lia.
      * rewrite app_nth1 by lia. apply K. lia.
    + cbn [radix]. rewrite app_nth2 by lia. rewrite L1, Nat.sub_diag. cbn [nth]. fold o.
      rewrite (radix_ext pp (position_loop pp n (i - p * o) ++ [p]) (position_loop pp n (i - p * o)) n).
      * rewrite RX. nia.
      * intros k Lk. rewrite app_nth1 by lia. reflexivity.
Qed.

Lemma radix_lt : forall pp a n, n <= length pp -> (forall k, k < n -> nth k a 0 < nth k pp 0) -> radix pp a n < off pp n.
Proof.
  intros pp a. induction n as [|n IH]; intros L H; simpl; [lia|].
  specialize (IH ltac:(lia) ltac:(auto)). specialize (H n ltac:(lia)). nia.
Qed.
Lemma radix_inj : forall pp a b n, n <= length pp ->
  (forall k, k < n -> nth k a 0 < nth k pp 0) -> (forall k, k < n -> nth k b 0 < nth k pp 0) ->
  radix pp a n = radix pp b n -> forall k, k < n -> nth k a 0 = nth k b 0.
Proof.
  intros pp a b. induction n as [|n IH]; intros L HA HB E k Lk; [lia|]. cbn [radix] in E.
  pose proof (radix_lt pp a n ltac:(lia) ltac:(auto)). pose proof (radix_lt pp b n ltac:(lia) ltac:(auto)).
  assert (EN : nth n a 0 = nth n b 0) by nia.
  destruct (Nat.eq_dec k n) as [->|]; auto. rewrite EN in E. apply IH; auto; lia.
Qed.

Lemma Forall2_nth : forall pp pos, Forall2 (fun p q => q < p) pp pos <->
  length pos = length pp /\ forall k, k < length pp -> nth k pos 0 < nth k pp 0.
Proof.
  induction pp as [|p pp IH]; intros pos; split.
  - intros H. inversion H. simpl. split; auto. lia.
  - intros (L & _). destruct pos; [constructor|discriminate].
  - intros H. inversion H as [|? b ? l HB HL]; subst. apply IH in HL. destruct HL as (L & K). simpl. split; auto.
    intros [|k] Lk; auto. apply K. lia.
  - intros (L & K). destruct pos as [|b pos]; [discriminate|]. constructor; [apply (K 0); simpl; lia|].
    apply IH. split; auto. intros k Lk. apply (K (S k)). simpl. lia.
Qed.

Lemma grid_position_bijection : forall pp, (forall p, In p pp -> 0 < p) ->
  (forall i, i < product pp -> in_grid pp (grid_position i pp)) /\
  (forall i j, i < product pp -> j < product pp -> grid_position i pp = grid_position j pp -> i = j) /\
  (forall pos, in_grid pp pos -> exists i, i < product pp /\ grid_position i pp = pos).
Proof.
  intros pp H. unfold grid_position, in_grid.
  assert (S : forall i, i < product pp -> length (position_loop pp (length pp) i) = length pp /\
     (forall k, k < length pp -> nth k (position_loop pp (length pp) i) 0 < nth k pp 0) /\
     radix pp (position_loop pp (length pp) i) (length pp) = i).
  { intros i I. apply position_loop_spec; auto. rewrite off_all. auto. }
  split; [|split].
  - intros i I. destruct (S i I) as (L & K & _). apply Forall2_nth. auto.
  - intros i j I J E. destruct (S i I) as (_ & _ & RI). destruct (S j J) as (_ & _ & RJ).
    rewrite <- RI, <- RJ, E. reflexivity.
  - intros pos F. apply Forall2_nth in F. destruct F as (L & K).
    pose proof (radix_lt pp pos (length pp) (le_n _) K) as R. rewrite off_all in R.
    exists (radix pp pos (length pp)). split; auto. destruct (S _ R) as (L1 & K1 & E1).
    apply nth_ext with 0 0; [lia|]. intros k Lk. rewrite L1 in Lk.
    apply (radix_inj pp _ pos (length pp)); auto.
Qed.

(** ** Ranges. *)
Lemma pow_divides : forall a b, 2 ^ b <= 2 ^ a -> 2 ^ a = (2 ^ a / 2 ^ b) * 2 ^ b /\ 0 < 2 ^ a / 2 ^ b.
Proof.
  intros a b L. assert (b <= a).
  { destruct (Nat.le_gt_cases b a); auto. apply (Nat.pow_lt_mono_r 2) in H; lia. }
  replace a with ((a - b) + b) by lia. rewrite Nat.pow_add_r. pose proof (pow_pos b).
  rewrite Nat.div_mul by lia. split; [lia|apply pow_pos].
Qed.

Lemma range_near : forall N proc pos ov i, N = N / proc * proc -> pos < proc ->
  (in_range (i_min N proc pos ov, i_max N proc pos ov) i <-> near_block N (N / proc) pos ov i).
Proof.
  intros N proc pos ov i E P. unfold in_range, near_block, i_min, i_max. cbn [fst snd].
  set (len := N / proc) in *. 
  assert (B : len * (pos + 1) <= N) by nia.
  assert (C : len * (pos + 1) = len * pos + len) by nia.
  set (lo := len * pos) in *. set (hi := len * (pos + 1)) in *. clearbody lo hi len. split.
  - intros (A1 & A2). split; [lia|].
    destruct (Nat.le_gt_cases i lo); [exists lo; lia|].
    destruct (Nat.le_gt_cases hi i); [exists hi; lia|]. exists i; lia.
  - intros (A1 & b & A2). lia.
Qed.

Lemma ranges_meet : forall N proc pos pos' i, N = N / proc * proc -> pos < pos' -> pos' < proc ->
  in_range (i_min N proc pos 0, i_max N proc pos 0) i ->
  in_range (i_min N proc pos' 0, i_max N proc pos' 0) i -> 0 < N / proc ->
  pos' = pos + 1 /\ i = N / proc * pos'.
Proof.
  intros N proc pos pos' i E L P A B Z.
  apply range_near in A; [|auto|lia]. apply range_near in B; [|auto|lia].
  destruct A as (_ & b & ? & ? & ?). destruct B as (_ & c & ? & ? & ?).
  assert (b = i) by lia. assert (c = i) by lia. subst b c. set (len := N / proc) in *. clearbody len. nia.
Qed.

Lemma ranges_too_many : forall N proc ov, N < proc -> ov < N ->
  forall pos, pos < proc -> ~ in_range (i_min N proc pos ov, i_max N proc pos ov) N.
Proof.
  intros N proc ov L O pos P (A & B). unfold i_max in B. cbn [fst snd] in B.
  rewrite Nat.div_small in B by lia. simpl in B. lia.
Qed.

(** ** Redistribution. *)
Lemma nth_error_firstn : forall A n (l : list A) i, i < n -> nth_error (firstn n l) i = nth_error l i.
Proof. induction n; intros l i L; [lia|]. destruct l; [now destruct i|]. destruct i; simpl; auto. apply IHn. lia. Qed.
Lemma nth_error_skipn' : forall A n (l : list A) i, nth_error (skipn n l) i = nth_error l (n + i).
Proof. induction n; intros l i; simpl; auto. destruct l; [now destruct i|]. apply IHn. Qed.

Lemma mpi_get_spec : forall ws rank w disp count, nth_error ws rank = Some w -> disp + count <= length w ->
  exists l, mpi_get ws rank disp count = Some l /\ length l = count /\
    forall i, i < count -> nth_error l i = nth_error w (disp + i).
Proof.
  intros ws rank w disp count E L. unfold mpi_get. rewrite E. apply Nat.leb_le in L as L'. rewrite L'.
  eexists. split; [reflexivity|]. split.
  - rewrite firstn_length, skipn_length. lia.
  - intros i I. rewrite nth_error_firstn by auto. apply nth_error_skipn'.
Qed.

Lemma gets_spec : forall A (f : A -> option (list complex)) m l,
  (forall k a, nth_error l k = Some a -> exists x, f a = Some x /\ length x = m) ->
  exists r, gets f l = Some r /\ length r = length l * m /\
    forall k a x i, nth_error l k = Some a -> f a = Some x -> i < m -> nth_error r (k * m + i) = nth_error x i.
Proof.
  intros A f m l. induction l as [|a l IH]; intros H.
  - exists []. simpl. repeat split; auto. intros k a x i E. destruct k; discriminate.
  - destruct (H 0 a eq_refl) as (x & Fx & Lx). destruct IH as (r & G & L & N).
    { intros k b E. apply (H (S k) b E). }
    exists (x ++ r). simpl. rewrite Fx, G. split; auto. split; [rewrite app_length; lia|].
    intros k b y i E Fy I. destruct k as [|k].
    + injection E as <-. rewrite Fx in Fy. injection Fy as <-. simpl. now rewrite nth_error_app1 by lia.
    + rewrite nth_error_app2 by nia. replace (S k * m + i - length x) with (k * m + i) by nia.
      eapply N; eauto.
Qed.

Lemma row_of : forall n0 nProc i N, 0 < n0 -> n0 * nProc = 2 * N -> i <= N -> 0 < N ->
  i / n0 < nProc /\ i mod n0 < n0 /\ (i / n0) * n0 + i mod n0 = i.
Proof.
  intros n0 nProc i N P E L PN. pose proof (Nat.div_mod i n0 ltac:(lia)).
  pose proof (Nat.mod_upper_bound i n0 ltac:(lia)). split; [apply Nat.div_lt_upper_bound; lia|]. lia.
Qed.

Lemma nth_error_seq : forall a n k, k < n -> nth_error (seq a n) k = Some (a + k).
Proof. intros. rewrite (nth_error_nth' _ 0) by (now rewrite seq_length). now rewrite seq_nth. Qed.
Lemma nth_error_seq_inv : forall a n k x, nth_error (seq a n) k = Some x -> k < n /\ x = a + k.
Proof.
  intros a n k x E. assert (k < n) by (apply nth_error_lt in E; now rewrite seq_length in E).
  rewrite nth_error_seq in E by auto. injection E as <-. auto.
Qed.

Lemma redistribute2_spec : forall N n0 nProc ws g r0 r1,
  layers2 N n0 nProc ws g -> proper N r0 -> proper N r1 ->
  exists perm, redistribute2 N n0 ws r0 r1 = Some perm /\ holds2 perm r0 r1 g.
Proof.
  intros N n0 nProc ws g (a0, b0) (a1, b1) (LW & P & E & W) (A0 & B0) (A1 & B1). simpl in *.
  unfold redistribute2. destruct (Nat.eqb_spec n0 0); [lia|].
  assert (ROW : forall i, i <= N -> exists w x, nth_error ws (i / n0) = Some w /\
     mpi_get ws (i / n0) (i mod n0 * (2 * N) + a1) (size (a1, b1)) = Some x /\ length x = size (a1, b1) /\
     forall j, j < size (a1, b1) -> nth_error x j = Some (g i (a1 + j))).
  { intros i I. destruct (row_of n0 nProc i N P E I ltac:(lia)) as (R & M & D).
    destruct (nth_error ws (i / n0)) as [w|] eqn:EW; [|apply nth_error_None in EW; lia].
    destruct (W _ _ EW) as (LL & V). unfold size. cbn [fst snd].
    destruct (mpi_get_spec ws (i / n0) w (i mod n0 * (2 * N) + a1) (b1 - a1 + 1) EW) as (x & G & Lx & Nx); [nia|].
    exists w, x. split; auto. split; auto. split; auto. intros j J. rewrite Nx by auto.
    rewrite <- Nat.add_assoc. rewrite V by lia. rewrite D. reflexivity. }
  cbn [fst]. destruct (gets_spec _ (fun i => mpi_get ws (i / n0) (i mod n0 * (2 * N) + a1) (size (a1, b1)))
      (size (a1, b1)) (seq a0 (size (a0, b0)))) as (r & G & L & NN).
  { intros k i Ei. apply nth_error_seq_inv in Ei. destruct Ei as (Lk & ->). unfold size in Lk; cbn [fst snd] in Lk.
    destruct (ROW (a0 + k) ltac:(lia)) as (w & x & _ & Gx & Lx & _). eauto. }
  exists r. split; auto. split; [now rewrite seq_length in L|].
  intros j0 j1 J0 J1. cbn [fst]. assert (K0 : a0 + j0 <= N) by (unfold size in J0; cbn [fst snd] in J0; lia).
  destruct (ROW (a0 + j0) K0) as (w & x & _ & Gx & Lx & Vx).
  rewrite (NN j0 (a0 + j0) x j1); auto. now apply nth_error_seq.
Qed.

Lemma redistribute3_spec : forall N n0 nProc ws g r0 r1 r2,
  layers3 N n0 nProc ws g -> proper N r0 -> proper N r1 -> proper N r2 ->
  exists perm, redistribute3 N n0 ws r0 r1 r2 = Some perm /\ holds3 perm r0 r1 r2 g.
Proof.
  intros N n0 nProc ws g (a0, b0) (a1, b1) (a2, b2) (LW & P & E & W) (A0 & B0) (A1 & B1) (A2 & B2). simpl in *.
  unfold redistribute3. destruct (Nat.eqb_spec n0 0); [lia|]. cbn [fst].
  set (s0 := size (a0, b0)). set (s1 := size (a1, b1)). set (s2 := size (a2, b2)).
  assert (S0 : s0 = b0 - a0 + 1) by reflexivity. assert (S1 : s1 = b1 - a1 + 1) by reflexivity.
  assert (S2 : s2 = b2 - a2 + 1) by reflexivity. clearbody s0 s1 s2.
  set (F := fun i j => mpi_get ws (i / n0) (i mod n0 * (4 * N * N) + 2 * N * a1 + a2 + j * (2 * N)) s2).
  assert (ROW : forall i j, i <= N -> j < s1 -> exists x, F i j = Some x /\ length x = s2 /\
     forall k, k < s2 -> nth_error x k = Some (g i (a1 + j) (a2 + k))).
  { intros i j I J. destruct (row_of n0 nProc i N P E I ltac:(lia)) as (R & M & D).
    destruct (nth_error ws (i / n0)) as [w|] eqn:EW; [|apply nth_error_None in EW; lia].
    destruct (W _ _ EW) as (LL & V).
    assert (D1 : i mod n0 * (4 * N * N) + 2 * N * a1 + a2 + j * (2 * N) = (i mod n0 * (2 * N) + (a1 + j)) * (2 * N) + a2) by ring.
    assert (BB : (i mod n0 * (2 * N) + (a1 + j)) + 1 <= n0 * (2 * N)) by nia.
    destruct (mpi_get_spec ws (i / n0) w (i mod n0 * (4 * N * N) + 2 * N * a1 + a2 + j * (2 * N)) s2 EW) as (x & G & Lx & Nx).
    { rewrite D1. assert ((i mod n0 * (2 * N) + (a1 + j)) * (2 * N) + 2 * N <= n0 * (2 * N) * (2 * N)) by nia. lia. }
    exists x. split; auto. split; auto. intros k K. rewrite Nx by auto.
    rewrite D1, <- (Nat.add_assoc _ a2 k). rewrite V by lia. rewrite D. reflexivity. }
  assert (PLANE : forall i, i <= N -> exists y, gets (F i) (seq 0 s1) = Some y /\ length y = s1 * s2 /\
     forall j k, j < s1 -> k < s2 -> nth_error y (j * s2 + k) = Some (g i (a1 + j) (a2 + k))).
  { intros i I. destruct (gets_spec _ (F i) s2 (seq 0 s1)) as (y & G & L & NN).
    { intros k j Ej. apply nth_error_seq_inv in Ej. destruct Ej as (Lk & ->).
      destruct (ROW i (0 + k) I Lk) as (x & Fx & Lx & _). eauto. }
    exists y. split; auto. split; [now rewrite seq_length in L|]. intros j k J K.
    destruct (ROW i j I J) as (x & Fx & Lx & Vx).
    rewrite (NN j j x k); auto. apply nth_error_seq; auto. }
  destruct (gets_spec _ (fun i => gets (F i) (seq 0 s1)) (s1 * s2) (seq a0 s0)) as (r & G & L & NN).
  { intros k i Ei. apply nth_error_seq_inv in Ei. destruct Ei as (Lk & ->).
    destruct (PLANE (a0 + k) ltac:(lia)) as (y & Gy & Ly & _). eauto. }
  exists r. split; auto. unfold holds3. cbn [fst].
  replace (size (a0, b0)) with s0 by auto. replace (size (a1, b1)) with s1 by auto. replace (size (a2, b2)) with s2 by auto.
  split; [now rewrite seq_length in L|].
  intros j0 j1 j2 J0 J1 J2. destruct (PLANE (a0 + j0) ltac:(lia)) as (y & Gy & Ly & Vy).
  replace ((j0 * s1 + j1) * s2 + j2) with (j0 * (s1 * s2) + (j1 * s2 + j2)) by ring.
  rewrite (NN j0 (a0 + j0) y); auto; [now apply nth_error_seq|nia].
Qed.

(** ** Evaluation. *)
Lemma q_le : forall a b, (q a <= q b)%Q <-> a <= b.
Proof. intros. unfold q. rewrite <- Zle_Qle. lia. Qed.
Lemma q_add : forall a b, (q (a + b) == q a + q b)%Q.
Proof. intros. unfold q. rewrite Nat2Z.inj_add, inject_Z_plus. reflexivity. Qed.

Lemma locate_step : forall N r rs x0 xs cell, fst r <= snd r ->
  point_in N r x0 ->
  exists j t, j < size r /\ cell_of (x0 * q N) (fst r + j) t /\
    (j = size r - 1 <-> (x0 * q N == q (snd r))%Q) /\
    locate N (r :: rs) (x0 :: xs) cell =
    match locate N rs xs (size r * cell + j) with
    | None => None
    | Some (c, ts) => Some (c, t :: ts)
    end.
Proof.
  intros N (a, b) rs x0 xs cell AB (H1 & H2). cbn [fst snd] in *.
  set (p := (x0 * q N)%Q) in *. set (p' := (p - q a)%Q). set (j := Qfloor p').
  assert (F1 : (inject_Z j <= p')%Q) by apply Qfloor_le.
  assert (F2 : (p' < inject_Z (j + 1))%Q) by apply Qlt_floor.
  assert (J0 : (0 <= j)%Z).
  { assert (H : (0 <= p')%Q) by (unfold p'; lra). apply Qfloor_resp_le in H. change (Qfloor 0) with 0%Z in H. exact H. }
  assert (QB : (q b == q a + inject_Z (Z.of_nat (b - a)))%Q).
  { replace b with (a + (b - a)) at 1 by lia. apply q_add. }
  assert (J1 : (j <= Z.of_nat (b - a))%Z).
  { assert (H : (p' <= inject_Z (Z.of_nat (b - a)))%Q) by (unfold p'; lra).
    apply Qfloor_resp_le in H. rewrite Qfloor_Z in H. exact H. }
  exists (Z.to_nat j), (p' - inject_Z j)%Q.
  assert (QJ : (q (a + Z.to_nat j) == q a + inject_Z j)%Q).
  { rewrite q_add. unfold q at 2. rewrite Z2Nat.id by auto. reflexivity. }
  unfold size. cbn [fst snd].
  split; [lia|]. split; [|split].
  - split; [|split].
    + rewrite QJ. unfold p'. ring.
    + lra.
    + rewrite inject_Z_plus in F2. change (inject_Z 1) with 1%Q in F2. lra.
  - split; intros H.
    + assert (E : j = Z.of_nat (b - a)) by lia. rewrite E in F1. unfold p' in F1. lra.
    + assert (E : (p' == inject_Z (Z.of_nat (b - a)))%Q) by (unfold p'; lra).
      assert (j = Z.of_nat (b - a)); [|lia]. unfold j. rewrite E. apply Qfloor_Z.
  - cbn [locate fst snd]. fold (q N). fold p. fold (q a). fold (q b). fold p'. fold j.
    assert (B1 : Qle_bool (q a) p = true) by (now apply Qle_bool_iff).
    assert (B2 : Qle_bool p (q b) = true) by (now apply Qle_bool_iff).
    rewrite B1, B2. reflexivity.
Qed.

Lemma locate_out : forall N r rs x0 xs cell, ~ point_in N r x0 -> locate N (r :: rs) (x0 :: xs) cell = None.
Proof.
  intros N r rs x0 xs cell H. cbn [locate]. fold (q N). fold (q (fst r)). fold (q (snd r)).
  destruct (Qle_bool (q (fst r)) (x0 * q N)) eqn:E1; destruct (Qle_bool (x0 * q N) (q (snd r))) eqn:E2; auto.
  exfalso. apply H. split; now apply Qle_bool_iff.
Qed.

Lemma cell_unique : forall p i t j s, cell_of p i t -> cell_of p j s -> i = j /\ (t == s)%Q.
Proof.
  intros p i t j s (E1 & A1 & B1) (E2 & A2 & B2).
  assert (i = j).
  { assert (X : (q i < q (j + 1))%Q) by (rewrite q_add; change (q 1) with 1%Q; lra).
    assert (Y : (q j < q (i + 1))%Q) by (rewrite q_add; change (q 1) with 1%Q; lra).
    unfold q in X, Y. rewrite <- Zlt_Qlt in X, Y. lia. }
  subst. split; auto. lra.
Qed.

Lemma lin_mix : forall a b t, (lin a b t == (1 - t) * a + t * b)%Q.
Proof. intros. unfold lin. ring. Qed.

Lemma Qmax_compat : forall a b c, (a == b)%Q -> (Qmax a c == Qmax b c)%Q.
Proof. intros a b c E. now rewrite E. Qed.

Lemma perm_at_some : forall perm part c z, nth_error perm c = Some z ->
  perm_at perm part c = Some (part_of part z).
Proof. intros perm part c z E. unfold perm_at, part_of. rewrite E. destruct part; reflexivity. Qed.
Lemma perm_at_in : forall perm part c, c < length perm -> exists v, perm_at perm part c = Some v.
Proof.
  intros perm part c L. unfold perm_at. destruct (nth_error perm c) eqn:E; [eexists; reflexivity|].
  apply nth_error_None in E. lia.
Qed.
Lemma perm_at_out : forall perm part c, length perm <= c -> perm_at perm part c = None.
Proof. intros perm part c L. unfold perm_at. apply nth_error_None in L. now rewrite L. Qed.


Lemma last_but_one : forall (r : range) p j t, fst r < snd r -> j < size r ->
  cell_of p (fst r + j) t -> (size r - 2 <= j <-> (q (snd r - 1) <= p)%Q).
Proof.
  intros (a, b) p j t AB J (E & T0 & T1). unfold size in *. cbn [fst snd] in *. split.
  - intros H. assert (X : (q (b - 1) <= q (a + j))%Q) by (apply q_le; lia). lra.
  - intros H. assert (X : (q (b - 1) < q (a + j + 1))%Q) by (rewrite (q_add (a + j)); change (q 1) with 1%Q; lra).
    unfold q in X. rewrite <- Zlt_Qlt in X. lia.
Qed.

Lemma evaluate2 : forall N r0 r1 perm part minimal g x0 x1,
  fst r0 < snd r0 -> fst r1 < snd r1 -> holds2 perm r0 r1 g ->
  point_in N r0 x0 -> point_in N r1 x1 ->
  exists i j s t, cell_of (x0 * q N) i s /\ cell_of (x1 * q N) j t /\
  ((leaves2 N r0 r1 x0 x1 /\ evaluate N [r0; r1] perm part minimal [x0; x1] = OutOfBounds) \/
   (~ leaves2 N r0 r1 x0 x1 /\ exists v, evaluate N [r0; r1] perm part minimal [x0; x1] = Value v /\
      (v == Qmax (bilinear (fun a b => part_of part (g a b)) i j s t) minimal)%Q)).
Proof.
  intros N r0 r1 perm part minimal g x0 x1 R0 R1 (L & H) P0 P1.
  destruct (locate_step N r0 [r1] x0 [x1] 0 ltac:(lia) P0) as (j0 & t0 & J0 & C0 & U0 & E0).
  destruct (locate_step N r1 [] x1 [] (size r0 * 0 + j0) ltac:(lia) P1) as (j1 & t1 & J1 & C1 & U1 & E1).
  exists (fst r0 + j0), (fst r1 + j1), t0, t1. split; auto. split; auto.
  pose proof (last_but_one r0 _ j0 t0 R0 J0 C0) as LB.
  assert (S0 : 2 <= size r0) by (unfold size; lia). assert (S1 : 2 <= size r1) by (unfold size; lia).
  unfold evaluate. rewrite E0, E1. cbn [locate nth]. 
  set (s1 := size r1) in *. set (s0 := size r0) in *.
  replace (s1 * (s0 * 0 + j0) + j1) with (j0 * s1 + j1) by ring.
  assert (D : leaves2 N r0 r1 x0 x1 <-> j0 = s0 - 1 \/ (s0 - 2 <= j0 /\ j1 = s1 - 1)).
  { unfold leaves2. rewrite <- U0, <- LB, <- U1. reflexivity. }
  destruct (Nat.le_gt_cases (length perm) (j0 * s1 + j1 + s1 + 1)) as [O|O].
  - left. split.
    + apply D. rewrite L in O.
      destruct (Nat.eq_dec j0 (s0 - 1)); [auto|right].
      assert (s0 - 2 <= j0) by (clearbody s0 s1; nia). split; auto. assert (j0 = s0 - 2) by lia. clearbody s0 s1. nia.
    + rewrite (perm_at_out perm part (j0 * s1 + j1 + s1 + 1)) by auto.
      repeat (match goal with |- context [match ?a with _ => _ end] => destruct a end; auto).
  - right. rewrite L in O. split.
    + rewrite D. clearbody s0 s1. intros [?|(? & ?)]; nia.
    + assert (A00 : nth_error perm (j0 * s1 + j1) = Some (g (fst r0 + j0) (fst r1 + j1))) by (apply H; auto).
      assert (K0 : j0 + 1 < s0) by (clearbody s0 s1; nia).
      assert (A10 : nth_error perm (j0 * s1 + j1 + s1) = Some (g (S (fst r0 + j0)) (fst r1 + j1))).
      { replace (j0 * s1 + j1 + s1) with ((j0 + 1) * s1 + j1) by ring. rewrite H by lia. do 2 f_equal. lia. }
      rewrite (perm_at_some _ _ _ _ A00), (perm_at_some _ _ _ _ A10).
      destruct (perm_at_in perm part (j0 * s1 + j1 + 1)) as (k01 & K01); [lia|].
      destruct (perm_at_in perm part (j0 * s1 + j1 + s1 + 1)) as (k11 & K11); [lia|].
      rewrite K01, K11. eexists. split; [reflexivity|]. apply Qmax_compat.
      unfold bilinear. rewrite !lin_mix.
      destruct (Nat.eq_dec j1 (s1 - 1)) as [LAST|NL].
      * apply U1 in LAST as X. destruct C1 as (C1 & T0 & T1).
        assert (Z : (t1 == 0)%Q).
        { assert (Y : (q (snd r1) == q (fst r1 + j1))%Q).
          { replace (fst r1 + j1) with (snd r1); [reflexivity|]. unfold s1, size in LAST. lia. }
          lra. }
        rewrite Z. ring.
      * assert (B01 : nth_error perm (j0 * s1 + j1 + 1) = Some (g (fst r0 + j0) (S (fst r1 + j1)))).
        { replace (j0 * s1 + j1 + 1) with (j0 * s1 + (j1 + 1)) by ring. rewrite H by lia. do 2 f_equal. lia. }
        assert (B11 : nth_error perm (j0 * s1 + j1 + s1 + 1) = Some (g (S (fst r0 + j0)) (S (fst r1 + j1)))).
        { replace (j0 * s1 + j1 + s1 + 1) with ((j0 + 1) * s1 + (j1 + 1)) by ring. rewrite H by lia. f_equal. f_equal; lia. }
        rewrite (perm_at_some _ _ _ _ B01) in K01. rewrite (perm_at_some _ _ _ _ B11) in K11.
        injection K01 as <-. injection K11 as <-. ring.
Qed.

(** Three dimensions. *)

Lemma evaluate3 : forall N r0 r1 r2 perm part minimal g x0 x1 x2,
  fst r0 < snd r0 -> fst r1 < snd r1 -> fst r2 < snd r2 -> holds3 perm r0 r1 r2 g ->
  point_in N r0 x0 -> point_in N r1 x1 -> point_in N r2 x2 ->
  exists i j k r s t, cell_of (x0 * q N) i r /\ cell_of (x1 * q N) j s /\ cell_of (x2 * q N) k t /\
  ((leaves3 N r0 r1 r2 x0 x1 x2 /\ evaluate N [r0; r1; r2] perm part minimal [x0; x1; x2] = OutOfBounds) \/
   (~ leaves3 N r0 r1 r2 x0 x1 x2 /\ exists v, evaluate N [r0; r1; r2] perm part minimal [x0; x1; x2] = Value v /\
      (v == Qmax (trilinear (fun a b c => part_of part (g a b c)) i j k r s t) minimal)%Q)).
Proof.
  intros N r0 r1 r2 perm part minimal g x0 x1 x2 R0 R1 R2 (L & H) P0 P1 P2.
  destruct (locate_step N r0 [r1; r2] x0 [x1; x2] 0 ltac:(lia) P0) as (j0 & t0 & J0 & C0 & U0 & E0).
  destruct (locate_step N r1 [r2] x1 [x2] (size r0 * 0 + j0) ltac:(lia) P1) as (j1 & t1 & J1 & C1 & U1 & E1).
  destruct (locate_step N r2 [] x2 [] (size r1 * (size r0 * 0 + j0) + j1) ltac:(lia) P2) as (j2 & t2 & J2 & C2 & U2 & E2).
  exists (fst r0 + j0), (fst r1 + j1), (fst r2 + j2), t0, t1, t2. split; auto. split; auto. split; auto.
  pose proof (last_but_one r0 _ j0 t0 R0 J0 C0) as LB0.
  pose proof (last_but_one r1 _ j1 t1 R1 J1 C1) as LB1.
  assert (S0 : 2 <= size r0) by (unfold size; lia). assert (S1 : 2 <= size r1) by (unfold size; lia).
  assert (S2 : 2 <= size r2) by (unfold size; lia).
  unfold evaluate. rewrite E0, E1, E2. cbn [locate nth]. 
  set (s1 := size r1) in *. set (s0 := size r0) in *. set (s2 := size r2) in *.
  replace (s2 * (s1 * (s0 * 0 + j0) + j1) + j2) with ((j0 * s1 + j1) * s2 + j2) by ring.
  assert (D : leaves3 N r0 r1 r2 x0 x1 x2 <->
     j0 = s0 - 1 \/ (s0 - 2 <= j0 /\ (j1 = s1 - 1 \/ (s1 - 2 <= j1 /\ j2 = s2 - 1)))).
  { unfold leaves3, leaves2. rewrite <- U0, <- LB0, <- U1, <- LB1, <- U2. reflexivity. }
  set (c := (j0 * s1 + j1) * s2 + j2).
  assert (TOP : c + s1 * s2 + s2 + 1 = ((j0 + 1) * s1 + (j1 + 1)) * s2 + (j2 + 1)) by (unfold c; ring).
  destruct (Nat.le_gt_cases (length perm) (c + s1 * s2 + s2 + 1)) as [O|O].
  - left. split.
    + apply D. rewrite L, TOP in O. clear - O J0 J1 J2 S0 S1 S2. clearbody s0 s1 s2.
      destruct (Nat.eq_dec j0 (s0 - 1)); [auto|right].
      assert (Y : (j1 + 1) * s2 + (j2 + 1) <= s1 * s2 + s2) by nia.
      assert (Y2 : s1 * s2 + s2 < 2 * (s1 * s2)) by nia.
      assert (Z : s0 * (s1 * s2) <= (j0 + 1) * (s1 * s2) + ((j1 + 1) * s2 + (j2 + 1))) by nia.
      assert (s0 - 2 <= j0).
      { destruct (Nat.le_gt_cases (s0 - 2) j0); auto. exfalso.
        assert (j0 + 3 <= s0) by lia. assert ((j0 + 3) * (s1 * s2) <= s0 * (s1 * s2)) by (apply Nat.mul_le_mono_r; auto). lia. }
      split; auto. assert (s0 = j0 + 2) by lia. subst s0.
      assert (s1 * s2 <= (j1 + 1) * s2 + (j2 + 1)) by nia.
      destruct (Nat.eq_dec j1 (s1 - 1)); [auto|right].
      assert (j1 = s1 - 2) by nia. split; [lia|]. nia.
    + rewrite (perm_at_out perm part (c + s1 * s2 + s2 + 1)) by auto.
      repeat (match goal with |- context [match ?a with _ => _ end] => destruct a end; auto).
  - right. assert (O' := O). rewrite L, TOP in O'.
    assert (K0 : j0 + 1 < s0).
    { destruct (Nat.lt_ge_cases (j0 + 1) s0); auto. exfalso. clear - O' H0 J0 J1 J2.
      clearbody s0 s1 s2. assert (s0 * s1 <= (j0 + 1) * s1) by nia.
      assert (s0 * s1 * s2 <= (j0 + 1) * s1 * s2) by nia. nia. }
    split.
    + rewrite D. clear - O' S0 S1 S2 J0 J1 J2 K0. clearbody s0 s1 s2.
      intros [?|(Z & B)]; [lia|]. assert (s0 = j0 + 2) by lia. subst s0.
      assert (X : (j1 + 1) * s2 + (j2 + 1) < s1 * s2) by nia.
      destruct B as [?|(? & ?)]; nia.
    + assert (IDX : forall a0 a1 a2, a0 < s0 -> a1 < s1 -> a2 < s2 -> forall n, n = (a0 * s1 + a1) * s2 + a2 ->
        perm_at perm part n = Some (part_of part (g (fst r0 + a0) (fst r1 + a1) (fst r2 + a2)))).
      { intros a0 a1 a2 A0 A1 A2 n ->. apply perm_at_some. apply H; auto. }
      assert (ALL : forall n, n <= c + s1 * s2 + s2 + 1 -> exists v, perm_at perm part n = Some v).
      { intros n Ln. apply perm_at_in. lia. }
      destruct (ALL (c + 1) ltac:(lia)) as (k001 & K001).
      destruct (ALL (c + s2) ltac:(lia)) as (k010 & K010).
      destruct (ALL (c + s2 + 1) ltac:(lia)) as (k011 & K011).
      destruct (ALL (c + s1 * s2 + 1) ltac:(lia)) as (k101 & K101).
      destruct (ALL (c + s1 * s2 + s2) ltac:(lia)) as (k110 & K110).
      destruct (ALL (c + s1 * s2 + s2 + 1) ltac:(lia)) as (k111 & K111).
      rewrite K001, K010, K011, K101, K110, K111.
      rewrite (IDX j0 j1 j2 J0 J1 J2 c eq_refl).
      rewrite (IDX (j0 + 1) j1 j2 K0 J1 J2 (c + s1 * s2)) by (unfold c; ring).
      eexists. split; [reflexivity|]. apply Qmax_compat. unfold trilinear, bilinear. rewrite !lin_mix.
      replace (fst r0 + (j0 + 1)) with (S (fst r0 + j0)) by lia.
      assert (ZERO : forall (r : range) j t p, cell_of p (fst r + j) t -> fst r < snd r -> j = size r - 1 -> (p == q (snd r))%Q -> (t == 0)%Q).
      { intros r j t p (X & _) RR Y Z. assert (W : (q (snd r) == q (fst r + j))%Q).
        { replace (fst r + j) with (snd r); [reflexivity|]. unfold size in Y. lia. } lra. }
      assert (T2 : j2 + 1 < s2 \/ (t2 == 0)%Q).
      { destruct (Nat.eq_dec j2 (s2 - 1)) as [Y|]; [right|left; lia]. apply (ZERO r2 j2 t2 _ C2 R2 Y). now apply U2. }
      assert (T1 : j1 + 1 < s1 \/ (t1 == 0)%Q).
      { destruct (Nat.eq_dec j1 (s1 - 1)) as [Y|]; [right|left; lia]. apply (ZERO r1 j1 t1 _ C1 R1 Y). now apply U1. }
      assert (G1 : j1 + 1 < s1 -> k010 = part_of part (g (fst r0 + j0) (S (fst r1 + j1)) (fst r2 + j2)) /\
                   k110 = part_of part (g (S (fst r0 + j0)) (S (fst r1 + j1)) (fst r2 + j2))).
      { intros Y. rewrite (IDX j0 (j1 + 1) j2 J0 Y J2) in K010 by (unfold c; ring).
        rewrite (IDX (j0 + 1) (j1 + 1) j2 K0 Y J2) in K110 by (unfold c; ring).
        injection K010 as <-. injection K110 as <-.
        replace (fst r0 + (j0 + 1)) with (S (fst r0 + j0)) by lia. replace (fst r1 + (j1 + 1)) with (S (fst r1 + j1)) by lia. auto. }
      assert (G2 : j2 + 1 < s2 -> k001 = part_of part (g (fst r0 + j0) (fst r1 + j1) (S (fst r2 + j2))) /\
                   k101 = part_of part (g (S (fst r0 + j0)) (fst r1 + j1) (S (fst r2 + j2)))).
      { intros Y. rewrite (IDX j0 j1 (j2 + 1) J0 J1 Y) in K001 by (unfold c; ring).
        rewrite (IDX (j0 + 1) j1 (j2 + 1) K0 J1 Y) in K101 by (unfold c; ring).
        injection K001 as <-. injection K101 as <-.
        replace (fst r0 + (j0 + 1)) with (S (fst r0 + j0)) by lia. replace (fst r2 + (j2 + 1)) with (S (fst r2 + j2)) by lia. auto. }
      assert (G3 : j1 + 1 < s1 -> j2 + 1 < s2 ->
                   k011 = part_of part (g (fst r0 + j0) (S (fst r1 + j1)) (S (fst r2 + j2))) /\
                   k111 = part_of part (g (S (fst r0 + j0)) (S (fst r1 + j1)) (S (fst r2 + j2)))).
      { intros Y Z. rewrite (IDX j0 (j1 + 1) (j2 + 1) J0 Y Z) in K011 by (unfold c; ring).
        rewrite (IDX (j0 + 1) (j1 + 1) (j2 + 1) K0 Y Z) in K111 by (unfold c; ring).
        injection K011 as <-. injection K111 as <-.
        replace (fst r0 + (j0 + 1)) with (S (fst r0 + j0)) by lia. replace (fst r1 + (j1 + 1)) with (S (fst r1 + j1)) by lia.
        replace (fst r2 + (j2 + 1)) with (S (fst r2 + j2)) by lia. auto. }
      destruct T1 as [T1|T1]; destruct T2 as [T2|T2].
      * destruct (G1 T1) as (-> & ->). destruct (G2 T2) as (-> & ->). destruct (G3 T1 T2) as (-> & ->). ring.
      * destruct (G1 T1) as (-> & ->). rewrite T2. ring.
      * destruct (G2 T2) as (-> & ->). rewrite T1. ring.
      * rewrite T1, T2. ring.
Qed.

Lemma evaluate_out2 : forall N r0 r1 perm part minimal x0 x1,
  fst r0 <= snd r0 -> ~ (point_in N r0 x0 /\ point_in N r1 x1) ->
  evaluate N [r0; r1] perm part minimal [x0; x1] = RangeError.
Proof.
  intros N r0 r1 perm part minimal x0 x1 R H. unfold evaluate.
  destruct (Qlt_le_dec (x0 * q N) (q (fst r0))) as [A|A].
  { rewrite locate_out; auto. intros (B & _). lra. }
  destruct (Qlt_le_dec (q (snd r0)) (x0 * q N)) as [B|B].
  { rewrite locate_out; auto. intros (_ & C). lra. }
  destruct (locate_step N r0 [r1] x0 [x1] 0 R (conj A B)) as (j & t & _ & _ & _ & E). rewrite E.
  rewrite locate_out; auto. intros C. apply H. split; auto. split; auto.
Qed.
Lemma evaluate_out3 : forall N r0 r1 r2 perm part minimal x0 x1 x2,
  fst r0 <= snd r0 -> fst r1 <= snd r1 -> ~ (point_in N r0 x0 /\ point_in N r1 x1 /\ point_in N r2 x2) ->
  evaluate N [r0; r1; r2] perm part minimal [x0; x1; x2] = RangeError.
Proof.
  intros N r0 r1 r2 perm part minimal x0 x1 x2 R0 R1 H. unfold evaluate.
  destruct (Qlt_le_dec (x0 * q N) (q (fst r0))) as [A|A].
  { rewrite locate_out; auto. intros (B & _). lra. }
  destruct (Qlt_le_dec (q (snd r0)) (x0 * q N)) as [B|B].
  { rewrite locate_out; auto. intros (_ & C). lra. }
  destruct (locate_step N r0 [r1; r2] x0 [x1; x2] 0 R0 (conj A B)) as (j & t & _ & _ & _ & E). rewrite E.
  destruct (Qlt_le_dec (x1 * q N) (q (fst r1))) as [A1|A1].
  { rewrite locate_out; auto. intros (X & _). lra. }
  destruct (Qlt_le_dec (q (snd r1)) (x1 * q N)) as [B1|B1].
  { rewrite locate_out; auto. intros (_ & C). lra. }
  destruct (locate_step N r1 [r2] x1 [x2] (size r0 * 0 + j) R1 (conj A1 B1)) as (j1 & t1 & _ & _ & _ & E1). rewrite E1.
  rewrite locate_out; auto. intros C. apply H. repeat split; auto; apply C.
Qed.

(** Bounds of interpolation. *)
Lemma lin_bounds : forall lo hi a b t, (lo <= a /\ a <= hi -> lo <= b /\ b <= hi -> 0 <= t /\ t <= 1 ->
  lo <= lin a b t /\ lin a b t <= hi)%Q.
Proof. intros lo hi a b t (A1 & A2) (B1 & B2) (T0 & T1). unfold lin. split; nra. Qed.

(** ** Creation. *)
Section Cr.
Variable n : nat.
Variable base : nat -> Q.
Variable normal : nat -> Q.
Variable transform distribute : list complex -> list complex.
Notation cr := (create n base normal transform distribute).
Notation sm := (sample n base normal).
Notation calls := (calls n base normal transform distribute).


Lemma create_from_one : forall f, part f = 1 ->
  cr f = {| part := 0; drawn := drawn f + 2 * n; layer := transform (sm (drawn f));
            perm := distribute (transform (sm (drawn f))); computed := computed f + 1 |}.
Proof. intros f E. unfold create. now rewrite E. Qed.
Lemma create_from_zero : forall f, part f = 0 ->
  cr f = {| part := 1; drawn := drawn f; layer := layer f; perm := perm f; computed := computed f |}.
Proof. intros f E. unfold create. now rewrite E. Qed.

Lemma calls_even : forall sz k,
  calls (2 * k) (init sz) =
  match k with
  | O => init sz
  | S m => {| part := 1; drawn := 2 * n * k; layer := transform (sm (2 * n * m));
              perm := distribute (transform (sm (2 * n * m))); computed := k |}
  end.
Proof.
  intros sz. induction k as [|k IH]; [reflexivity|].
  replace (2 * S k) with (S (S (2 * k))) by lia. cbn [calls]. rewrite IH.
  assert (P : part (match k with
      | O => init sz
      | S m => {| part := 1; drawn := 2 * n * k; layer := transform (sm (2 * n * m));
              perm := distribute (transform (sm (2 * n * m))); computed := k |} end) = 1) by (destruct k; reflexivity).
  rewrite (create_from_one _ P). rewrite create_from_zero by reflexivity. cbn [drawn layer perm computed].
  assert (D : drawn (match k with
      | O => init sz
      | S m => {| part := 1; drawn := 2 * n * k; layer := transform (sm (2 * n * m));
              perm := distribute (transform (sm (2 * n * m))); computed := k |} end) = 2 * n * k) by (destruct k; cbn [drawn init]; lia).
  assert (C : computed (match k with
      | O => init sz
      | S m => {| part := 1; drawn := 2 * n * k; layer := transform (sm (2 * n * m));
              perm := distribute (transform (sm (2 * n * m))); computed := k |} end) = k) by (destruct k; reflexivity).
  rewrite D, C. f_equal; lia.
Qed.

Lemma calls_odd : forall sz k,
  calls (2 * k + 1) (init sz) =
  {| part := 0; drawn := 2 * n * (k + 1); layer := transform (sm (2 * n * k));
     perm := distribute (transform (sm (2 * n * k))); computed := k + 1 |}.
Proof.
  intros sz k. replace (2 * k + 1) with (S (2 * k)) by lia. cbn [calls]. rewrite calls_even.
  rewrite create_from_one by (destruct k; reflexivity).
  destruct k; cbn [drawn computed init]; f_equal; try lia; repeat (f_equal; try lia).
Qed.
End Cr.

(** ** All directions together. *)
Lemma set_range_some : forall dim N nProc iProc ov pp, partition dim nProc = Some pp ->
  exists rs, set_range dim N nProc iProc ov = Some rs /\ length rs = dim /\
    forall d, d < dim -> nth d rs (0, 0) =
      (i_min N (nth d pp 0) (nth d (grid_position iProc pp) 0) ov, i_max N (nth d pp 0) (nth d (grid_position iProc pp) 0) ov).
Proof.
  intros dim N nProc iProc ov pp E. unfold set_range. rewrite E. eexists. split; [reflexivity|].
  split; [now rewrite map_length, seq_length|]. intros d L.
  set (F := fun i => (i_min N (nth i pp 0) (nth i (grid_position iProc pp) 0) ov, i_max N (nth i pp 0) (nth i (grid_position iProc pp) 0) ov)).
  rewrite (nth_indep _ (0, 0) (F 0)) by (now rewrite map_length, seq_length).
  rewrite (map_nth F). now rewrite seq_nth.
Qed.

Section Blocks.
Variable dim N nProc ov : nat.
Variable pp : list nat.
Hypothesis dim_pos : 0 < dim.
Hypothesis N_pow : power_of_two N.
Hypothesis part_ok : partition dim nProc = Some pp.
Hypothesis enough : forall p, In p pp -> p <= N.

Lemma pp_facts : forall d, d < dim -> 0 < nth d pp 0 /\ N = N / nth d pp 0 * nth d pp 0 /\ 0 < N / nth d pp 0.
Proof.
  intros d L. destruct (partition_some _ _ _ dim_pos part_ok) as (LP & _ & PW & _).
  assert (I : In (nth d pp 0) pp) by (apply nth_In; lia).
  destruct (PW _ I) as (b & B). destruct N_pow as (a & A). specialize (enough _ I).
  rewrite B in *. rewrite A in *. split; [apply pow_pos|]. now apply pow_divides.
Qed.
Lemma pp_pos : forall p, In p pp -> 0 < p.
Proof.
  intros p I. destruct (partition_some _ _ _ dim_pos part_ok) as (LP & _ & PW & _).
  destruct (PW _ I) as (b & ->). apply pow_pos.
Qed.
Lemma pos_in : forall iProc d, iProc < nProc -> d < dim -> nth d (grid_position iProc pp) 0 < nth d pp 0.
Proof.
  intros iProc d I L. destruct (partition_some _ _ _ dim_pos part_ok) as (LP & PR & _ & _).
  destruct (grid_position_bijection pp pp_pos) as (G & _). rewrite PR in G. specialize (G iProc I).
  apply Forall2_nth in G. apply G. lia.
Qed.

Lemma set_range_near : forall iProc rs d i, iProc < nProc -> set_range dim N nProc iProc ov = Some rs -> d < dim ->
  (in_range (nth d rs (0, 0)) i <->
   near_block N (N / nth d pp 0) (nth d (grid_position iProc pp) 0) ov i).
Proof.
  intros iProc rs d i I E L. destruct (set_range_some dim N nProc iProc ov pp part_ok) as (rs' & E' & _ & K).
  rewrite E in E'. injection E' as <-. rewrite K by auto. apply range_near; [apply pp_facts; auto|].
  apply pos_in; auto.
Qed.

Lemma set_range_proper : forall iProc rs d, iProc < nProc -> set_range dim N nProc iProc ov = Some rs -> d < dim ->
  proper N (nth d rs (0, 0)).
Proof.
  intros iProc rs d I E L. destruct (set_range_some dim N nProc iProc ov pp part_ok) as (rs' & E' & _ & K).
  rewrite E in E'. injection E' as <-. rewrite K by auto. unfold proper, i_min, i_max. cbn [fst snd].
  destruct (pp_facts d L) as (P & D & Z). pose proof (pos_in iProc d I L) as J.
  set (p := nth d pp 0) in *. set (ps := nth d (grid_position iProc pp) 0) in *. set (len := N / p) in *.
  clearbody p ps len. assert (len * (ps + 1) <= N) by nia. assert (len * (ps + 1) = len * ps + len) by nia. lia.
Qed.

Lemma blocks_cover : forall c, (forall d, d < dim -> c d < N) ->
  exists iProc, iProc < nProc /\
    (forall d, d < dim -> N / nth d pp 0 * nth d (grid_position iProc pp) 0 <= c d <
                         N / nth d pp 0 * (nth d (grid_position iProc pp) 0 + 1)) /\
    forall rs, set_range dim N nProc iProc ov = Some rs ->
    forall d, d < dim -> in_range (nth d rs (0, 0)) (c d) /\ in_range (nth d rs (0, 0)) (c d + 1).
Proof.
  intros c C. destruct (partition_some _ _ _ dim_pos part_ok) as (LP & PR & PW & _).
  destruct (grid_position_bijection pp pp_pos) as (_ & _ & SU).
  set (pos := map (fun d => c d / (N / nth d pp 0)) (seq 0 dim)).
  assert (NP : forall d, d < dim -> nth d pos 0 = c d / (N / nth d pp 0)).
  { intros d L. unfold pos. set (F := fun d => c d / (N / nth d pp 0)).
    rewrite (nth_indep _ 0 (F 0)) by (now rewrite map_length, seq_length). rewrite (map_nth F). now rewrite seq_nth. }
  destruct (SU pos) as (iProc & I & G).
  { apply Forall2_nth. split; [unfold pos; rewrite map_length, seq_length; lia|].
    intros d L. rewrite LP in L. rewrite NP by auto. destruct (pp_facts d L) as (P & D & Z).
    apply Nat.div_lt_upper_bound; [lia|]. specialize (C d L). lia. }
  exists iProc. rewrite PR in I. split; auto.
  assert (BL : forall d, d < dim -> N / nth d pp 0 * nth d (grid_position iProc pp) 0 <= c d <
                         N / nth d pp 0 * (nth d (grid_position iProc pp) 0 + 1)).
  { intros d L. rewrite G, NP by auto. destruct (pp_facts d L) as (P & D & Z).
    set (len := N / nth d pp 0) in *. pose proof (Nat.div_mod (c d) len ltac:(lia)).
    pose proof (Nat.mod_upper_bound (c d) len ltac:(lia)). nia. }
  split; auto. intros rs E d L. specialize (BL d L). specialize (C d L).
  split; apply (set_range_near iProc rs d _ I E L).
  - split; [lia|]. exists (c d). lia.
  - split; [lia|]. exists (c d + 1). lia.
Qed.
End Blocks.
