(** Proofs for C32-C35. *)
From Coq Require Import List Arith ZArith QArith Qround Lia Lqa Bool.
From Verif Require Import Util GridModel GridSpec.
Import ListNotations.
Open Scope Z_scope.

Lemma to_unsigned_int : forall z, 0 <= z < two32 -> to_unsigned (inject_Z z) = Some z.
Proof.
  intros z H. unfold to_unsigned.
  assert (E : Qle_bool 0 (inject_Z z) = true)
    by (apply Qle_bool_iff; change 0%Q with (inject_Z 0); rewrite <- Zle_Qle; lia).
  rewrite E, Qfloor_Z.
  destruct (Z.leb_spec 0 z), (Z.ltb_spec z two32); try lia; reflexivity.
Qed.

Lemma to_unsigned_comp : forall q r, (q == r)%Q -> to_unsigned q = to_unsigned r.
Proof.
  intros q r E. unfold to_unsigned. rewrite (Qfloor_comp _ _ E), (Qceiling_comp _ _ E).
  replace (Qle_bool 0 q) with (Qle_bool 0 r); auto.
  destruct (Qle_bool 0 q) eqn:A, (Qle_bool 0 r) eqn:B; auto.
  - apply Qle_bool_iff in A. rewrite E in A. apply Qle_bool_iff in A. congruence.
  - apply Qle_bool_iff in B. rewrite <- E in B. apply Qle_bool_iff in B. congruence.
Qed.

Lemma to_unsigned_range : forall q z, to_unsigned q = Some z -> 0 <= z < two32.
Proof.
  intros q z. unfold to_unsigned.
  set (x := if Qle_bool 0 q then _ else _). clearbody x.
  destruct (Z.leb_spec 0 x), (Z.ltb_spec x two32); simpl; intros E; try discriminate.
  injection E as <-. lia.
Qed.

Lemma ceil_cover : forall L m, (0 < m)%Q ->
  smallest_cover L m (Qceiling (inject_Z L / m)).
Proof.
  intros L m Hm. split.
  - pose proof (Qle_ceiling (inject_Z L / m)) as H.
    assert (E : (inject_Z L / m * m == inject_Z L)%Q) by (field; lra).
    set (x := inject_Z (Qceiling _)) in *. rewrite <- E. apply Qmult_le_compat_r; lra.
  - intros k H. assert (inject_Z L / m <= inject_Z k)%Q.
    { apply Qle_shift_div_r; auto. }
    apply Qceiling_resp_le in H0. rewrite Qceiling_Z in H0. auto.
Qed.

Lemma smallest_cover_unique : forall L m a b,
  smallest_cover L m a -> smallest_cover L m b -> a = b.
Proof. intros L m a b (A & A') (B & B'). specialize (A' b B). specialize (B' a A). lia. Qed.

(** collecting *)
Lemma all_some_spec : forall A (l : list (option A)) r,
  all_some l = Some r <-> l = map Some r.
Proof.
  induction l as [|[x|] l IH]; simpl; intros r.
  - split; intros H; [injection H as <-; auto|]. destruct r; [auto|discriminate].
  - destruct (all_some l) as [r'|] eqn:E.
    + split; intros H.
      * injection H as <-. simpl. f_equal. now apply IH.
      * destruct r as [|y r]; simpl in H; [discriminate|]. injection H as <- H.
        apply IH in H. congruence.
    + split; intros H; [discriminate|]. destruct r as [|y r]; simpl in H; [discriminate|].
      injection H as <- H. apply IH in H. discriminate.
  - split; intros H; [discriminate|]. destruct r; discriminate.
Qed.

Lemma all_some_nth : forall A B (f : A -> option B) l r i d e,
  all_some (map f l) = Some r -> (i < length l)%nat -> f (nth i l d) = Some (nth i r e) /\ length r = length l.
Proof.
  intros A B f l r i d e H L. apply all_some_spec in H.
  assert (LR : length r = length l).
  { rewrite <- (map_length Some r), <- H, map_length. auto. }
  split; auto.
  rewrite <- (map_nth f). rewrite (nth_indep _ _ (Some e)) by (rewrite map_length; auto).
  rewrite H. apply map_nth.
Qed.

Lemma setup_overlap_nth : forall c o i,
  (forall m, In m (c_micro c) -> (0 < m)%Q) ->
  setup_overlap c = Some o -> (i < length (c_micro c))%nat ->
  smallest_cover (c_layers c) (nth i (c_micro c) 0%Q) (nth i o 0) /\ length o = length (c_micro c).
Proof.
  intros c o i P H L. unfold setup_overlap in H.
  destruct (all_some_nth _ _ _ _ _ i 0%Q 0 H L) as (E & LO). split; auto.
  set (m := nth i (c_micro c) 0%Q) in *.
  assert (Pm : (0 < m)%Q) by (apply P, nth_In; auto).
  destruct (Qeq_bool m 0) eqn:Z; [discriminate|].
  pose proof (to_unsigned_range _ _ E) as R.
  assert (F : Qceiling (inject_Z (c_layers c) / m) = nth i o 0).
  { unfold to_unsigned in E. set (x := Qceiling _) in *. clearbody x.
    rewrite Qfloor_Z, Qceiling_Z in E. destruct (Qle_bool 0 (inject_Z x));
    destruct ((0 <=? x) && (x <? two32)); congruence. }
  rewrite <- F. apply ceil_cover; auto.
Qed.

Lemma setup_overlap_total : forall c,
  (forall m, In m (c_micro c) -> (0 < m)%Q) -> 0 <= c_layers c ->
  (forall m, In m (c_micro c) -> (inject_Z (c_layers c) <= inject_Z (two32 - 1) * m)%Q) ->
  exists o, setup_overlap c = Some o.
Proof.
  intros c P N B. unfold setup_overlap. revert P B. generalize (c_micro c) as ms.
  induction ms as [|m ms IH]; intros P B; simpl; [eauto|].
  destruct IH as (o & E); [intros; apply P; now right|intros; apply B; now right|].
  assert (Pm : (0 < m)%Q) by (apply P; now left).
  destruct (Qeq_bool m 0) eqn:Z; [apply Qeq_bool_iff in Z; lra|].
  destruct (ceil_cover (c_layers c) m Pm) as (C1 & C2).
  rewrite to_unsigned_int; [rewrite E; eauto|].
  specialize (C2 (two32 - 1) (B m (or_introl eq_refl))). split; [|lia].
  apply Z.lt_succ_r. rewrite Zlt_Qlt. unfold Z.succ. rewrite inject_Z_plus.
  set (x := inject_Z (Qceiling (inject_Z (c_layers c) / m))) in *.
  assert (0 <= inject_Z (c_layers c))%Q by (change 0%Q with (inject_Z 0); rewrite <- Zle_Qle; lia).
  change (inject_Z 0) with 0%Q. change (inject_Z 1) with 1%Q.
  destruct (Qlt_le_dec x 0); [|lra]. exfalso. nra.
Qed.

(** nested grids *)
Lemma injZ_pos : forall n, 0 < n -> (0 < inject_Z n)%Q.
Proof. intros n H. change 0%Q with (inject_Z 0). rewrite <- Zlt_Qlt. auto. Qed.

Lemma nested_iff : forall a b n k, (a < b)%Q -> 0 < n -> 0 < k ->
  (nested a b n k <-> exists q, k = q * n).
Proof.
  intros a b n k AB N K. pose proof (injZ_pos n N) as PN. pose proof (injZ_pos k K) as PK.
  assert (EQ : forall i j, (node a b n i == node a b k j)%Q <-> i * k = j * n).
  { intros i j. unfold node. split; intros H.
    - assert (E : (inject_Z i * inject_Z k == inject_Z j * inject_Z n)%Q).
      { assert (H1 : (inject_Z i * ((b - a) / inject_Z n) == inject_Z j * ((b - a) / inject_Z k))%Q) by lra.
        assert (H2 : ((b - a) * (inject_Z i * inject_Z k) == (b - a) * (inject_Z j * inject_Z n))%Q).
        { setoid_replace ((b - a) * (inject_Z i * inject_Z k))%Q
            with (inject_Z i * ((b - a) / inject_Z n) * (inject_Z n * inject_Z k))%Q by (field; lra).
          rewrite H1. field. lra. }
        apply Qmult_inj_l in H2; auto. lra. }
      rewrite <- !inject_Z_mult in E. now apply (proj1 (inject_Z_injective _ _)) in E.
    - assert (E : (inject_Z i * inject_Z k == inject_Z j * inject_Z n)%Q)
        by (rewrite <- !inject_Z_mult, H; reflexivity).
      setoid_replace (inject_Z i * ((b - a) / inject_Z n))%Q
        with ((inject_Z i * inject_Z k) * (b - a) / (inject_Z n * inject_Z k))%Q by (field; lra).
      rewrite E. field. lra. }
  split.
  - intros H. destruct (H 1) as (j & _ & E); [lia|]. apply EQ in E. exists j. lia.
  - intros (q & ->) i I. exists (i * q). split; [nia|]. apply EQ. lia.
Qed.

(** uniform overlap *)
Lemma create_iff : forall ll ur e o comm,
  o <> [] ->
  (create_cube_grid ll ur e o comm =
     Created {| g_ll := ll; g_ur := ur; g_elements := e; g_overlap := nth 0 o 0; g_comm := comm |} <->
   forall i j, (i < length o)%nat -> (j < length o)%nat -> nth i o 0 = nth j o 0) /\
  (create_cube_grid ll ur e o comm = Nonuniform <->
   exists i j, (i < length o)%nat /\ (j < length o)%nat /\ nth i o 0 <> nth j o 0).
Proof.
  intros ll ur e o comm NE. destruct o as [|x r]; [congruence|]. simpl.
  destruct (forallb (Z.eqb x) r) eqn:F.
  - assert (A : forall i, (i < S (length r))%nat -> nth i (x :: r) 0 = x).
    { intros [|i] L; auto. rewrite forallb_forall in F.
      simpl. symmetry. apply Z.eqb_eq. apply F. apply nth_In. lia. }
    split; split; auto; try discriminate.
    + intros _ i j Li Lj. pose proof (A i Li). pose proof (A j Lj). simpl in *. congruence.
    + intros (i & j & Li & Lj & N). pose proof (A i Li). pose proof (A j Lj). simpl in *. congruence.
  - assert (X : exists i, (i < length r)%nat /\ nth i r 0 <> x).
    { clear -F. induction r as [|y r IH]; simpl in F; [discriminate|].
      destruct (Z.eqb_spec x y) as [->|N].
      - destruct IH as (i & L & D); auto. exists (S i). simpl. split; auto. lia.
      - exists 0%nat. simpl. split; [lia|auto]. }
    destruct X as (i & L & D). split; split; try discriminate; auto.
    + intros H. exfalso. apply D. apply (H (S i) 0%nat); lia.
    + intros _. exists (S i), 0%nat. repeat split; auto; lia.
Qed.

(** cell count *)
Lemma expected_mod : forall l a, fold_left (fun a x => (a * x) mod two32) l (a mod two32) =
  (a * total l) mod two32.
Proof.
  induction l as [|x l IH]; intros a; simpl.
  - rewrite Z.mul_1_r. reflexivity.
  - rewrite Zmult_mod_idemp_l. rewrite IH. f_equal. ring.
Qed.

Lemma expected_total : forall l, expected_elements l = total l mod two32.
Proof.
  intros l. unfold expected_elements. change 1 with (1 mod two32).
  rewrite expected_mod. f_equal. ring.
Qed.

Lemma to_int_congr : forall z x, - two31 <= x < two31 ->
  (x = unsigned_to_int (z mod two32) <-> (two32 | x - z)).
Proof.
  intros z x R. unfold unsigned_to_int.
  pose proof (Z.mod_pos_bound z two32 ltac:(reflexivity)) as B.
  pose proof (Z.div_mod z two32 ltac:(discriminate)) as D.
  unfold two31, two32 in *.
  set (m := z mod 4294967296) in *. set (q := z / 4294967296) in *. clearbody m q.
  split.
  - intros ->. destruct (Z.ltb_spec m 2147483648);
      [exists (-q)|exists (-q - 1)]; lia.
  - intros (k & E). destruct (Z.ltb_spec m 2147483648); [|]; nia || lia.
Qed.

Lemma coarse_rankfail : forall c comm nproc stored layers e,
  setup_elements c = Some e ->
  - two31 <= stored - layers < two31 ->
  (make_coarse_grid c comm nproc stored layers = RankFail <->
   (exists o, setup_overlap c = Some o /\ o <> [] /\
      forall i j, (i < length o)%nat -> (j < length o)%nat -> nth i o 0 = nth j o 0) /\
   (1 < nproc)%nat /\ (two32 | stored - layers - total e)).
Proof.
  intros c comm nproc stored layers e E R. unfold make_coarse_grid. rewrite E.
  destruct (setup_overlap c) as [o|].
  2:{ split; [discriminate|]. intros ((o & O & _) & _). discriminate. }
  destruct o as [|x r].
  { simpl. split; [discriminate|]. intros ((o & O & N & _) & _). injection O as <-. congruence. }
  pose proof (create_iff (c_ll c) (c_ur c) e (x :: r) comm ltac:(discriminate)) as ((C1 & C2) & _).
  rewrite expected_total.
  destruct (create_cube_grid (c_ll c) (c_ur c) e (x :: r) comm) as [g| | |] eqn:G.
  - assert (U : forall i j, (i < length (x :: r))%nat -> (j < length (x :: r))%nat ->
              nth i (x :: r) 0 = nth j (x :: r) 0).
    { apply C1. unfold create_cube_grid in G. destruct (forallb (Z.eqb x) r); [|discriminate].
      injection G as <-. reflexivity. }
    pose proof (to_int_congr (total e) (stored - layers) R) as T.
    destruct (Z.ltb_spec 1 (Z.of_nat nproc)) as [P|P];
      destruct (Z.eqb_spec (stored - layers) (unsigned_to_int (total e mod two32))) as [Q|Q]; simpl.
    + split; auto. intros _. split; [|split; [lia|apply T; auto]]. exists (x :: r). split; auto. split; auto. discriminate.
    + split; [discriminate|]. intros (_ & _ & D). exfalso. apply Q, T. auto.
    + split; [discriminate|]. lia.
    + split; [discriminate|]. lia.
  - split; [discriminate|]. intros ((o & O & N & U) & _). injection O as <-.
    specialize (C2 U). discriminate.
  - unfold create_cube_grid in G. destruct (forallb (Z.eqb x) r); discriminate.
  - unfold create_cube_grid in G. destruct (forallb (Z.eqb x) r); discriminate.
Qed.
