(** Proofs for C114. *)
From Coq Require Import ZArith List Arith Bool Lia.
From Verif Require Import Util RandModel RandSpec RandProofs IntModel IntSpec.
Import ListNotations.
Open Scope nat_scope.

Lemma int_some : forall z, (-2147483648 <= z <= 2147483647)%Z -> int z = Some z.
Proof.
  intros z H. unfold int. destruct (Z.leb_spec (-2147483648) z); [|lia]. destruct (Z.leb_spec z 2147483647); [|lia]. reflexivity.
Qed.
Lemma int_none : forall z, (2147483647 < z)%Z -> int z = None.
Proof. intros z H. unfold int. destruct (Z.leb_spec z 2147483647); [lia|]. now rewrite andb_false_r. Qed.

Lemma power_Z : forall k, Z.of_nat (2 ^ k) = (2 ^ Z.of_nat k)%Z.
Proof. intros k. rewrite Nat2Z.inj_pow. reflexivity. Qed.
Lemma power_bound : forall k m, (k <= m)%nat -> (1 <= Z.of_nat (2 ^ k) <= 2 ^ Z.of_nat m)%Z.
Proof.
  intros k m L. rewrite power_Z. split.
  - change 1%Z with (2 ^ 0)%Z. apply Z.pow_le_mono_r; lia.
  - apply Z.pow_le_mono_r; lia.
Qed.
Lemma limit_bound : forall dim k, (dim = 2 \/ dim = 3) -> k <= limit dim ->
  (1 <= Z.of_nat (2 ^ k) <= if Nat.eqb dim 2 then 16384 else 512)%Z.
Proof. intros dim k [->| ->] L; cbn [limit Nat.eqb] in *; apply (power_bound k) in L; exact L. Qed.

Definition pairZ (l : list (nat * nat)) : list (Z * Z) := map (fun pq => (Z.of_nat (fst pq), Z.of_nat (snd pq))) l.

Section Ranges.
Variables N ov : nat.
Hypothesis Sum : (Z.of_nat ov + Z.of_nat N <= 2147483647)%Z.
Let rg (pq : nat * nat) : range := (i_min N (fst pq) (snd pq) ov, i_max N (fst pq) (snd pq) ov).

Lemma block_below : forall p q, q < p -> N / p * q <= N /\ N / p * (q + 1) <= N.
Proof.
  intros p q L. pose proof (Nat.mul_div_le N p ltac:(lia)). split; nia.
Qed.
Lemma rg_size : forall p q, q < p -> fst (rg (p, q)) <= snd (rg (p, q)) <= N.
Proof.
  intros p q L. destruct (block_below p q L) as (A & B). cbn [rg fst snd]. unfold i_min, i_max. lia.
Qed.

Lemma ranges_fit : forall l s, (forall p q, In (p, q) l -> q < p <= N) -> (1 <= s)%Z ->
  (s * (Z.of_nat N + 1) ^ Z.of_nat (length l) <= 2147483647)%Z ->
  ranges_int (Z.of_nat N) (Z.of_nat ov) (pairZ l) s = Some (ranges_of (map rg l), (s * sizes (map rg l))%Z).
Proof.
  induction l as [|(p, q) l IH]; intros s H S B.
  - cbn [pairZ map ranges_int ranges_of]. do 2 f_equal. unfold sizes. cbn [map product fold_right]. lia.
  - destruct (H p q (or_introl eq_refl)) as (L & PN). destruct (block_below p q L) as (A & A'). pose proof (rg_size p q L) as RS.
    cbn [length] in B. rewrite Nat2Z.inj_succ, Z.pow_succ_r in B by lia.
    assert (P1 : (1 <= (Z.of_nat N + 1) ^ Z.of_nat (length l))%Z).
    { change 1%Z with ((Z.of_nat N + 1) ^ 0)%Z at 1. apply Z.pow_le_mono_r; lia. }
    assert (N1 : (Z.of_nat N + 1 <= 2147483647)%Z) by nia.
    cbn [pairZ map fst snd ranges_int]. rewrite <- Nat2Z.inj_div.
    replace (Z.of_nat (N / p) * Z.of_nat q)%Z with (Z.of_nat (N / p * q)) by lia.
    rewrite int_some by lia. cbn [andthen]. rewrite int_some by lia. cbn [andthen]. rewrite int_some by lia. cbn [andthen].
    replace (Z.of_nat (N / p) * (Z.of_nat q + 1))%Z with (Z.of_nat (N / p * (q + 1))) by lia.
    rewrite int_some by lia. cbn [andthen]. rewrite int_some by lia. cbn [andthen].
    assert (Elo : Z.max 0 (Z.of_nat (N / p * q) - Z.of_nat ov) = Z.of_nat (fst (rg (p, q)))) by (cbn [rg fst snd]; unfold i_min; lia).
    assert (Ehi : Z.min (Z.of_nat N) (Z.of_nat (N / p * (q + 1)) + Z.of_nat ov) = Z.of_nat (snd (rg (p, q)))) by (cbn [rg fst snd]; unfold i_max; lia).
    rewrite Elo, Ehi.
    rewrite int_some by lia. cbn [andthen]. rewrite int_some by lia. cbn [andthen].
    assert (Es : (Z.of_nat (snd (rg (p, q))) - Z.of_nat (fst (rg (p, q))) + 1)%Z = Z.of_nat (size (rg (p, q)))) by (unfold size; lia).
    rewrite Es.
    assert (Sz : (1 <= Z.of_nat (size (rg (p, q))) <= Z.of_nat N + 1)%Z) by (unfold size; lia).
    assert (Up : (s * Z.of_nat (size (rg (p, q))) * (Z.of_nat N + 1) ^ Z.of_nat (length l) <= 2147483647)%Z) by nia.
    rewrite int_some by nia. cbn [andthen].
    fold (pairZ l). rewrite IH; [|intros; apply H; now right|nia|exact Up]. cbn [andthen fst snd map ranges_of].
    do 2 f_equal. unfold sizes. cbn [map product fold_right]. rewrite Nat2Z.inj_mul. unfold product. ring.
Qed.
End Ranges.

Lemma grid_pairs : forall dim nProc pp iProc, 0 < dim -> partition dim nProc = Some pp -> iProc < nProc ->
  exists l, grid_of pp iProc = pairZ l /\ length l = dim /\
    (forall p q, In (p, q) l -> In p pp /\ q < p) /\
    forall N ov, set_range dim N nProc iProc ov =
      Some (map (fun pq => (i_min N (fst pq) (snd pq) ov, i_max N (fst pq) (snd pq) ov)) l).
Proof.
  intros dim nProc pp iProc D E I. destruct (partition_some dim nProc pp D E) as (Lp & Pr & Po & _).
  assert (Pos : forall p, In p pp -> 0 < p) by (intros p Ip; destruct (Po p Ip) as (m & ->); apply pow_pos).
  destruct (grid_position_bijection pp Pos) as (G & _ & _). rewrite Pr in G. specialize (G iProc I).
  unfold in_grid in G. exists (combine pp (grid_position iProc pp)). pose proof (proj1 (proj1 (Forall2_nth _ _) G)) as Lg.
  assert (Lc : length (combine pp (grid_position iProc pp)) = dim) by (rewrite combine_length; lia).
  split; [|split; [exact Lc|split]].
  - unfold grid_of, pairZ. generalize (grid_position iProc pp). clear. intros l. revert pp.
    induction l as [|q l IH]; intros [|p pp]; cbn [map combine]; auto. now rewrite IH.
  - intros p q Iq. split; [now apply in_combine_l in Iq|].
    clear - G Iq. revert Iq. induction G as [|a b la lb Hab G IH]; cbn [combine]; [intros []|].
    intros [Eq|Iq]; [injection Eq as <- <-; auto|auto].
  - intros N ov. unfold set_range. rewrite E. f_equal. rewrite <- Lc.
    set (F := fun pq : nat * nat => (i_min N (fst pq) (snd pq) ov, i_max N (fst pq) (snd pq) ov)).
    transitivity (map (fun i => F (nth i (combine pp (grid_position iProc pp)) (0, 0))) (seq 0 (length (combine pp (grid_position iProc pp))))).
    + apply map_ext. intros i. rewrite combine_nth by lia. reflexivity.
    + generalize (combine pp (grid_position iProc pp)). clear. induction l as [|a l IH]; [reflexivity|].
      cbn [length seq map nth]. f_equal. rewrite <- seq_shift, map_map. exact IH.
Qed.

Lemma init_fits : forall dim k ov nProc pp iProc n0, (dim = 2 \/ dim = 3) -> partition dim nProc = Some pp ->
  (forall p, In p pp -> p <= 2 ^ k) -> iProc < nProc -> (Z.of_nat ov + Z.of_nat (2 ^ k) <= 2147483647)%Z ->
  (1 <= n0 <= 2 * Z.of_nat (2 ^ k))%Z -> k <= limit dim ->
  exists rs, set_range dim (2 ^ k) nProc iProc ov = Some rs /\
    init_int dim (Z.of_nat k) (Z.of_nat ov) (grid_of pp iProc) n0 =
    Some (Z.of_nat (2 ^ k), (ranges_of rs, sizes rs), ((2 * Z.of_nat (2 ^ k)) ^ Z.of_nat dim)%Z).
Proof.
  intros dim k ov nProc pp iProc n0 D E Pp I Sum N0 Lk.
  destruct (grid_pairs dim nProc pp iProc ltac:(lia) E I) as (l & G & Ll & Hl & Sr).
  pose proof (limit_bound dim k D Lk) as B.
  exists (map (fun pq => (i_min (2 ^ k) (fst pq) (snd pq) ov, i_max (2 ^ k) (fst pq) (snd pq) ov)) l). split; [apply Sr|].
  assert (K30 : (0 <= Z.of_nat k <= 30)%Z) by (destruct D as [->| ->]; cbn [limit Nat.eqb] in Lk; lia).
  unfold init_int, shift_left. destruct (Z.leb_spec 0 (Z.of_nat k)); [|lia]. destruct (Z.leb_spec (Z.of_nat k) 30); [|lia].
  cbn [andb andthen]. rewrite <- power_Z. set (N := Z.of_nat (2 ^ k)) in *.
  assert (R : ranges_int N (Z.of_nat ov) (grid_of pp iProc) 1 = Some (ranges_of (map (fun pq => (i_min (2 ^ k) (fst pq) (snd pq) ov, i_max (2 ^ k) (fst pq) (snd pq) ov)) l),
     (1 * sizes (map (fun pq => (i_min (2 ^ k) (fst pq) (snd pq) ov, i_max (2 ^ k) (fst pq) (snd pq) ov)) l))%Z)).
  { rewrite G. apply ranges_fit; auto.
    - intros p q Iq. destruct (Hl p q Iq). split; auto.
    - lia.
    - rewrite Ll. fold N. destruct D as [->| ->]; cbn [Nat.eqb] in B.
      + change (Z.of_nat 2) with 2%Z. rewrite Z.pow_2_r. nia.
      + change (Z.of_nat 3) with 3%Z. replace ((N + 1) ^ 3)%Z with ((N + 1) * (N + 1) * (N + 1))%Z by ring. 
        assert ((N + 1) * (N + 1) <= 513 * 513)%Z by nia. nia. }
  destruct D as [->| ->]; cbn [Nat.eqb] in B.
  - rewrite int_some by lia. cbn [andthen]. rewrite R. cbn [andthen].
    rewrite int_some by nia. cbn [andthen]. rewrite int_some by nia. cbn [andthen]. rewrite Z.mul_1_l.
    change (Z.of_nat 2) with 2%Z. replace ((2 * N) ^ 2)%Z with (2 * N * (2 * N))%Z by ring. reflexivity.
  - rewrite int_some by lia. cbn [andthen]. rewrite R. cbn [andthen].
    assert (S2 : (0 < 2 * N * (2 * N) <= 1024 * 1024)%Z) by nia.
    assert (S3 : (0 < n0 * (2 * N) <= 1024 * 1024)%Z) by nia.
    rewrite int_some by nia. cbn [andthen]. rewrite int_some by nia. cbn [andthen]. rewrite int_some by nia. cbn [andthen]. rewrite Z.mul_1_l.
    change (Z.of_nat 3) with 3%Z. replace ((2 * N) ^ 3)%Z with (2 * N * (2 * N) * (2 * N))%Z by ring. reflexivity.
Qed.

Lemma init_overflows : forall dim k ov grid n0, (dim = 2 \/ dim = 3) -> limit dim < k ->
  init_int dim (Z.of_nat k) ov grid n0 = None.
Proof.
  intros dim k ov grid n0 D L. unfold init_int, shift_left.
  destruct (Z.leb_spec 0 (Z.of_nat k)); [|lia]. destruct (Z.leb_spec (Z.of_nat k) 30); [|reflexivity]. cbn [andb andthen].
  assert (P : (2 ^ Z.of_nat (S (limit dim)) <= 2 ^ Z.of_nat k)%Z) by (apply Z.pow_le_mono_r; lia).
  set (N := (2 ^ Z.of_nat k)%Z) in *.
  destruct (int (2 * N)) as [N2|] eqn:E2; [|reflexivity]. cbn [andthen].
  assert (N2 = (2 * N)%Z) as -> by (unfold int in E2; destruct (_ && _); congruence).
  destruct (ranges_int N ov grid 1) as [rs|]; [|reflexivity]. cbn [andthen].
  destruct D as [->| ->].
  - change (2 ^ Z.of_nat (S (limit 2)))%Z with 32768%Z in P. destruct (int (n0 * (2 * N))); [|reflexivity]. cbn [andthen].
    rewrite int_none by nia. reflexivity.
  - change (2 ^ Z.of_nat (S (limit 3)))%Z with 1024%Z in P. destruct (int (n0 * (2 * N) * (2 * N))); [|reflexivity]. cbn [andthen].
    destruct (int (2 * N * (2 * N))) as [a|] eqn:Ea; [|reflexivity]. cbn [andthen].
    assert (a = (2 * N * (2 * N))%Z) as -> by (unfold int in Ea; destruct (_ && _); congruence).
    assert (2048 * 2048 <= 2 * N * (2 * N))%Z by nia. rewrite int_none by nia. reflexivity.
Qed.

Lemma source2_fits : forall k n0 r1 i, k <= limit 2 -> 0 < n0 <= 2 * 2 ^ k -> proper (2 ^ k) r1 ->
  source2_int (Z.of_nat (2 ^ k)) (Z.of_nat n0) (Z.of_nat (fst r1)) (Z.of_nat i) =
  Some (Z.of_nat ((i mod n0) * (2 * 2 ^ k) + fst r1)).
Proof.
  intros k n0 r1 i L N0 (A & B). pose proof (limit_bound 2 k (or_introl eq_refl) L) as Bd. cbn [Nat.eqb] in Bd.
  unfold source2_int. set (n := 2 ^ k) in *. rewrite int_some by lia. cbn [andthen]. rewrite <- Nat2Z.inj_mod.
  pose proof (Nat.mod_upper_bound i n0 ltac:(lia)). rewrite int_some.
  - f_equal. lia.
  - nia.
Qed.

Lemma source3_fits : forall k n0 r1 r2 i j, k <= limit 3 -> 0 < n0 <= 2 * 2 ^ k -> proper (2 ^ k) r1 -> proper (2 ^ k) r2 -> j < size r1 ->
  source3_int (Z.of_nat (2 ^ k)) (Z.of_nat n0) (Z.of_nat (fst r1)) (Z.of_nat (fst r2)) (Z.of_nat i) (Z.of_nat j) =
  Some (Z.of_nat ((i mod n0) * (4 * 2 ^ k * 2 ^ k) + 2 * 2 ^ k * fst r1 + fst r2 + j * (2 * 2 ^ k))).
Proof.
  intros k n0 r1 r2 i j L N0 (A & B) (A2 & B2) J. pose proof (limit_bound 3 k (or_intror eq_refl) L) as Bd. cbn [Nat.eqb] in Bd.
  unfold source3_int. set (n := 2 ^ k) in *. unfold size in J.
  pose proof (Nat.mod_upper_bound i n0 ltac:(lia)) as M. set (m := i mod n0) in *.
  assert (Q : (0 <= Z.of_nat n * Z.of_nat n <= 512 * 512)%Z) by nia.
  rewrite int_some by lia. cbn [andthen]. rewrite int_some by nia. cbn [andthen]. rewrite int_some by lia. cbn [andthen].
  rewrite int_some by nia. cbn [andthen]. rewrite <- Nat2Z.inj_mod. fold m.
  assert (X : (Z.of_nat m * (4 * Z.of_nat n * Z.of_nat n) <= 1023 * (4 * (512 * 512)))%Z) by nia.
  assert (Y : (2 * Z.of_nat n * Z.of_nat (fst r1) + Z.of_nat j * (2 * Z.of_nat n) <= 2 * 512 * 512)%Z) by nia.
  assert (X0 : (0 <= Z.of_nat m * (4 * Z.of_nat n * Z.of_nat n))%Z) by nia.
  assert (Y0 : (0 <= 2 * Z.of_nat n * Z.of_nat (fst r1) + Z.of_nat j * (2 * Z.of_nat n))%Z) by nia.
  rewrite int_some by lia. cbn [andthen]. rewrite int_some by lia. cbn [andthen]. f_equal. lia.
Qed.

Lemma cons_eq : forall (a b : Z) l m, a = b -> l = m -> a :: l = b :: m.
Proof. intros; congruence. Qed.
Lemma corner2_fits : forall k r0 r1 j0 j1, k <= limit 2 -> proper (2 ^ k) r0 -> proper (2 ^ k) r1 -> j0 < size r0 -> j1 < size r1 ->
  cell_int (pairZ [(size r0, j0); (size r1, j1)]) 0 = Some (Z.of_nat (j0 * size r1 + j1)) /\
  corner2_int (Z.of_nat (size r1)) (Z.of_nat (j0 * size r1 + j1)) = Some (map Z.of_nat (map (fun b => (j0 + fst b) * size r1 + (j1 + snd b)) [(0, 0); (0, 1); (1, 0); (1, 1)])).
Proof.
  intros k r0 r1 j0 j1 L (A0 & B0) (A1 & B1) J0 J1. pose proof (limit_bound 2 k (or_introl eq_refl) L) as Bd. cbn [Nat.eqb] in Bd.
  assert (S0 : (1 <= Z.of_nat (size r0) <= 16385)%Z) by (unfold size; lia).
  assert (S1 : (1 <= Z.of_nat (size r1) <= 16385)%Z) by (unfold size; lia).
  assert (C : (0 <= Z.of_nat (size r1) * Z.of_nat j0 <= 16385 * 16385)%Z) by nia.
  split.
  - cbn [pairZ map fst snd cell_int]. rewrite int_some by lia. cbn [andthen]. rewrite int_some by lia. cbn [andthen].
    rewrite Z.mul_0_r, Z.add_0_l. rewrite int_some by lia. cbn [andthen]. rewrite int_some by lia. cbn [andthen]. f_equal. lia.
  - unfold corner2_int. do 3 (rewrite int_some by lia; cbn [andthen]). cbn [map fst snd].
    f_equal. repeat (apply cons_eq; [lia|]). reflexivity.
Qed.
Lemma corner3_fits : forall k r0 r1 r2 j0 j1 j2, k <= limit 3 -> proper (2 ^ k) r0 -> proper (2 ^ k) r1 -> proper (2 ^ k) r2 ->
  j0 < size r0 -> j1 < size r1 -> j2 < size r2 ->
  cell_int (pairZ [(size r0, j0); (size r1, j1); (size r2, j2)]) 0 = Some (Z.of_nat ((j0 * size r1 + j1) * size r2 + j2)) /\
  corner3_int (Z.of_nat (size r1)) (Z.of_nat (size r2)) (Z.of_nat ((j0 * size r1 + j1) * size r2 + j2)) =
    Some (map Z.of_nat (map (fun b => ((j0 + fst (fst b)) * size r1 + (j1 + snd (fst b))) * size r2 + (j2 + snd b))
         [(0, 0, 0); (0, 0, 1); (0, 1, 0); (0, 1, 1); (1, 0, 0); (1, 0, 1); (1, 1, 0); (1, 1, 1)])).
Proof.
  intros k r0 r1 r2 j0 j1 j2 L (A0 & B0) (A1 & B1) (A2 & B2) J0 J1 J2. pose proof (limit_bound 3 k (or_intror eq_refl) L) as Bd. cbn [Nat.eqb] in Bd.
  assert (S0 : (1 <= Z.of_nat (size r0) <= 513)%Z) by (unfold size; lia).
  assert (S1 : (1 <= Z.of_nat (size r1) <= 513)%Z) by (unfold size; lia).
  assert (S2 : (1 <= Z.of_nat (size r2) <= 513)%Z) by (unfold size; lia).
  assert (C : (0 <= Z.of_nat (size r1) * Z.of_nat j0 <= 513 * 513)%Z) by nia.
  assert (C1 : (0 <= Z.of_nat (size r2) * (Z.of_nat (size r1) * Z.of_nat j0 + Z.of_nat j1) <= 513 * (513 * 513 + 513))%Z) by nia.
  assert (C2 : (0 <= Z.of_nat (size r1) * Z.of_nat (size r2) <= 513 * 513)%Z) by nia.
  assert (E : Z.of_nat ((j0 * size r1 + j1) * size r2 + j2) = (Z.of_nat (size r2) * (Z.of_nat (size r1) * Z.of_nat j0 + Z.of_nat j1) + Z.of_nat j2)%Z) by lia.
  split.
  - cbn [pairZ map fst snd cell_int]. rewrite int_some by lia. cbn [andthen]. rewrite int_some by lia. cbn [andthen].
    rewrite Z.mul_0_r, Z.add_0_l. rewrite int_some by lia. cbn [andthen]. rewrite int_some by lia. cbn [andthen].
    rewrite int_some by lia. cbn [andthen]. rewrite int_some by lia. cbn [andthen]. f_equal. lia.
  - unfold corner3_int. rewrite E. do 8 (rewrite int_some by lia; cbn [andthen]). cbn [map fst snd].
    f_equal. repeat (apply cons_eq; [lia|]). reflexivity.
Qed.
