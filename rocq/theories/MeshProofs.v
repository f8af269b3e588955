(** Proofs for C104. *)
From Coq Require Import List Arith ZArith QArith Lia Lqa Bool Qfield.
From Verif Require Import Util ProjectionModel ProjectionSpec ProjectionProofs MeshModel MeshSpec.
Import ListNotations.

(** ** The grid *)
Lemma node_count_pos : forall ns, (0 < node_count ns)%nat.
Proof. induction ns; simpl; lia. Qed.

Lemma mesh_length : forall ns e, In e (mesh ns) -> length e = (2 ^ length ns)%nat.
Proof.
  induction ns as [|n r IH]; intros e H.
  - destruct H as [<-|[]]. reflexivity.
  - cbn [mesh] in H. apply in_concat in H. destruct H as (l & L & I).
    apply in_map_iff in L. destruct L as (i & <- & _). apply in_map_iff in I. destruct I as (e' & <- & I).
    rewrite app_length, !map_length, (IH _ I). simpl. lia.
Qed.

Lemma mesh_nodes : forall ns e j, In e (mesh ns) -> In j e -> (j < node_count ns)%nat.
Proof.
  induction ns as [|n r IH]; intros e j H J.
  - destruct H as [<-|[]]. destruct J as [<-|[]]. simpl. lia.
  - cbn [mesh] in H. apply in_concat in H. destruct H as (l & L & I).
    apply in_map_iff in L. destruct L as (i & <- & S). apply in_seq in S.
    apply in_map_iff in I. destruct I as (e' & <- & I). cbn [node_count].
    apply in_app_or in J. destruct J as [J|J]; apply in_map_iff in J; destruct J as (j' & <- & J);
      specialize (IH _ _ I J); nia.
Qed.

Lemma number_lt : forall ns ks, node ns ks -> (number ns ks < node_count ns)%nat.
Proof.
  intros ns ks H. induction H as [|n k r l A B IH]; simpl; [lia|]. nia.
Qed.

(** Every node number has indices. *)
Lemma number_onto : forall ns j, (j < node_count ns)%nat -> exists ks, node ns ks /\ number ns ks = j.
Proof.
  induction ns as [|n r IH]; intros j H.
  - exists []. split; [constructor|]. simpl in *. lia.
  - cbn [node_count] in H. pose proof (node_count_pos r) as P.
    destruct (IH (j mod node_count r)%nat) as (ks & A & B); [apply Nat.mod_upper_bound; lia|].
    exists ((j / node_count r)%nat :: ks). split.
    + constructor; auto. apply Nat.lt_succ_r. apply Nat.div_lt_upper_bound; lia.
    + cbn [number]. rewrite B. pose proof (Nat.div_mod j (node_count r)). lia.
Qed.

Lemma inside_node : forall ns ks, inside ns ks -> node ns ks.
Proof. intros ns ks H. induction H; constructor; auto. lia. Qed.

(** Counting occurrences. *)
Lemma count_concat : forall (l : list (list nat)) x,
  count_occ Nat.eq_dec (concat l) x = list_sum (map (fun e => count_occ Nat.eq_dec e x) l).
Proof. induction l as [|e l IH]; intros x; simpl; auto. now rewrite count_occ_app, IH. Qed.

Lemma count_shift : forall N i k j e, (j < N)%nat -> (forall x, In x e -> (x < N)%nat) ->
  count_occ Nat.eq_dec (map (fun x => i * N + x)%nat e) (k * N + j)%nat =
  if Nat.eqb i k then count_occ Nat.eq_dec e j else 0%nat.
Proof.
  intros N i k j e J. induction e as [|x e IH]; intros H; [simpl; now destruct (Nat.eqb i k)|].
  cbn [map count_occ]. rewrite IH by (intros; apply H; now right).
  assert (X : (x < N)%nat) by (apply H; now left).
  destruct (Nat.eq_dec (i * N + x) (k * N + j)) as [E|E].
  - assert (i = k) by nia. subst k. rewrite Nat.eqb_refl. assert (x = j) by lia. subst x.
    destruct (Nat.eq_dec j j); congruence.
  - destruct (Nat.eqb_spec i k) as [->|]; [|reflexivity].
    destruct (Nat.eq_dec x j); [subst; congruence|reflexivity].
Qed.

Lemma list_sum_scale : forall {A} (f : A -> nat) c l,
  list_sum (map (fun a => c * f a)%nat l) = (c * list_sum (map f l))%nat.
Proof. induction l; simpl; lia. Qed.

Lemma hits_sum : forall n k c s,
  list_sum (map (fun i => ((if Nat.eqb i k then 1 else 0) + (if Nat.eqb (i + 1) k then 1 else 0)) * c)%nat (seq s n)) =
  (((if (Nat.leb s k && Nat.ltb k (s + n))%bool then 1 else 0) +
    (if (Nat.leb (s + 1) k && Nat.leb k (s + n))%bool then 1 else 0)) * c)%nat.
Proof.
  induction n as [|n IH]; intros k c s.
  - simpl list_sum. destruct (Nat.leb_spec s k), (Nat.ltb_spec k (s + 0)), (Nat.leb_spec (s + 1) k), (Nat.leb_spec k (s + 0)); simpl; lia.
  - cbn [seq map list_sum fold_right]. fold (list_sum (map (fun i => ((if Nat.eqb i k then 1 else 0) + (if Nat.eqb (i + 1) k then 1 else 0)) * c)%nat (seq (S s) n))).
    rewrite IH.
    destruct (Nat.eqb_spec s k), (Nat.eqb_spec (s + 1) k), (Nat.leb_spec (S s) k), (Nat.ltb_spec k (S s + n)),
      (Nat.leb_spec (S s + 1) k), (Nat.leb_spec k (S s + n)), (Nat.leb_spec s k), (Nat.ltb_spec k (s + S n)),
      (Nat.leb_spec (s + 1) k), (Nat.leb_spec k (s + S n)); cbn [andb]; nia.
Qed.

Lemma around_count : forall ns ks, cells_ok ns -> node ns ks ->
  incidences (mesh ns) (number ns ks) = around ns ks.
Proof.
  intros ns ks C H. induction H as [|n k r l A B IH].
  - reflexivity.
  - inversion C as [|? ? C1 C2]; subst. specialize (IH C2).
    unfold incidences in *. cbn [mesh number around].
    set (N := node_count r) in *. pose proof (number_lt _ _ B) as L. fold N in L.
    rewrite count_concat, concat_map, map_map.
    assert (E : forall i, list_sum (map (fun e => count_occ Nat.eq_dec e (k * N + number r l)%nat)
        (map (fun e => map (fun j => i * N + j)%nat e ++ map (fun j => (i + 1) * N + j)%nat e) (mesh r))) =
        (((if Nat.eqb i k then 1 else 0) + (if Nat.eqb (i + 1) k then 1 else 0)) * around r l)%nat).
    { intros i. rewrite map_map. rewrite <- IH, count_concat, <- list_sum_scale. f_equal. apply map_ext_in.
      intros e I. rewrite count_occ_app, !count_shift; auto; try (intros x X; exact (mesh_nodes _ _ _ I X)).
      destruct (Nat.eqb i k), (Nat.eqb (i + 1) k); lia. }
    assert (S : forall (L : list (list nat)) , True) by auto. clear S.
    transitivity (list_sum (map (fun i => ((if Nat.eqb i k then 1 else 0) + (if Nat.eqb (i + 1) k then 1 else 0)) * around r l)%nat (seq 0 n))).
    + rewrite <- (map_ext _ _ E). clear. induction (seq 0 n) as [|i s IH]; simpl; auto.
      rewrite !list_sum_app, IH. reflexivity.
    + rewrite hits_sum. unfold sides.
      destruct (Nat.leb_spec 0 k), (Nat.ltb_spec k (0 + n)), (Nat.leb_spec (0 + 1) k), (Nat.leb_spec k (0 + n)),
        (Nat.eqb_spec k 0), (Nat.eqb_spec k n); cbn [andb orb]; nia.
Qed.

Lemma around_pos : forall ns ks, (0 < around ns ks)%nat.
Proof.
  induction ns as [|n r IH]; intros [|k l]; simpl; try lia. specialize (IH l). unfold sides.
  destruct (Nat.eqb k 0 || Nat.eqb k n)%bool; lia.
Qed.

Lemma around_inside : forall ns ks, inside ns ks -> around ns ks = (2 ^ length ns)%nat.
Proof.
  intros ns ks H. induction H as [|n k r l A B IH]; [reflexivity|]. cbn [around length Nat.pow].
  rewrite IH. unfold sides.
  destruct (Nat.eqb_spec k 0), (Nat.eqb_spec k n); cbn [orb]; lia.
Qed.

Lemma mesh_fine : forall ns, cells_ok ns -> mesh_ok (node_count ns) (mesh ns).
Proof.
  intros ns C. split; [intros; eapply mesh_nodes; eauto|].
  intros i L. apply incidences_pos. destruct (number_onto _ _ L) as (ks & A & <-).
  rewrite around_count by auto. apply around_pos.
Qed.

Lemma concat_walk : forall u ns, map fst (concat (walk_of u ns)) = concat (mesh ns).
Proof.
  intros u ns. unfold walk_of. rewrite concat_map, map_map. rewrite <- (map_id (mesh ns)) at 2. f_equal.
  apply map_ext. intros e. rewrite map_map. cbn. apply map_id.
Qed.

(** What the projection gives. *)
Lemma projected_spec : forall u ns, cells_ok ns ->
  exists v, projected u ns = Projected v /\ length v = node_count ns /\
    forall ks, node ns ks ->
      nth (number ns ks) v 0 * inject_Z (Z.of_nat (around ns ks)) == u (number ns ks).
Proof.
  intros u ns C. unfold projected.
  destruct (project_set u (node_count ns) (mesh ns) (walk_of u ns) (repeat 0 (node_count ns))) as (v & A & B & D).
  - now apply mesh_fine.
  - intros e i x E I. unfold walk_of in E. apply in_map_iff in E. destruct E as (e' & <- & E).
    apply in_map_iff in I. destruct I as (j & J & I). injection J as <- <-. exists (u j). split; reflexivity.
  - apply repeat_length.
  - exists v. split; [exact A|]. split; [exact B|]. intros ks K.
    destruct (D _ (number_lt _ _ K)) as (X & _). rewrite around_count in X by auto. apply X.
    unfold nodes_of. rewrite concat_walk. apply (count_occ_In Nat.eq_dec).
    fold (incidences (mesh ns) (number ns ks)). rewrite around_count by auto. apply around_pos.
Qed.

(** ** Sums *)
Open Scope Q_scope.
Lemma qsum_ext : forall {A} (f g : A -> Q) l, (forall a, In a l -> f a == g a) -> qsum f l == qsum g l.
Proof.
  induction l as [|a l IH]; intros H; simpl; [reflexivity|].
  rewrite IH by (intros; apply H; now right). rewrite (H a) by (now left). reflexivity.
Qed.
Lemma qsum_scale : forall {A} (f : A -> Q) c l, qsum (fun a => c * f a) l == c * qsum f l.
Proof. induction l as [|a l IH]; simpl; [ring|]. rewrite IH. ring. Qed.
Lemma qsum_app : forall {A} (f : A -> Q) l l', qsum f (l ++ l') == qsum f l + qsum f l'.
Proof. induction l as [|a l IH]; intros l'; simpl; [ring|]. rewrite IH. ring. Qed.
Lemma qsum_map : forall {A B} (f : B -> Q) (g : A -> B) l, qsum f (map g l) = qsum (fun a => f (g a)) l.
Proof. induction l as [|a l IH]; simpl; [reflexivity|]. now rewrite IH. Qed.
Lemma qsum_concat : forall {A} (f : A -> Q) l, qsum f (concat l) == qsum (qsum f) l.
Proof. induction l as [|a l IH]; simpl; [reflexivity|]. rewrite qsum_app, IH. reflexivity. Qed.
Lemma qsum_le : forall {A} (f g : A -> Q) l, (forall a, In a l -> f a <= g a) -> qsum f l <= qsum g l.
Proof.
  induction l as [|a l IH]; intros H; simpl; [apply Qle_refl|].
  apply Qplus_le_compat; [apply H; now left|apply IH; intros; apply H; now right].
Qed.
Lemma qsum_filter_le : forall {A} (f : A -> Q) t l, (forall a, In a l -> 0 <= f a) ->
  qsum f (filter t l) <= qsum f l.
Proof.
  induction l as [|a l IH]; intros H; simpl; [apply Qle_refl|].
  assert (IH' : qsum f (filter t l) <= qsum f l) by (apply IH; intros; apply H; now right).
  assert (H0 : 0 <= f a) by (apply H; now left). destruct (t a); simpl; lra.
Qed.
Lemma qsum_plus : forall {A} (f g : A -> Q) l, qsum (fun a => f a + g a) l == qsum f l + qsum g l.
Proof. induction l as [|a l IH]; simpl; [ring|]. rewrite IH. ring. Qed.

(** ** The L2 product of one cell *)
Lemma mass_ext : forall hs a a' b b',
  (forall c, (c < 2 ^ length hs)%nat -> a c == a' c) -> (forall c, (c < 2 ^ length hs)%nat -> b c == b' c) ->
  mass hs a b == mass hs a' b'.
Proof.
  induction hs as [|h r IH]; intros a a' b b' A B; cbn [mass].
  - rewrite A, B by (simpl; lia). reflexivity.
  - cbn [length Nat.pow] in A, B. set (m := (2 ^ length r)%nat) in *.
    rewrite (IH a a' b b'), (IH (fun c => a (m + c)%nat) (fun c => a' (m + c)%nat) (fun c => b (m + c)%nat) (fun c => b' (m + c)%nat)),
      (IH a a' (fun c => b (m + c)%nat) (fun c => b' (m + c)%nat)), (IH (fun c => a (m + c)%nat) (fun c => a' (m + c)%nat) b b');
      [reflexivity|..]; intros c L; (apply A || apply B); lia.
Qed.

Lemma mass_sym : forall hs a b, mass hs a b == mass hs b a.
Proof.
  induction hs as [|h r IH]; intros a b; cbn [mass]; [ring|].
  set (m := (2 ^ length r)%nat).
  rewrite (IH a b), (IH (fun c => a (m + c)%nat) (fun c => b (m + c)%nat)), (IH a (fun c => b (m + c)%nat)),
    (IH (fun c => a (m + c)%nat) b). field.
Qed.

Lemma mass_add : forall hs a a' b, mass hs (fun c => a c + a' c) b == mass hs a b + mass hs a' b.
Proof.
  induction hs as [|h r IH]; intros a a' b; cbn [mass]; [ring|]. set (m := (2 ^ length r)%nat).
  rewrite (IH a a' b), (IH a a' (fun c => b (m + c)%nat)),
    (IH (fun c => a (m + c)%nat) (fun c => a' (m + c)%nat) b),
    (IH (fun c => a (m + c)%nat) (fun c => a' (m + c)%nat) (fun c => b (m + c)%nat)). field.
Qed.

Lemma mass_scale : forall hs x a b, mass hs (fun c => x * a c) b == x * mass hs a b.
Proof.
  induction hs as [|h r IH]; intros x a b; cbn [mass]; [ring|]. set (m := (2 ^ length r)%nat).
  rewrite (IH x a b), (IH x a (fun c => b (m + c)%nat)),
    (IH x (fun c => a (m + c)%nat) b), (IH x (fun c => a (m + c)%nat) (fun c => b (m + c)%nat)). field.
Qed.

Lemma mass_scale2 : forall hs x y a b, mass hs (fun c => x * a c) (fun c => y * b c) == x * y * mass hs a b.
Proof. intros. rewrite mass_scale, mass_sym, mass_scale, mass_sym. ring. Qed.

Lemma mass_sq : forall hs x a b, mass hs (fun c => a c + x * b c) (fun c => a c + x * b c) ==
  mass hs a a + 2 * x * mass hs b a + x * x * mass hs b b.
Proof.
  intros hs x a b. rewrite (mass_add hs a (fun c => x * b c)).
  rewrite (mass_sym hs a (fun c => a c + x * b c)), (mass_add hs a (fun c => x * b c) a).
  rewrite (mass_sym hs (fun c => x * b c) (fun c => a c + x * b c)), (mass_add hs a (fun c => x * b c) (fun c => x * b c)).
  rewrite (mass_sym hs a (fun c => x * b c)), mass_scale2, mass_scale. ring.
Qed.

Lemma mass_pos : forall hs a, Forall (fun h => 0 <= h) hs -> 0 <= mass hs a a.
Proof.
  intros hs a H. revert a. induction H as [|h r P H IH]; intros a; cbn [mass].
  - nra.
  - set (m := (2 ^ length r)%nat). set (a' := fun c => a (m + c)%nat).
    pose proof (IH a') as P1.
    pose proof (IH (fun c => a c + (1 # 2) * a' c)) as P2.
    rewrite mass_sq in P2.
    rewrite (mass_sym r a a').
    assert (E : (mass r a a + mass r a' a') / 3 + (mass r a' a + mass r a' a) / 6 ==
                (1#3) * (mass r a a + 2 * (1#2) * mass r a' a + (1#2) * (1#2) * mass r a' a') + (1#4) * mass r a' a')
      by field.
    rewrite E. apply Qmult_le_0_compat; [exact P|]. lra.
Qed.

Lemma edges_pos : forall ns, Forall (fun h => 0 <= h) (edges ns).
Proof.
  intros ns. unfold edges. apply Forall_map. apply Forall_forall. intros n _.
  unfold Qdiv. rewrite Qmult_1_l. apply Qinv_le_0_compat. unfold Qle. simpl. lia.
Qed.

Lemma edges_length : forall ns, length (edges ns) = length ns.
Proof. intros. apply map_length. Qed.

(** The L2 product obeys the laws. *)
Lemma l2_lawful : forall ns, lawful (l2_product ns) (mesh ns).
Proof.
  intros ns. split; cbn [l2_product p_cell p_interp p_form].
  - intros e f f' I H g. apply mass_ext; [|reflexivity]. intros c L. unfold at_corners. apply H. apply nth_In.
    rewrite edges_length in L. now rewrite (mesh_length _ _ I).
  - intros e f f' g _. apply mass_add.
  - intros e c f g _. apply mass_scale.
  - intros e f g _. apply mass_sym.
  - intros e f _. apply mass_pos. apply edges_pos.
  - intros e c v w _ H x X. now apply H.
Qed.

(** ** Tensor products *)
Lemma at_corners_lo : forall v N i e c, (c < length e)%nat ->
  at_corners v (map (fun j => i * N + j)%nat e ++ map (fun j => (i + 1) * N + j)%nat e) c = v (i * N + nth c e 0)%nat.
Proof.
  intros v N i e c L. unfold at_corners. rewrite app_nth1 by (rewrite map_length; lia).
  f_equal. rewrite (nth_indep _ 0%nat (i * N + 0)%nat) by (rewrite map_length; lia).
  apply (map_nth (fun j => i * N + j)%nat).
Qed.
Lemma at_corners_hi : forall v N i e c m, m = length e -> (c < length e)%nat ->
  at_corners v (map (fun j => i * N + j)%nat e ++ map (fun j => (i + 1) * N + j)%nat e) (m + c) = v ((i + 1) * N + nth c e 0)%nat.
Proof.
  intros v N i e c m -> L. unfold at_corners. rewrite app_nth2 by (rewrite map_length; lia).
  rewrite map_length. replace (length e + c - length e)%nat with c by lia.
  f_equal. rewrite (nth_indep _ 0%nat ((i + 1) * N + 0)%nat) by (rewrite map_length; lia).
  apply (map_nth (fun j => (i + 1) * N + j)%nat).
Qed.

Definition strip (h a b : Q) : Q := h * ((a * a + a * b + b * b) / 3).

Lemma norm_tensor : forall n r (g : nat -> Q) w v,
  (forall k j, (k <= n)%nat -> (j < node_count r)%nat -> v (k * node_count r + j)%nat == g k * w j) ->
  norm_square (n :: r) v ==
  qsum (fun i => strip (1 / inject_Z (Z.of_nat n)) (g i) (g (i + 1)%nat)) (seq 0 n) * norm_square r w.
Proof.
  intros n r g w v H. unfold norm_square. cbn [mesh]. rewrite qsum_concat, qsum_map.
  transitivity (qsum (fun i => norm_square r w * strip (1 / inject_Z (Z.of_nat n)) (g i) (g (i + 1)%nat)) (seq 0 n)).
  2:{ rewrite qsum_scale. unfold norm_square. ring. }
  apply qsum_ext. intros i I. apply in_seq in I. rewrite qsum_map.
  rewrite Qmult_comm. unfold norm_square. rewrite <- qsum_scale. apply qsum_ext. intros e E.
  cbn [edges map mass]. fold (edges r). set (h := 1 / inject_Z (Z.of_nat n)). set (N := node_count r) in *.
  rewrite edges_length. set (m := (2 ^ length r)%nat).
  pose proof (mesh_length _ _ E) as LE. fold m in LE.
  set (V := at_corners v (map (fun j => i * N + j)%nat e ++ map (fun j => (i + 1) * N + j)%nat e)).
  set (W := at_corners w e).
  assert (A : forall c, (c < m)%nat -> V c == g i * W c).
  { intros c L. unfold V. rewrite at_corners_lo by lia. unfold W, at_corners. apply H; [lia|].
    eapply mesh_nodes; eauto. apply nth_In. lia. }
  assert (B : forall c, (c < m)%nat -> V (m + c)%nat == g (i + 1)%nat * W c).
  { intros c L. unfold V. rewrite at_corners_hi by lia. unfold W, at_corners. apply H; [lia|].
    eapply mesh_nodes; eauto. apply nth_In. lia. }
  assert (X : forall a b x y, (forall c, (c < m)%nat -> a c == x * W c) -> (forall c, (c < m)%nat -> b c == y * W c) ->
     mass (edges r) a b == x * y * mass (edges r) W W).
  { intros a b x y HA HB. rewrite <- mass_scale2. apply mass_ext; rewrite edges_length; fold m; auto. }
  rewrite (X V V _ _ A A), (X _ _ _ _ B B), (X _ _ _ _ A B), (X _ _ _ _ B A). unfold strip. field.
Qed.

(** One direction of the projected constant: one at the ends, a half between. *)
Definition weight (n k : nat) : Q := 1 / inject_Z (Z.of_nat (sides n k)).

Lemma weight_end : forall n k, (k = 0 \/ k = n)%nat -> weight n k == 1.
Proof.
  intros n k H. unfold weight, sides. destruct (Nat.eqb_spec k 0), (Nat.eqb_spec k n); cbn [orb]; try (exfalso; lia); reflexivity.
Qed.
Lemma weight_mid : forall n k, (0 < k < n)%nat -> weight n k == 1 # 2.
Proof.
  intros n k H. unfold weight, sides. destruct (Nat.eqb_spec k 0), (Nat.eqb_spec k n); cbn [orb]; try (exfalso; lia); reflexivity.
Qed.

Lemma strips_mid : forall h n m s, (0 < s)%nat -> (s + m < n)%nat ->
  qsum (fun i => strip h (weight n i) (weight n (i + 1))) (seq s m) == inject_Z (Z.of_nat m) * h * (1 # 4).
Proof.
  induction m as [|m IH]; intros s S L; cbn [seq qsum]; [simpl; ring|].
  rewrite IH by lia. unfold strip. rewrite !weight_mid by lia.
  rewrite Nat2Z.inj_succ, <- Z.add_1_r, inject_Z_plus. field.
Qed.

Lemma strips : forall n, (1 <= n)%nat ->
  qsum (fun i => strip (1 / inject_Z (Z.of_nat n)) (weight n i) (weight n (i + 1))) (seq 0 n) == factor n.
Proof.
  intros n H. unfold factor. destruct (Nat.eqb_spec n 1) as [->|N].
  - simpl. unfold strip. rewrite !weight_end by lia. field.
  - set (h := 1 / inject_Z (Z.of_nat n)).
    replace (seq 0 n) with (0%nat :: seq 1 (n - 2) ++ [(n - 1)%nat]).
    2:{ replace n with (S (n - 2 + 1))%nat at 3 by lia. cbn [seq]. f_equal. rewrite seq_app. f_equal. simpl. f_equal. lia. }
    cbn [qsum]. rewrite qsum_app, strips_mid by lia. cbn [qsum]. unfold strip.
    rewrite (weight_end n 0), (weight_mid n (0 + 1)), (weight_mid n (n - 1)), (weight_end n (n - 1 + 1)) by lia.
    rewrite Nat2Z.inj_sub by lia. unfold Z.sub. rewrite inject_Z_plus. change (inject_Z (- Z.of_nat 2)) with (-2 # 1).
    assert (P : ~ inject_Z (Z.of_nat n) == 0).
    { change 0 with (inject_Z 0). intros E. apply (proj1 (inject_Z_injective _ _)) in E. lia. }
    unfold h. field. exact P.
Qed.

Lemma norm_of_one : forall ns v, cells_ok ns ->
  (forall ks, node ns ks -> v (number ns ks) * inject_Z (Z.of_nat (around ns ks)) == 1) ->
  norm_square ns v == qprod (map factor ns).
Proof.
  induction ns as [|n r IH]; intros v C H.
  - cbn. specialize (H [] (Forall2_nil _)). cbn [number around] in H.
    change (inject_Z (Z.of_nat 1)) with 1 in H. rewrite Qmult_1_r in H. unfold at_corners. cbn [nth]. rewrite H. reflexivity.
  - inversion C as [|? ? C1 C2]; subst.
    set (w := fun j => v (0 * node_count r + j)%nat).
    rewrite (norm_tensor n r (weight n) w v).
    + rewrite strips by auto. cbn [map qprod fold_right]. fold (qprod (map factor r)).
      rewrite (IH w C2); [reflexivity|]. intros ks K. unfold w.
      specialize (H (0%nat :: ks)). cbn [number around] in H. unfold sides in H. cbn [Nat.eqb orb] in H.
      rewrite Nat.mul_1_l in H. apply H. constructor; [lia|exact K].
    + intros k j K J. destruct (number_onto _ _ J) as (ks & A & <-). unfold w.
      pose proof (H (k :: ks) (Forall2_cons _ _ K A)) as X.
      pose proof (H (0%nat :: ks) (Forall2_cons _ _ (Nat.le_0_l n) A)) as Y.
      cbn [number around] in X, Y. rewrite Nat2Z.inj_mul, inject_Z_mult in X, Y.
      change (sides n 0) with 1%nat in Y. change (inject_Z (Z.of_nat 1)) with 1 in Y. rewrite Qmult_1_l in Y.
      unfold weight.
      assert (P : ~ inject_Z (Z.of_nat (sides n k)) == 0).
      { unfold sides. destruct (Nat.eqb k 0 || Nat.eqb k n)%bool; discriminate. }
      assert (P2 : ~ inject_Z (Z.of_nat (around r ks)) == 0).
      { change 0 with (inject_Z 0). intros E. apply (proj1 (inject_Z_injective _ _)) in E. pose proof (around_pos r ks). lia. }
      apply (Qmult_inj_r _ _ _ P2). rewrite <- Qmult_assoc, Y.
      apply (Qmult_inj_l _ _ _ P). transitivity 1; [rewrite <- X; ring|field; exact P].
Qed.

Lemma factor_bounds : forall n, (2 <= n)%nat -> 1 # 4 < factor n /\ factor n <= 7 # 12.
Proof.
  intros n H. unfold factor. destruct (Nat.eqb_spec n 1); [lia|].
  assert (P : 2 <= inject_Z (Z.of_nat n)) by (change 2 with (inject_Z 2); rewrite <- Zle_Qle; lia).
  set (x := inject_Z (Z.of_nat n)) in *.
  assert (E : 2 / (3 * x) == (2 # 3) * / x) by (field; lra).
  assert (I1 : 0 < / x) by (apply Qinv_lt_0_compat; lra).
  assert (I2 : / x <= 1 # 2).
  { apply Qmult_le_l with (z := x); [lra|]. rewrite Qmult_inv_r by lra. lra. }
  rewrite E. lra.
Qed.

Lemma factor_unit : forall n, (1 <= n)%nat -> 1 # 4 < factor n /\ factor n <= 1.
Proof.
  intros n H. destruct (Nat.eq_dec n 1) as [->|]; [unfold factor; cbn; lra|].
  destruct (factor_bounds n); [lia|]. lra.
Qed.

Lemma qprod_bounds : forall ns, cells_ok ns ->
  qpow (1 # 4) (length ns) <= qprod (map factor ns) /\ qprod (map factor ns) <= 1.
Proof.
  intros ns H. induction H as [|n r A B IH]; cbn; [lra|].
  fold (qprod (map factor r)). pose proof (factor_unit n A). 
  assert (0 < qpow (1#4) (length r)). { clear. induction (length r) as [|k IHk]; cbn [qpow]; [lra|]. lra. }
  split; nra.
Qed.

Lemma qprod_small : forall ns n, cells_ok ns -> In n ns -> (2 <= n)%nat -> qprod (map factor ns) <= 7 # 12.
Proof.
  intros ns n H. induction H as [|m r A B IH]; intros I N; [destruct I|].
  cbn. fold (qprod (map factor r)). pose proof (qprod_bounds r B) as (P1 & P2).
  assert (0 < qpow (1#4) (length r)). { clear. induction (length r) as [|k IHk]; cbn [qpow]; [lra|]. lra. }
  destruct I as [<-|I].
  - pose proof (factor_bounds m N). nra.
  - pose proof (factor_unit m A). specialize (IH I N). nra.
Qed.

Lemma qprod_one : forall ns, Forall (fun n => n = 1%nat) ns -> qprod (map factor ns) == 1.
Proof. intros ns H. induction H as [|n r -> B IH]; cbn; [reflexivity|]. fold (qprod (map factor r)). rewrite IH. reflexivity. Qed.

(** ** The distance cannot be small *)
Section Floor.
Variable X : Type.
Variable P : product X.
Variable es : list (list nat).
Hypothesis L : lawful P es.

Lemma form_sq : forall e a b f g, In e es ->
  p_form P e (fun x => a * f x + b * g x) (fun x => a * f x + b * g x) ==
  a * a * p_form P e f f + 2 * a * b * p_form P e f g + b * b * p_form P e g g.
Proof.
  intros e a b f g I.
  assert (S : forall f g h, p_form P e h (fun x => f x + g x) == p_form P e h f + p_form P e h g).
  { intros. rewrite l_sym by (exact L || exact I). rewrite (l_add P es L) by exact I.
    rewrite (l_sym P es L e f0), (l_sym P es L e g0) by exact I. reflexivity. }
  assert (T : forall c f h, p_form P e h (fun x => c * f x) == c * p_form P e h f).
  { intros. rewrite l_sym by (exact L || exact I). rewrite (l_scale P es L) by exact I.
    rewrite (l_sym P es L e f0) by exact I. reflexivity. }
  rewrite (l_add P es L) by exact I. rewrite !(l_scale P es L) by exact I. rewrite !S, !T.
  rewrite (l_sym P es L e g f) by exact I. ring.
Qed.

Lemma local2 : forall e f f', In e es -> (forall x, p_cell P e x -> f x == f' x) ->
  p_form P e f f == p_form P e f' f'.
Proof.
  intros e f f' I H. rewrite (l_local P es L e f f' I H), (l_sym P es L) by exact I.
  rewrite (l_local P es L e f f' I H). reflexivity.
Qed.

(** On one cell. *)
Lemma floor_cell : forall e c t v w u, In e es -> (forall j, In j e -> v j == c * w j) -> 0 < t -> t < 1 ->
  (1 - t) * ((1 - c) * (1 - c)) * p_form P e u u
  - (/ t - 1) * (c * c) * p_form P e (fun x => p_interp P w x - u x) (fun x => p_interp P w x - u x)
  <= p_form P e (fun x => p_interp P v x - u x) (fun x => p_interp P v x - u x).
Proof.
  intros e c t v w u I H T0 T1.
  set (D := fun x => p_interp P w x - u x).
  rewrite (local2 e (fun x => p_interp P v x - u x) (fun x => c * D x + (c - 1) * u x) I).
  2:{ intros x C. rewrite (l_interp P es L e c v w I H x C). unfold D. ring. }
  rewrite form_sq by exact I.
  pose proof (l_pos P es L e (fun x => (/ t * c) * D x + (c - 1) * u x) I) as Q. rewrite form_sq in Q by exact I.
  set (dd := p_form P e D D) in *. set (du := p_form P e D u) in *. set (uu := p_form P e u u) in *.
  assert (TI : / t * t == 1) by (rewrite Qmult_comm; apply Qmult_inv_r; lra).
  set (s := / t) in *.
  assert (Q' : 0 <= t * (s * c * (s * c) * dd + 2 * (s * c) * (c - 1) * du + (c - 1) * (c - 1) * uu)).
  { apply Qmult_le_0_compat; lra. }
  assert (E : t * (s * c * (s * c) * dd + 2 * (s * c) * (c - 1) * du + (c - 1) * (c - 1) * uu) ==
     (s * t) * (s * (c * c)) * dd + (s * t) * (2 * c * (c - 1)) * du + t * ((c - 1) * (c - 1)) * uu) by ring.
  rewrite E, TI in Q'. lra.
Qed.
End Floor.
