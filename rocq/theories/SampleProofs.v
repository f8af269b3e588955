(** Proofs for C100, C101. *)
From Coq Require Import Reals ZArith List Arith Bool Lra Lia Permutation.
From Verif Require Import RSum SampleModel SampleSpec.
Import ListNotations.
Open Scope R_scope.

(** ** Sums. *)
Lemma rsum_lsum_seq : forall n f, rsum n f = lsum (seq 0 n) f.
Proof.
  induction n as [|n IH]; intros f; [reflexivity|].
  rewrite seq_S, lsum_app. simpl. rewrite IH. ring.
Qed.
Lemma lsum_map : forall A B (g : A -> B) l f, lsum (map g l) f = lsum l (fun a => f (g a)).
Proof. induction l as [|a l IH]; intros f; simpl; [reflexivity|]. now rewrite IH. Qed.
Lemma rsum_reindex : forall n s f,
  (forall i, (i < n)%nat -> (s i < n)%nat) ->
  (forall i j, (i < n)%nat -> (j < n)%nat -> s i = s j -> i = j) ->
  rsum n (fun i => f (s i)) = rsum n f.
Proof.
  intros n s f B I. rewrite !rsum_lsum_seq, <- (lsum_map _ _ s (seq 0 n) f).
  apply lsum_perm. apply NoDup_Permutation_bis.
  - assert (G : forall l, (forall i, In i l -> (i < n)%nat) -> NoDup l -> NoDup (map s l)).
    { induction l as [|a l IH]; intros L D; [constructor|]. inversion D as [|? ? N D']; subst.
      simpl. constructor; [|apply IH; auto; intros; apply L; simpl; auto].
      intros C. apply in_map_iff in C. destruct C as (b & E & Ib).
      apply N. rewrite <- (I b a); auto; apply L; simpl; auto. }
    apply G; [|apply seq_NoDup]. intros i H. apply in_seq in H. lia.
  - rewrite map_length, seq_length. lia.
  - intros j H. apply in_map_iff in H. destruct H as (i & <- & H). apply in_seq in H.
    apply in_seq. specialize (B i). lia.
Qed.
Lemma rsum_add : forall a b f, rsum (a + b) f = rsum a f + rsum b (fun j => f (a + j)%nat).
Proof.
  intros a b f. induction b as [|b IH]; simpl.
  - rewrite Nat.add_0_r. ring.
  - rewrite Nat.add_succ_r. simpl. rewrite IH. ring.
Qed.
Lemma rsum_nested : forall a b f, rsum (a * b) f = rsum a (fun i => rsum b (fun j => f (i * b + j)%nat)).
Proof.
  induction a as [|a IH]; intros b f; [reflexivity|].
  replace (S a * b)%nat with (a * b + b)%nat by lia. rewrite rsum_add. simpl rsum at 3.
  now rewrite <- IH.
Qed.
Lemma rsum_const : forall n c, rsum n (fun _ => c) = INR n * c.
Proof. induction n as [|n IH]; intros c; [simpl; ring|]. rewrite S_INR. simpl rsum. rewrite IH. ring. Qed.
Lemma rsum_le : forall n f g, (forall i, (i < n)%nat -> f i <= g i) -> rsum n f <= rsum n g.
Proof.
  induction n as [|n IH]; intros f g H; simpl; [lra|].
  pose proof (IH f g ltac:(intros; apply H; lia)). pose proof (H n ltac:(lia)). lra.
Qed.
Lemma rsum_le_eq : forall n f g, (forall i, (i < n)%nat -> f i <= g i) -> rsum n f = rsum n g ->
  forall i, (i < n)%nat -> f i = g i.
Proof.
  induction n as [|n IH]; intros f g H E i L; simpl in *; [lia|].
  pose proof (rsum_le n f g ltac:(intros; apply H; lia)) as A. pose proof (H n ltac:(lia)) as B.
  destruct (Nat.eq_dec i n) as [->|D]; [lra|]. apply (IH f g); [intros; apply H; lia|lra|lia].
Qed.

(** ** Positions. *)
Definition below (M : nat) (l : list nat) : Prop := Forall (fun i => (i < M)%nat) l.
Lemma index_length : forall d M p, length (index d M p) = d.
Proof. induction d as [|d IH]; intros M p; simpl; auto. Qed.
Lemma index_below : forall d M p, (0 < M)%nat -> (p < M ^ d)%nat -> below M (index d M p).
Proof.
  induction d as [|d IH]; intros M p P L; simpl; constructor.
  - apply Nat.div_lt_upper_bound; [apply Nat.pow_nonzero; lia|]. simpl in L. lia.
  - apply IH; auto. apply Nat.mod_upper_bound, Nat.pow_nonzero. lia.
Qed.
Lemma flat_below : forall M l, below M l -> (flat M l < M ^ length l)%nat.
Proof.
  induction l as [|i l IH]; intros B; simpl; [lia|]. inversion B; subst.
  pose proof (IH H2). nia.
Qed.
Lemma flat_index : forall d M p, (0 < M)%nat -> (p < M ^ d)%nat -> flat M (index d M p) = p.
Proof.
  induction d as [|d IH]; intros M p P L; simpl in *; [lia|].
  rewrite index_length, IH; auto; [|apply Nat.mod_upper_bound, Nat.pow_nonzero; lia].
  rewrite Nat.mul_comm. symmetry. apply Nat.div_mod, Nat.pow_nonzero. lia.
Qed.
Lemma index_flat : forall M l, (0 < M)%nat -> below M l -> index (length l) M (flat M l) = l.
Proof.
  intros M l P. induction l as [|i l IH]; intros B; [reflexivity|]. inversion B; subst. cbn [length index flat].
  pose proof (flat_below M l H2) as L.
  rewrite Nat.div_add_l by lia. rewrite (Nat.div_small _ _ L), Nat.add_0_r.
  rewrite Nat.add_comm, Nat.mod_add by lia. rewrite (Nat.mod_small _ _ L). now rewrite IH.
Qed.
Lemma index_flat' : forall d M l, (0 < M)%nat -> below M l -> length l = d -> index d M (flat M l) = l.
Proof. intros d M l P B <-. now apply index_flat. Qed.

Lemma transposed_bound : forall d M q, (0 < M)%nat -> (q < M ^ d)%nat -> (transposed d M q < M ^ d)%nat.
Proof.
  intros d M q P L. unfold transposed. pose proof (index_below d M q P L) as B. pose proof (index_length d M q) as E.
  destruct (index d M q) as [|a [|b r]].
  - rewrite <- E. now apply flat_below.
  - rewrite <- E. now apply flat_below.
  - rewrite <- E. inversion B as [|? ? A1 B']; subst. inversion B'; subst.
    apply (flat_below M (b :: a :: r)). repeat constructor; auto.
Qed.
Lemma transposed_twice : forall d M q, (0 < M)%nat -> (q < M ^ d)%nat -> transposed d M (transposed d M q) = q.
Proof.
  intros d M q P L. unfold transposed at 1. pose proof (index_below d M q P L) as B. pose proof (index_length d M q) as E.
  pose proof (flat_index d M q P L) as F.
  unfold transposed at 1. destruct (index d M q) as [|a [|b r]].
  - rewrite index_flat' by auto. auto.
  - rewrite index_flat' by auto. auto.
  - inversion B as [|? ? A1 B']; inversion B'. rewrite index_flat'; auto. repeat constructor; auto.
Qed.

Lemma rsum_tuples : forall d M f, (0 < M)%nat ->
  rsum (M ^ d) (fun q => f (index d M q)) = lsum (tuples d M) f.
Proof.
  induction d as [|d IH]; intros M f P; [simpl; ring|].
  cbn [Nat.pow tuples]. rewrite rsum_nested.
  assert (A : forall l, lsum (flat_map (fun i => map (cons i) (tuples d M)) l) f =
                        lsum l (fun i => lsum (tuples d M) (fun r => f (i :: r)))).
  { induction l as [|i l IHl]; [reflexivity|]. cbn [flat_map lsum]. now rewrite lsum_app, IHl, lsum_map. }
  rewrite A, rsum_lsum_seq. apply lsum_ext. intros i _. rewrite <- IH; auto.
  apply rsum_ext. intros j L. cbn [index]. f_equal.
  rewrite Nat.div_add_l by (apply Nat.pow_nonzero; lia). rewrite (Nat.div_small _ _ L), Nat.add_0_r.
  rewrite Nat.add_comm, Nat.mod_add by (apply Nat.pow_nonzero; lia). now rewrite (Nat.mod_small _ _ L).
Qed.

(** ** Cosine sums. *)
Lemma telescope : forall n a t,
  2 * sin (t / 2) * rsum n (fun k => cos (a + INR k * t)) = sin (a + INR n * t - t / 2) - sin (a - t / 2).
Proof.
  induction n as [|n IH]; intros a t.
  - simpl. replace (a + 0 * t - t / 2) with (a - t / 2) by ring. ring.
  - cbn [rsum]. rewrite Rmult_plus_distr_l, IH.
    replace (a + INR (S n) * t - t / 2) with ((a + INR n * t) + t / 2) by (rewrite S_INR; field).
    replace (a + INR n * t - t / 2) with ((a + INR n * t) - t / 2) by ring.
    rewrite sin_plus, (sin_minus (a + INR n * t)). ring.
Qed.
Lemma cos_period_Z : forall x z, cos (x + 2 * PI * IZR z) = cos x.
Proof.
  intros x z. destruct (Z_le_dec 0 z) as [L|L].
  - replace (2 * PI * IZR z) with (2 * INR (Z.to_nat z) * PI).
    + apply cos_period.
    + rewrite INR_IZR_INZ, Z2Nat.id by lia. ring.
  - rewrite <- (cos_period (x + 2 * PI * IZR z) (Z.to_nat (- z))). f_equal.
    rewrite INR_IZR_INZ, Z2Nat.id by lia. rewrite opp_IZR. ring.
Qed.
Lemma sin_period_Z : forall x z, sin (x + 2 * PI * IZR z) = sin x.
Proof.
  intros x z. rewrite (sin_cos x), (sin_cos (x + _)), <- Rplus_assoc, cos_period_Z. reflexivity.
Qed.
Lemma sin_PI_frac : forall M m, (0 < M)%nat -> (m mod Z.of_nat M <> 0)%Z -> sin (PI * IZR m / INR M) <> 0.
Proof.
  intros M m P D S. pose proof (lt_0_INR M P) as HM. apply sin_eq_0_0 in S. destruct S as (z & E).
  assert (IZR m = IZR z * INR M).
  { apply (Rmult_eq_reg_l PI); [|pose proof PI_RGT_0; lra].
    transitivity (PI * IZR m / INR M * INR M); [field; lra|]. rewrite E. ring. }
  rewrite INR_IZR_INZ, <- mult_IZR in H. apply eq_IZR in H. apply D. rewrite H. apply Z_mod_mult.
Qed.
Lemma cos_sum : forall M m a, (0 < M)%nat ->
  rsum M (fun k => cos (a + INR k * (2 * PI * IZR m / INR M))) =
  if Z.eqb (m mod Z.of_nat M) 0 then INR M * cos a else 0.
Proof.
  intros M m a P. pose proof (lt_0_INR M P) as HM. destruct (Z.eqb_spec (m mod Z.of_nat M) 0) as [D|D].
  - rewrite <- rsum_const. apply rsum_ext. intros k _.
    apply Z.mod_divide in D; [|lia]. destruct D as (z & ->).
    rewrite mult_IZR, <- INR_IZR_INZ.
    replace (a + INR k * (2 * PI * (IZR z * INR M) / INR M)) with (a + 2 * PI * IZR (Z.of_nat k * z)).
    + apply cos_period_Z.
    + rewrite mult_IZR, <- INR_IZR_INZ. field. lra.
  - set (t := 2 * PI * IZR m / INR M).
    assert (S : sin (t / 2) <> 0).
    { replace (t / 2) with (PI * IZR m / INR M) by (unfold t; field; lra). now apply sin_PI_frac. }
    apply (Rmult_eq_reg_l (2 * sin (t / 2))); [|lra]. rewrite telescope, Rmult_0_r.
    replace (a + INR M * t - t / 2) with ((a - t / 2) + 2 * PI * IZR m) by (unfold t; field; lra).
    rewrite sin_period_Z. ring.
Qed.

Fixpoint zdot (k : list nat) (m : list Z) : R :=
  match k, m with a :: k', b :: m' => INR a * IZR b + zdot k' m' | _, _ => 0 end.
Definition divisible (M : nat) (m : list Z) : bool := forallb (fun z => Z.eqb (z mod Z.of_nat M) 0) m.
Lemma characters : forall M, (0 < M)%nat -> forall m a,
  rsum (M ^ length m) (fun q => cos (a + 2 * PI * zdot (index (length m) M q) m / INR M)) =
  if divisible M m then INR (M ^ length m) * cos a else 0.
Proof.
  intros M P. pose proof (lt_0_INR M P) as HM. induction m as [|z m IH]; intros a.
  - simpl. replace (a + 2 * PI * 0 / INR M) with a by (field; lra). ring.
  - cbn [length Nat.pow divisible forallb]. rewrite rsum_nested.
    rewrite (rsum_ext M _ (fun i => if divisible M m
      then INR (M ^ length m) * cos (a + INR i * (2 * PI * IZR z / INR M)) else 0)).
    + fold (divisible M m). destruct (divisible M m); rewrite ?andb_true_r, ?andb_false_r.
      * rewrite rsum_scale, cos_sum by auto. rewrite mult_INR. destruct (z mod Z.of_nat M =? 0)%Z; ring.
      * apply rsum_zero.
    + intros i L. rewrite <- IH. apply rsum_ext. intros j Lj. f_equal. cbn [index zdot].
      rewrite Nat.div_add_l by (apply Nat.pow_nonzero; lia). rewrite (Nat.div_small _ _ Lj), Nat.add_0_r.
      rewrite Nat.add_comm, Nat.mod_add by (apply Nat.pow_nonzero; lia). rewrite (Nat.mod_small _ _ Lj).
      field. lra.
Qed.

(** ** Inverse transform. *)
Lemma product_inner : forall k x, INR (product_of k x) = inner k x.
Proof.
  induction k as [|a k IH]; intros [|b x]; try reflexivity.
  cbn [product_of]. rewrite plus_INR, mult_INR, IH. reflexivity.
Qed.
Definition zs (l : list nat) : list Z := map Z.of_nat l.
Definition zsub (a b : list Z) : list Z := map (fun p => (fst p - snd p)%Z) (combine a b).
Definition zadd (a b : list Z) : list Z := map (fun p => (fst p + snd p)%Z) (combine a b).
Lemma product_zdot : forall k x, INR (product_of x k) = zdot k (zs x).
Proof.
  induction k as [|a k IH]; intros [|b x]; try reflexivity.
  cbn [product_of zs map zdot]. rewrite plus_INR, mult_INR, IH, <- INR_IZR_INZ. fold (zs x). ring.
Qed.
Lemma product_comm : forall k x, product_of k x = product_of x k.
Proof. induction k as [|a k IH]; intros [|b x]; try reflexivity. cbn [product_of]. rewrite IH. lia. Qed.
Lemma zdot_sub : forall k a b, length a = length b -> zdot k (zsub a b) = zdot k a - zdot k b.
Proof.
  induction k as [|i k IH]; intros [|x a] [|y b] L; simpl in *; try ring; try discriminate.
  fold (zsub a b). rewrite IH by lia. rewrite minus_IZR. ring.
Qed.
Lemma zdot_add : forall k a b, length a = length b -> zdot k (zadd a b) = zdot k a + zdot k b.
Proof.
  induction k as [|i k IH]; intros [|x a] [|y b] L; simpl in *; try ring; try discriminate.
  fold (zadd a b). rewrite IH by lia. rewrite plus_IZR. ring.
Qed.
Lemma zsub_length : forall a b, length a = length b -> length (zsub a b) = length a.
Proof. intros. unfold zsub. rewrite map_length, combine_length. lia. Qed.
Lemma zadd_length : forall a b, length a = length b -> length (zadd a b) = length a.
Proof. intros. unfold zadd. rewrite map_length, combine_length. lia. Qed.
Definition residues (M : nat) (z : list Z) : list nat := map (fun a => Z.to_nat (a mod Z.of_nat M)) z.
Lemma residues_below : forall M z, (0 < M)%nat -> below M (residues M z).
Proof.
  intros M z P. apply Forall_forall. intros i I. apply in_map_iff in I. destruct I as (a & <- & _).
  pose proof (Z.mod_pos_bound a (Z.of_nat M) ltac:(lia)). lia.
Qed.
Lemma divisible_sub : forall M z l, (0 < M)%nat -> below M l -> length l = length z ->
  divisible M (zsub (zs l) z) = true <-> l = residues M z.
Proof.
  intros M z l P. revert z. induction l as [|i l IH]; intros [|a z] B L; simpl in L; try discriminate.
  - split; reflexivity.
  - inversion B; subst. cbn [zs map zsub combine divisible forallb residues fst snd].
    fold (zs l) (zsub (zs l) z) (divisible M (zsub (zs l) z)) (residues M z).
    rewrite andb_true_iff, IH, Z.eqb_eq by (auto; lia).
    assert (E : ((Z.of_nat i - a) mod Z.of_nat M = 0)%Z <-> i = Z.to_nat (a mod Z.of_nat M)).
    { pose proof (Z.mod_pos_bound a (Z.of_nat M) ltac:(lia)) as A. split; intros E.
      - apply Z.mod_divide in E; [|lia]. destruct E as (w & E).
        assert ((a mod Z.of_nat M = Z.of_nat i)%Z); [|lia].
        symmetry. apply (Z.mod_unique_pos a (Z.of_nat M) (- w)); lia.
      - subst i. rewrite Z2Nat.id by lia. apply Z.mod_divide; [lia|].
        exists (- (a / Z.of_nat M))%Z. pose proof (Z.div_mod a (Z.of_nat M) ltac:(lia)). lia. }
    rewrite E. split; intros H; [destruct H; f_equal; auto|injection H; auto].
Qed.
Lemma zadd_opp : forall a z, length a = length z -> zadd a z = zsub a (map Z.opp z).
Proof.
  induction a as [|x a IH]; intros [|y z] L; simpl in *; try discriminate; [reflexivity|].
  unfold zadd, zsub in *. cbn [combine map fst snd]. rewrite IH by lia. f_equal. lia.
Qed.
Lemma cos_cos : forall a b, cos a * cos b = / 2 * cos (b - a) + / 2 * cos (b + a).
Proof. intros a b. rewrite cos_minus, cos_plus. field. Qed.

Section Inverse.
Variables (d M : nat) (c : list nat -> R).
Hypothesis P : (0 < M)%nat.

Definition lam (k : nat) : R := rsum (M ^ d) (fun p => c (index d M p) * cos (angle d M k p)).
Definition ang (k : nat) (z : list Z) : R := 2 * PI * zdot (index d M k) z / INR M.

Lemma delta_sum : forall z, length z = d ->
  rsum (M ^ d) (fun p => c (index d M p) * rsum (M ^ d) (fun k => cos (ang k (zsub (zs (index d M p)) z))))
  = INR (M ^ d) * c (residues M z).
Proof.
  intros z L. pose proof (residues_below M z P) as B.
  assert (Lr : length (residues M z) = d) by (unfold residues; rewrite map_length; auto).
  assert (FB : (flat M (residues M z) < M ^ d)%nat) by (pose proof (flat_below M _ B) as F; now rewrite Lr in F).
  assert (C : forall p, (p < M ^ d)%nat ->
    rsum (M ^ d) (fun k => cos (ang k (zsub (zs (index d M p)) z))) =
    if divisible M (zsub (zs (index d M p)) z) then INR (M ^ d) else 0).
  { intros p Lp. set (m := zsub (zs (index d M p)) z).
    assert (Lm : length m = d).
    { unfold m. rewrite zsub_length; unfold zs; rewrite map_length, index_length; auto. }
    pose proof (characters M P m 0) as H. rewrite Lm, cos_0, Rmult_1_r in H. rewrite <- H.
    apply rsum_ext. intros k _. unfold ang. f_equal. ring. }
  rewrite (rsum_single _ (flat M (residues M z))); auto.
  - rewrite C by auto. rewrite index_flat' by auto.
    replace (divisible M (zsub (zs (residues M z)) z)) with true; [ring|].
    symmetry. apply divisible_sub; auto. lia.
  - intros p Lp N. rewrite C by auto.
    destruct (divisible M (zsub (zs (index d M p)) z)) eqn:D; [|ring].
    apply divisible_sub in D; auto; [|now apply index_below|rewrite index_length; auto].
    exfalso. apply N. rewrite <- D, flat_index; auto.
Qed.

Lemma angle_zdot : forall k p, angle d M k p = ang k (zs (index d M p)).
Proof.
  intros k p. unfold angle, ang. rewrite <- product_zdot, product_comm. reflexivity.
Qed.

(** Cosine sums of the eigenvalues give back the array, made even. *)
Lemma inversion_even : forall z, length z = d ->
  rsum (M ^ d) (fun k => lam k * cos (ang k z)) =
  INR (M ^ d) * (/ 2 * (c (residues M z) + c (residues M (map Z.opp z)))).
Proof.
  intros z L. unfold lam.
  rewrite (rsum_ext _ _ (fun k => rsum (M ^ d) (fun p =>
     / 2 * (c (index d M p) * cos (ang k (zsub (zs (index d M p)) z)))
     + / 2 * (c (index d M p) * cos (ang k (zsub (zs (index d M p)) (map Z.opp z))))))).
  - rewrite rsum_swap.
    rewrite (rsum_ext _ _ (fun p =>
      / 2 * (c (index d M p) * rsum (M ^ d) (fun k => cos (ang k (zsub (zs (index d M p)) z)))) +
      / 2 * (c (index d M p) * rsum (M ^ d) (fun k => cos (ang k (zsub (zs (index d M p)) (map Z.opp z))))))).
    + rewrite rsum_plus, !rsum_scale, !delta_sum; rewrite ?map_length; auto. ring.
    + intros p _. now rewrite rsum_plus, !rsum_scale.
  - intros k _. rewrite <- rsum_scale_r. apply rsum_ext. intros p _.
    rewrite angle_zdot.
    replace (c (index d M p) * cos (ang k (zs (index d M p))) * cos (ang k z)) with
      (c (index d M p) * (cos (ang k z) * cos (ang k (zs (index d M p))))) by ring.
    rewrite cos_cos. rewrite <- zadd_opp by (unfold zs; rewrite map_length, index_length; auto).
    unfold ang. rewrite zdot_sub, zdot_add by (unfold zs; rewrite map_length, index_length; auto).
    set (a := zdot (index d M k) (zs (index d M p))). set (b := zdot (index d M k) z).
    replace (2 * PI * (a - b) / INR M) with (2 * PI * a / INR M - 2 * PI * b / INR M) by (unfold Rdiv; ring).
    replace (2 * PI * (a + b) / INR M) with (2 * PI * a / INR M + 2 * PI * b / INR M) by (unfold Rdiv; ring).
    ring.
Qed.

(** Opposite index. *)
Definition opposite (l : list nat) : list nat := residues M (map Z.opp (zs l)).
Lemma opposite_zdot : forall l z, below M l ->
  exists w, zdot (opposite l) z = INR M * IZR w - zdot l z.
Proof.
  induction l as [|i l IH]; intros [|a z] B; simpl.
  - exists 0%Z. ring.
  - exists 0%Z. ring.
  - exists 0%Z. ring.
  - inversion B; subst. destruct (IH z H2) as (w & E). unfold opposite, zs in *. rewrite E.
    assert (X : exists v, INR (Z.to_nat (- Z.of_nat i mod Z.of_nat M)) = INR M * IZR v - INR i).
    { exists (- (- Z.of_nat i / Z.of_nat M))%Z.
      pose proof (Z.mod_pos_bound (- Z.of_nat i) (Z.of_nat M) ltac:(lia)).
      pose proof (Z.div_mod (- Z.of_nat i) (Z.of_nat M) ltac:(lia)) as D.
      rewrite !INR_IZR_INZ, Z2Nat.id by lia. rewrite <- mult_IZR, <- minus_IZR. f_equal. lia. }
    destruct X as (v & X). rewrite X. exists (v * a + w)%Z. rewrite plus_IZR, mult_IZR. ring.
Qed.
Lemma opposite_inj : forall l l', below M l -> below M l' -> opposite l = opposite l' -> l = l'.
Proof.
  induction l as [|i l IH]; intros [|j l'] B B' E; try discriminate; auto.
  inversion B; inversion B'; subst. unfold opposite, zs, residues in *. cbn [map] in E.
  injection E as E1 E2. f_equal; [|apply IH; auto].
  pose proof (Z.mod_pos_bound (- Z.of_nat i) (Z.of_nat M) ltac:(lia)).
  pose proof (Z.mod_pos_bound (- Z.of_nat j) (Z.of_nat M) ltac:(lia)).
  pose proof (Z.div_mod (- Z.of_nat i) (Z.of_nat M) ltac:(lia)).
  pose proof (Z.div_mod (- Z.of_nat j) (Z.of_nat M) ltac:(lia)).
  assert ((- Z.of_nat i) mod Z.of_nat M = (- Z.of_nat j) mod Z.of_nat M)%Z as E3 by lia.
  assert (- Z.of_nat i / Z.of_nat M = - Z.of_nat j / Z.of_nat M)%Z as E4.
  { assert (Z.of_nat M * (- Z.of_nat i / Z.of_nat M - - Z.of_nat j / Z.of_nat M) = Z.of_nat j - Z.of_nat i)%Z by lia.
    nia. }
  rewrite E3, E4 in *. lia.
Qed.
Definition opp_pos (k : nat) : nat := flat M (opposite (index d M k)).
Lemma opposite_length : forall l, length (opposite l) = length l.
Proof. intros l. unfold opposite, residues, zs. now rewrite !map_length. Qed.
Lemma opp_pos_bound : forall k, (opp_pos k < M ^ d)%nat.
Proof.
  intros k. unfold opp_pos. pose proof (flat_below M (opposite (index d M k)) (residues_below M _ P)) as H.
  now rewrite opposite_length, index_length in H.
Qed.
Lemma index_opp_pos : forall k, index d M (opp_pos k) = opposite (index d M k).
Proof.
  intros k. apply index_flat'; auto; [apply residues_below; auto|].
  now rewrite opposite_length, index_length.
Qed.
Lemma opp_pos_inj : forall i j, (i < M ^ d)%nat -> (j < M ^ d)%nat -> opp_pos i = opp_pos j -> i = j.
Proof.
  intros i j I J E. apply (f_equal (index d M)) in E. rewrite !index_opp_pos in E.
  apply opposite_inj in E; try (now apply index_below).
  rewrite <- (flat_index d M i), <- (flat_index d M j), E; auto.
Qed.
Lemma ang_opp : forall k z, (k < M ^ d)%nat -> exists w, ang (opp_pos k) z = - ang k z + 2 * PI * IZR w.
Proof.
  intros k z L. pose proof (lt_0_INR M P) as HM. unfold ang. rewrite index_opp_pos.
  destruct (opposite_zdot (index d M k) z (index_below d M k P L)) as (w & E).
  exists w. rewrite E. field. lra.
Qed.
Lemma lam_opp : forall k, (k < M ^ d)%nat -> lam (opp_pos k) = lam k.
Proof.
  intros k L. unfold lam. apply rsum_ext. intros p _. f_equal. rewrite !angle_zdot.
  destruct (ang_opp k (zs (index d M p)) L) as (w & ->). rewrite cos_period_Z. apply cos_neg.
Qed.
(** Sine sums of the absolute eigenvalues vanish. *)
Lemma sine_sum : forall (f : R -> R) z,
  rsum (M ^ d) (fun k => f (lam k) * sin (ang k z)) = 0.
Proof.
  intros f z. set (S := rsum (M ^ d) (fun k => f (lam k) * sin (ang k z))).
  assert (E : S = - S); [|lra].
  unfold S at 1. rewrite <- (rsum_reindex (M ^ d) opp_pos).
  - unfold S. rewrite <- rsum_opp. apply rsum_ext. intros k L. rewrite lam_opp by auto.
    destruct (ang_opp k z L) as (w & ->). rewrite sin_period_Z, sin_neg. ring.
  - intros; apply opp_pos_bound.
  - intros; now apply opp_pos_inj.
Qed.
End Inverse.

(** ** Expected values of sums of random numbers. *)
Section Noise.
Context {Omega : Type} (P K : nat) (E : (Omega -> R) -> R) (n : nat -> nat -> Omega -> R).
Hypothesis WN : white_noise P K E n.

Lemma E_zero : E (fun _ => 0) = 0.
Proof.
  rewrite (wn_ext P K E n WN _ (fun w => 0 * n 0%nat 0%nat w)) by (intros; ring).
  rewrite (wn_scale P K E n WN). ring.
Qed.
Lemma E_rsum : forall m (f : nat -> Omega -> R),
  E (fun w => rsum m (fun k => f k w)) = rsum m (fun k => E (f k)).
Proof.
  induction m as [|m IH]; intros f; cbn [rsum]; [apply E_zero|].
  rewrite (wn_plus P K E n WN). now rewrite IH.
Qed.
(** Numbers selected by [rank] and [number]. *)
Variables (rank number : nat -> nat -> nat -> nat).
Variable m T : nat.
Hypothesis used : forall t k e, (t < T)%nat -> (k < m)%nat -> (e < 2)%nat -> (rank t k e < P)%nat /\ (number t k e < K)%nat.
Definition pick (t k e : nat) : Omega -> R := n (rank t k e) (number t k e).
Hypothesis distinct : forall t k e t' k' e', (k < m)%nat -> (k' < m)%nat -> (e < 2)%nat -> (e' < 2)%nat ->
  rank t k e = rank t' k' e' -> number t k e = number t' k' e' -> t = t' /\ k = k' /\ e = e'.
Lemma pick_cov : forall t k e t' k' e', (t < T)%nat -> (t' < T)%nat -> (k < m)%nat -> (k' < m)%nat -> (e < 2)%nat -> (e' < 2)%nat ->
  E (fun w => pick t k e w * pick t' k' e' w) =
  if Nat.eqb t t' && Nat.eqb k k' && Nat.eqb e e' then 1 else 0.
Proof.
  intros t k e t' k' e' Ht Ht' Hk Hk' He He'. unfold pick.
  destruct (used t k e Ht Hk He). destruct (used t' k' e' Ht' Hk' He').
  rewrite (wn_cov P K E n WN) by auto.
  destruct (Nat.eqb t t' && Nat.eqb k k' && Nat.eqb e e') eqn:B.
  - rewrite !andb_true_iff, !Nat.eqb_eq in B. destruct B as [[-> ->] ->]. now rewrite !Nat.eqb_refl.
  - destruct (Nat.eqb_spec (rank t k e) (rank t' k' e')) as [X|X]; auto.
    destruct (Nat.eqb_spec (number t k e) (number t' k' e')) as [Y|Y]; auto.
    destruct (distinct t k e t' k' e' Hk Hk' He He' X Y) as (-> & -> & ->).
    rewrite !Nat.eqb_refl in B. discriminate.
Qed.
Definition combo (t : nat) (A B : nat -> R) (w : Omega) : R :=
  rsum m (fun k => A k * pick t k 0 w + B k * pick t k 1 w).
Lemma combo_mean : forall t A B, (t < T)%nat -> E (combo t A B) = 0.
Proof.
  intros t A B Ht. unfold combo. rewrite E_rsum. apply rsum_0. intros k Lk.
  destruct (used t k 0 Ht Lk ltac:(lia)). destruct (used t k 1 Ht Lk ltac:(lia)).
  rewrite (wn_plus P K E n WN), !(wn_scale P K E n WN). unfold pick. rewrite !(wn_mean P K E n WN) by auto. ring.
Qed.
Lemma combo_cov : forall t t' A B C D, (t < T)%nat -> (t' < T)%nat ->
  E (fun w => combo t A B w * combo t' C D w) =
  if Nat.eqb t t' then rsum m (fun k => A k * C k + B k * D k) else 0.
Proof.
  intros t t' A B C D Ht Ht'. unfold combo.
  rewrite (wn_ext P K E n WN _ (fun w => rsum m (fun k => rsum m (fun k' =>
     (A k * C k') * (pick t k 0 w * pick t' k' 0 w) +
     ((A k * D k') * (pick t k 0 w * pick t' k' 1 w) +
     ((B k * C k') * (pick t k 1 w * pick t' k' 0 w) +
      (B k * D k') * (pick t k 1 w * pick t' k' 1 w))))))).
  2:{ intros w. rewrite <- rsum_scale_r. apply rsum_ext. intros k _. rewrite <- rsum_scale.
      apply rsum_ext. intros k' _. ring. }
  rewrite E_rsum.
  rewrite (rsum_ext m _ (fun k => if Nat.eqb t t' then A k * C k + B k * D k else 0)).
  { destruct (Nat.eqb t t'); [reflexivity|apply rsum_zero]. }
  intros k Lk. rewrite E_rsum.
  rewrite (rsum_ext m _ (fun k' => if Nat.eqb t t' && Nat.eqb k k' then A k * C k' + B k * D k' else 0)).
  2:{ intros k' Lk'. rewrite !(wn_plus P K E n WN), !(wn_scale P K E n WN), !pick_cov by lia.
      destruct (Nat.eqb t t'), (Nat.eqb k k'); cbn [andb Nat.eqb]; ring. }
  destruct (Nat.eqb t t'); cbn [andb]; [|apply rsum_zero].
  rewrite (rsum_single m k); [now rewrite Nat.eqb_refl|auto|].
  intros j _ N. destruct (Nat.eqb_spec k j); [congruence|reflexivity].
Qed.
End Noise.

(** ** The generated field. *)
Lemma div_mul_add : forall a b c, (0 < b)%nat -> (c < b)%nat -> ((a * b + c) / b = a /\ (a * b + c) mod b = c)%nat.
Proof.
  intros a b c B C. rewrite Nat.div_add_l by lia. rewrite (Nat.div_small c b C).
  rewrite (Nat.add_comm (a * b) c), Nat.mod_add by lia. rewrite (Nat.mod_small c b C). lia.
Qed.
Lemma index_split : forall d M rows q, (0 < M)%nat -> (0 < rows)%nat ->
  let W := (rows * M ^ d)%nat in
  index (S d) M q =
  match index (S d) M (q mod W) with i :: rest => (q / W * rows + i)%nat :: rest | [] => [] end.
Proof.
  intros d M rows q P R W. cbn [index]. set (K := (M ^ d)%nat).
  assert (KP : (0 < K)%nat) by (unfold K; pose proof (Nat.pow_nonzero M d); lia).
  assert (E : (q mod W = (q / K) mod rows * K + q mod K)%nat).
  { unfold W. fold K. rewrite (Nat.mul_comm rows K), Nat.mod_mul_r by lia. lia. }
  rewrite E. destruct (div_mul_add ((q / K) mod rows) K (q mod K) KP (Nat.mod_upper_bound q K ltac:(lia))) as (-> & ->).
  f_equal. unfold W. fold K. rewrite (Nat.mul_comm rows K), <- Nat.div_div by lia.
  pose proof (Nat.div_mod (q / K) rows ltac:(lia)). lia.
Qed.
Lemma whole_window : forall A W (g : nat -> A) q, (0 < W)%nat -> whole W (window W g) q = g q.
Proof.
  intros A W g q P. unfold whole, window. f_equal. pose proof (Nat.div_mod q W ltac:(lia)). lia.
Qed.
Lemma coordinate_circle : forall N i, (0 < N)%nat -> (i < 2 * N)%nat -> coordinate N i = circle N i.
Proof.
  intros N i P L. pose proof (lt_0_INR N P). unfold coordinate, circle. destruct (Nat.ltb_spec N i).
  - rewrite Nat.min_r by lia. field. lra.
  - rewrite Nat.min_l by lia. field. lra.
Qed.

Section Field.
Variables (d N nProc : nat) (corr : list R -> R).
Notation dim := (S d).
Notation M := (nodes N).
Hypothesis PN : (0 < N)%nat.
Hypothesis PP : (0 < nProc)%nat.
Hypothesis PD : Nat.divide nProc (2 * N).
Notation W := (entries dim N nProc).
Notation rws := (rows N nProc).

Lemma M_pos : (0 < M)%nat.
Proof. unfold nodes. lia. Qed.
Lemma rows_total : (rws * nProc = M)%nat.
Proof.
  destruct PD as (z & E). unfold rows, nodes. rewrite E, Nat.div_mul by lia. lia.
Qed.
Lemma rows_pos : (0 < rws)%nat.
Proof. pose proof rows_total. pose proof M_pos. destruct rws; lia. Qed.
Lemma W_def : W = (rws * M ^ d)%nat.
Proof. unfold entries. now replace (S d - 1)%nat with d by lia. Qed.
Lemma W_pos : (0 < W)%nat.
Proof. rewrite W_def. pose proof rows_pos. pose proof (Nat.pow_nonzero M d). pose proof M_pos. nia. Qed.

Definition cc (l : list nat) : R := corr (map (circle N) l).
Lemma whole_fill : forall q, (q < M ^ dim)%nat ->
  whole W (fill dim N nProc corr) q = (cc (index dim M q), 0).
Proof.
  intros q L. unfold whole, fill. pose proof (index_split d M rws q M_pos rows_pos) as E. cbn zeta in E.
  rewrite <- W_def in E. pose proof (index_below dim M q M_pos L) as B. rewrite E in B. rewrite E. unfold cc.
  destruct (index dim M (q mod W)) as [|i rest] eqn:I.
  - pose proof (index_length dim M (q mod W)). rewrite I in H. discriminate.
  - inversion B; subst. cbn [map]. rewrite coordinate_circle by (auto; unfold nodes in *; lia).
    do 3 f_equal. apply map_ext_in. intros j J. apply coordinate_circle; auto.
    rewrite Forall_forall in H2. apply H2 in J. unfold nodes in J. lia.
Qed.
Definition ev (k : nat) : R := lam dim M cc k.
Lemma ev_eigenvalue : forall k, ev k = eigenvalue dim N corr (index dim M k).
Proof.
  intros k. unfold ev, lam, eigenvalue. change (2 * N)%nat with M.
  rewrite <- (rsum_tuples dim M _ M_pos). apply rsum_ext. intros p _. unfold cc, angle.
  now rewrite product_inner.
Qed.
Lemma dft_fill : forall k, (k < M ^ dim)%nat -> fst (dft dim M (-1) (whole W (fill dim N nProc corr)) k) = ev k.
Proof.
  intros k L. unfold dft, ev, lam. cbn [fst]. apply rsum_ext. intros p Lp. rewrite whole_fill by auto.
  cbn [fst snd]. replace (-1 * angle dim M k p) with (- angle dim M k p) by ring. rewrite cos_neg. ring.
Qed.
Definition amp (k : nat) : R := sqrt (1 / INR (M ^ dim) * Rabs (ev k)).
Lemma volume_pos : 0 < INR (M ^ dim).
Proof. apply lt_0_INR. pose proof (Nat.pow_nonzero M dim). pose proof M_pos. lia. Qed.
Lemma amp_square : forall k, amp k * amp k = 1 / INR (M ^ dim) * Rabs (ev k).
Proof.
  intros k. apply sqrt_sqrt. pose proof volume_pos. apply Rmult_le_pos; [|apply Rabs_pos].
  apply Rlt_le, Rdiv_lt_0_compat; lra.
Qed.
Lemma whole_base : forall k, (k < M ^ dim)%nat ->
  whole W (base dim N nProc corr) (transposed dim M k) = amp k.
Proof.
  intros k L. unfold base, transform, amp. unfold whole at 1.
  change (window W ?g (?q / W)%nat (?q mod W)%nat) with (whole W (window W g) q).
  rewrite whole_window by apply W_pos. rewrite transposed_twice by (auto using M_pos). now rewrite dft_fill.
Qed.

Context {Omega : Type} (T : nat) (E : (Omega -> R) -> R) (n : nat -> nat -> Omega -> R).
Notation P := nProc.
Notation K := (draws dim N nProc T).
Hypothesis WN : white_noise P K E n.
Definition rk (t k e : nat) : nat := (transposed dim M k / W)%nat.
Definition nb (t k e : nat) : nat := (t * (2 * W) + (2 * (transposed dim M k mod W) + e))%nat.
Lemma numbers_distinct : forall t k e t' k' e', (k < M ^ dim)%nat -> (k' < M ^ dim)%nat -> (e < 2)%nat -> (e' < 2)%nat ->
  rk t k e = rk t' k' e' -> nb t k e = nb t' k' e' -> t = t' /\ k = k' /\ e = e'.
Proof.
  intros t k e t' k' e' K K' Ee Ee' A B. unfold rk in A. unfold nb in B. pose proof W_pos as WP.
  pose proof (Nat.mod_upper_bound (transposed dim M k) W ltac:(lia)) as U.
  pose proof (Nat.mod_upper_bound (transposed dim M k') W ltac:(lia)) as U'.
  destruct (div_mul_add t (2 * W) (2 * (transposed dim M k mod W) + e) ltac:(lia) ltac:(lia)) as (D1 & D2).
  destruct (div_mul_add t' (2 * W) (2 * (transposed dim M k' mod W) + e') ltac:(lia) ltac:(lia)) as (D1' & D2').
  rewrite B in D1, D2. rewrite D1 in D1'. rewrite D2 in D2'. clear D1 D2 B.
  assert (X : (transposed dim M k mod W = transposed dim M k' mod W)%nat) by lia.
  split; [auto|]. split; [|lia].
  rewrite <- (transposed_twice dim M k M_pos K), <- (transposed_twice dim M k' M_pos K'). f_equal.
  rewrite (Nat.div_mod (transposed dim M k) W), (Nat.div_mod (transposed dim M k') W) by lia. now rewrite A, X.
Qed.
Lemma draws_def : draws dim N nProc T = (T * (2 * W))%nat.
Proof.
  unfold draws. do 2 f_equal. change (2 * N)%nat with M. cbn [Nat.pow]. rewrite <- rows_total at 1.
  rewrite W_def. replace (rws * nProc * M ^ d)%nat with (rws * M ^ d * nProc)%nat by lia.
  apply Nat.div_mul. lia.
Qed.
Lemma numbers_used : forall t k e, (t < T)%nat -> (k < M ^ dim)%nat -> (e < 2)%nat ->
  (rk t k e < P)%nat /\ (nb t k e < K)%nat.
Proof.
  intros t k e Ht Hk He. unfold rk, nb. pose proof W_pos as WP. split.
  - apply Nat.div_lt_upper_bound; [lia|]. pose proof (transposed_bound dim M k M_pos Hk) as B.
    cbn [Nat.pow] in B. rewrite <- rows_total in B at 2. rewrite W_def. lia.
  - rewrite draws_def. pose proof (Nat.mod_upper_bound (transposed dim M k) W ltac:(lia)). nia.
Qed.
Definition th (q k : nat) : R := angle dim M q k.
Definition CA (part q k : nat) : R := if Nat.eqb part 0 then amp k * cos (th q k) else amp k * sin (th q k).
Definition CB (part q k : nat) : R := if Nat.eqb part 0 then - (amp k * sin (th q k)) else amp k * cos (th q k).

Lemma log_value : forall t part x w, length x = dim -> below M x ->
  ln (node_value dim N nProc corr (fun r i => n r i w) t part x) =
  combo n rk nb (M ^ dim) t (CA part (flat M x)) (CB part (flat M x)) w.
Proof.
  intros t part x w L B. destruct x as [|i rest]; [discriminate|]. cbn [length] in L. injection L as L.
  cbn [node_value]. unfold layer. set (r := (i / rws)%nat). set (p := ((i mod rws) * M ^ length rest + flat M rest)%nat).
  assert (Q : (r * W + p = flat M (i :: rest))%nat).
  { unfold r, p. rewrite W_def, L. cbn [flat]. rewrite L.
    pose proof (Nat.div_mod i rws ltac:(pose proof rows_pos; lia)). nia. }
  unfold window. rewrite Q. clear Q r p. set (q := flat M (i :: rest)).
  assert (X : forall k, (k < M ^ dim)%nat ->
    whole W (noise dim N nProc corr (fun r i => n r i w) t) (transposed dim M k) =
    (pick n rk nb t k 0 w * amp k, pick n rk nb t k 1 w * amp k)).
  { intros k K. unfold whole, noise, pick, rk, nb. rewrite <- (whole_base k K). unfold whole.
    now rewrite Nat.add_0_r. }
  unfold combo, CA, CB, th. destruct (Nat.eqb part 0); cbn [fst snd]; rewrite ln_exp; unfold dft; cbn [fst snd];
    apply rsum_ext; intros k K; rewrite X by auto; cbn [fst snd]; rewrite Rmult_1_l; ring.
Qed.
Lemma node_below : forall x, node dim N x -> below M x /\ length x = dim.
Proof.
  intros x (L & F). split; auto. apply Forall_forall. intros i I. rewrite Forall_forall in F. apply F in I.
  unfold nodes. lia.
Qed.
Lemma value_positive : forall t part x w, x <> [] ->
  0 < node_value dim N nProc corr (fun r i => n r i w) t part x.
Proof.
  intros t part [|i rest] w X; [congruence|]. cbn [node_value]. unfold layer.
  destruct (Nat.eqb part 0); cbn [fst snd]; apply exp_pos.
Qed.
Lemma field_mean : forall t part x, (t < T)%nat -> node dim N x ->
  E (fun w => ln (node_value dim N nProc corr (fun r i => n r i w) t part x)) = 0.
Proof.
  intros t part x Ht H. apply node_below in H. destruct H as (B & L).
  rewrite (wn_ext P K E n WN _ (combo n rk nb (M ^ dim) t (CA part (flat M x)) (CB part (flat M x))))
    by (intros; now apply log_value).
  now apply (combo_mean P K E n WN rk nb (M ^ dim) T numbers_used).
Qed.
Definition same_part (a b : nat) : bool := Bool.eqb (Nat.eqb a 0) (Nat.eqb b 0).
Lemma th_diff : forall x y k, length x = dim -> length y = dim -> below M x -> below M y ->
  th (flat M x) k - th (flat M y) k = ang dim M k (zsub (zs x) (zs y)).
Proof.
  intros x y k Lx Ly Bx By. unfold th, angle, ang. rewrite !index_flat' by (auto using M_pos).
  rewrite zdot_sub by (unfold zs; rewrite !map_length; lia). rewrite !product_zdot. unfold Rdiv. ring.
Qed.
Definition kernel (x y : list nat) : R :=
  1 / INR (M ^ dim) * rsum (M ^ dim) (fun k => Rabs (ev k) * cos (ang dim M k (zsub (zs x) (zs y)))).
Lemma field_cov : forall t a x t' b y, (t < T)%nat -> (t' < T)%nat -> node dim N x -> node dim N y ->
  E (fun w => ln (node_value dim N nProc corr (fun r i => n r i w) t a x) *
              ln (node_value dim N nProc corr (fun r i => n r i w) t' b y)) =
  if Nat.eqb t t' && same_part a b then kernel x y else 0.
Proof.
  intros t a x t' b y Ht Ht' Hx Hy. apply node_below in Hx. apply node_below in Hy.
  destruct Hx as (Bx & Lx). destruct Hy as (By & Ly).
  rewrite (wn_ext P K E n WN _ (fun w => combo n rk nb (M ^ dim) t (CA a (flat M x)) (CB a (flat M x)) w *
     combo n rk nb (M ^ dim) t' (CA b (flat M y)) (CB b (flat M y)) w)) by (intros; now rewrite !log_value).
  rewrite (combo_cov P K E n WN rk nb (M ^ dim) T numbers_used numbers_distinct) by auto.
  destruct (Nat.eqb t t'); [cbn [andb]|reflexivity]. unfold same_part, CA, CB, kernel.
  assert (S : forall k u v, amp k * u * (amp k * v) = 1 / INR (M ^ dim) * Rabs (ev k) * (u * v)).
  { intros. rewrite <- amp_square. ring. }
  destruct (Nat.eqb a 0), (Nat.eqb b 0); cbn [Bool.eqb].
  - rewrite <- rsum_scale. apply rsum_ext. intros k K. rewrite <- th_diff, cos_minus by auto.
    replace (- (amp k * sin (th (flat M x) k)) * - (amp k * sin (th (flat M y) k))) with
      (amp k * sin (th (flat M x) k) * (amp k * sin (th (flat M y) k))) by ring.
    rewrite !S. ring.
  - transitivity (- (1 / INR (M ^ dim)) * rsum (M ^ dim) (fun k => Rabs (ev k) * sin (ang dim M k (zsub (zs x) (zs y))))).
    + rewrite <- rsum_scale. apply rsum_ext. intros k K. rewrite <- th_diff, sin_minus by auto.
      replace (- (amp k * sin (th (flat M x) k)) * (amp k * cos (th (flat M y) k))) with
        (- (amp k * sin (th (flat M x) k) * (amp k * cos (th (flat M y) k)))) by ring.
      rewrite !S. ring.
    + rewrite (sine_sum dim M cc M_pos Rabs). ring.
  - transitivity (1 / INR (M ^ dim) * rsum (M ^ dim) (fun k => Rabs (ev k) * sin (ang dim M k (zsub (zs x) (zs y))))).
    + rewrite <- rsum_scale. apply rsum_ext. intros k K. rewrite <- th_diff, sin_minus by auto.
      replace (amp k * cos (th (flat M x) k) * - (amp k * sin (th (flat M y) k))) with
        (- (amp k * cos (th (flat M x) k) * (amp k * sin (th (flat M y) k)))) by ring.
      rewrite !S. ring.
    + rewrite (sine_sum dim M cc M_pos Rabs). ring.
  - rewrite <- rsum_scale. apply rsum_ext. intros k K. rewrite <- th_diff, cos_minus by auto.
    rewrite !S. ring.
Qed.
Lemma circle_difference : forall a b, (a <= N)%nat -> (b <= N)%nat ->
  circle N (Z.to_nat ((Z.of_nat a - Z.of_nat b) mod Z.of_nat M)) = Rabs (INR a - INR b) / INR N.
Proof.
  intros a b A B. unfold circle. f_equal.
  destruct (le_lt_dec b a) as [L|L].
  - rewrite <- minus_INR by lia. rewrite Rabs_right by (apply Rle_ge, pos_INR). f_equal.
    rewrite Z.mod_small by (unfold nodes; lia). lia.
  - replace (INR a - INR b) with (- (INR (b - a))) by (rewrite minus_INR by lia; ring).
    rewrite Rabs_Ropp, Rabs_right by (apply Rle_ge, pos_INR). f_equal.
    replace ((Z.of_nat a - Z.of_nat b) mod Z.of_nat M)%Z with (Z.of_nat M + Z.of_nat a - Z.of_nat b)%Z.
    + unfold nodes. lia.
    + apply (Z.mod_unique_pos _ _ (-1)); unfold nodes; lia.
Qed.
Lemma cc_difference : forall x y, length x = length y -> Forall (fun i => (i <= N)%nat) x ->
  Forall (fun i => (i <= N)%nat) y ->
  map (circle N) (residues M (zsub (zs x) (zs y))) = difference N x y.
Proof.
  induction x as [|a x IH]; intros [|b y] L X Y; try discriminate; [reflexivity|].
  inversion X; inversion Y; subst. unfold residues, zsub, zs, difference in *. cbn [map combine fst snd] in *.
  rewrite IH by (auto; simpl in L; lia). f_equal. now apply circle_difference.
Qed.
Lemma opp_zsub : forall a b, map Z.opp (zsub a b) = zsub b a.
Proof.
  unfold zsub. induction a as [|x a IH]; intros [|y b]; try reflexivity.
  cbn [combine map fst snd]. rewrite IH. f_equal. lia.
Qed.
Lemma difference_comm : forall x y, difference N x y = difference N y x.
Proof.
  unfold difference. induction x as [|a x IH]; intros [|b y]; try reflexivity.
  cbn [combine map fst snd]. rewrite IH. now rewrite Rabs_minus_sym.
Qed.
Lemma ev_inversion : forall x y, node dim N x -> node dim N y ->
  1 / INR (M ^ dim) * rsum (M ^ dim) (fun k => ev k * cos (ang dim M k (zsub (zs x) (zs y)))) = corr (difference N x y).
Proof.
  intros x y (Lx & Fx) (Ly & Fy). pose proof volume_pos. unfold ev.
  rewrite inversion_even by (apply M_pos || (rewrite zsub_length; unfold zs; rewrite !map_length; lia)).
  rewrite opp_zsub. unfold cc. rewrite !cc_difference by (auto; lia).
  rewrite (difference_comm y x). field. lra.
Qed.
Lemma kernel_nonneg : forall x y, node dim N x -> node dim N y ->
  (forall k, (k < M ^ dim)%nat -> 0 <= ev k) -> kernel x y = corr (difference N x y).
Proof.
  intros x y X Y H. rewrite <- ev_inversion by auto. unfold kernel. f_equal. apply rsum_ext. intros k K.
  rewrite Rabs_right; auto. apply Rle_ge. auto.
Qed.
Lemma ang_self : forall x k, cos (ang dim M k (zsub (zs x) (zs x))) = 1.
Proof.
  intros x k. unfold ang. rewrite zdot_sub by reflexivity. rewrite <- cos_0. f_equal. unfold Rdiv. ring.
Qed.
Lemma kernel_self : forall x, kernel x x = 1 / INR (M ^ dim) * rsum (M ^ dim) (fun k => Rabs (ev k)).
Proof. intros x. unfold kernel. f_equal. apply rsum_ext. intros k _. rewrite ang_self. ring. Qed.
Lemma kernel_variance : forall x, node dim N x ->
  corr (difference N x x) <= kernel x x /\
  (kernel x x = corr (difference N x x) <-> forall k, (k < M ^ dim)%nat -> 0 <= ev k).
Proof.
  intros x X. pose proof volume_pos as V. pose proof (ev_inversion x x X X) as I.
  rewrite (rsum_ext _ _ ev) in I by (intros; rewrite ang_self; ring).
  assert (V' : 0 < 1 / INR (M ^ dim)) by (apply Rdiv_lt_0_compat; lra).
  assert (LE : forall k, (k < M ^ dim)%nat -> ev k <= Rabs (ev k)) by (intros; apply Rle_abs).
  rewrite <- I, kernel_self. split; [|split].
  - apply Rmult_le_compat_l; [lra|]. now apply rsum_le.
  - intros E' k K. apply Rmult_eq_reg_l in E'; [|lra]. symmetry in E'.
    rewrite (rsum_le_eq _ _ _ LE E' k K). apply Rabs_pos.
  - intros H. f_equal. apply rsum_ext. intros k K. apply Rabs_right, Rle_ge. auto.
Qed.
Lemma ev_all : (forall k, (k < M ^ dim)%nat -> 0 <= ev k) <->
  (forall k, length k = dim -> Forall (fun i => (i < 2 * N)%nat) k -> 0 <= eigenvalue dim N corr k).
Proof.
  split; intros H k.
  - intros L B. rewrite <- (index_flat' dim M k M_pos B L), <- ev_eigenvalue. apply H.
    rewrite <- L. now apply flat_below.
  - intros K. rewrite ev_eigenvalue. apply H; [apply index_length|]. now apply (index_below dim M k M_pos).
Qed.
(** The imaginary part set to zero in init is zero already. *)
Lemma cc_opp : forall p, (p < M ^ dim)%nat -> cc (index dim M (opp_pos dim M p)) = cc (index dim M p).
Proof.
  intros p L. rewrite index_opp_pos by apply M_pos. unfold cc. f_equal.
  pose proof (index_below dim M p M_pos L) as B. revert B. generalize (index dim M p). clear - PN.
  induction l as [|i l IH]; intros B; [reflexivity|]. inversion B; subst.
  unfold opposite, residues, zs in *. cbn [map]. rewrite IH by auto. f_equal. unfold circle. do 2 f_equal.
  unfold nodes in *. destruct (Nat.eq_dec i 0) as [->|Z].
  - reflexivity.
  - replace (- Z.of_nat i mod Z.of_nat (2 * N))%Z with (Z.of_nat (2 * N) - Z.of_nat i)%Z; [lia|].
    apply (Z.mod_unique_pos _ _ (-1)); lia.
Qed.
Lemma transform_real : forall r p, (r < nProc)%nat -> (p < W)%nat ->
  snd (transform dim N nProc corr r p) = 0.
Proof.
  intros r p R0 P0. unfold transform, window.
  assert (Q : (r * W + p < M ^ dim)%nat).
  { cbn [Nat.pow]. rewrite <- rows_total at 1. rewrite W_def in *. nia. }
  pose proof (transposed_bound dim M _ M_pos Q) as K. set (k := transposed dim M (r * W + p)) in *.
  unfold dft. cbn [snd].
  set (f := fun q => cc (index dim M q) * sin (angle dim M q k)).
  rewrite (rsum_ext _ _ (fun q => - f q)).
  2:{ intros q L. rewrite whole_fill by auto. cbn [fst snd]. unfold f.
      replace (angle dim M k q) with (angle dim M q k) by (unfold angle; now rewrite product_comm).
      replace (-1 * angle dim M q k) with (- angle dim M q k) by ring. rewrite sin_neg. ring. }
  rewrite rsum_opp. assert (S : rsum (M ^ dim) f = - rsum (M ^ dim) f); [|lra].
  rewrite <- (rsum_reindex _ (opp_pos dim M)) at 1;
    [|intros; apply opp_pos_bound, M_pos|intros; apply (opp_pos_inj dim M M_pos); auto].
  rewrite <- rsum_opp. apply rsum_ext. intros q L. unfold f. rewrite cc_opp by auto.
  rewrite !angle_zdot. destruct (ang_opp dim M M_pos q (zs (index dim M k)) L) as (w & ->).
  rewrite sin_period_Z, sin_neg. ring.
Qed.
End Field.
