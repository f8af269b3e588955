(** Proofs for C82-C84. *)
From Coq Require Import Reals List Arith Bool Lra Lia.
From Verif Require Import RSum LinModel LinSpec LinProofs EnergySpec.
Import ListNotations.
Open Scope R_scope.

Section E.
Variable n : nat.
Variable con : nat -> bool.
Variable A : nat -> nat -> R.

Lemma quad_dot : forall v, rsum n (fun i => rsum n (fun j => A i j * v j * v i)) = dot n (mv n A v) v.
Proof. intros v. apply rsum_ext. intros i L. unfold mv. now rewrite <- rsum_scale_r. Qed.

Lemma dot_plus_l : forall u v w, dot n (fun i => u i + v i) w = dot n u w + dot n v w.
Proof. intros. unfold dot. rewrite <- rsum_plus. apply rsum_ext. intros. ring. Qed.

Lemma potential_shift : forall b u w, symmetric n A ->
  potential n A b (fun i => u i + w i) =
  potential n A b u + rsum n (fun i => (mv n A u i - b i) * w i) + / 2 * dot n (mv n A w) w.
Proof.
  intros b u w Sy. unfold potential. rewrite !quad_dot.
  assert (E : dot n (mv n A (fun i => u i + w i)) (fun i => u i + w i) =
    dot n (mv n A u) u + 2 * dot n (mv n A u) w + dot n (mv n A w) w).
  { rewrite (dot_ext n _ (fun i => mv n A u i + mv n A w i) _ (fun i => u i + w i));
      [|intros; apply mv_plus|auto].
    rewrite dot_plus_l, (dot_comm n (mv n A u)), (dot_comm n (mv n A w)), !dot_plus_l.
    rewrite (dot_comm n u (mv n A u)), (dot_comm n w (mv n A u)),
      (dot_comm n u (mv n A w)), (dot_comm n w (mv n A w)), (dot_mv_sym n A w u Sy). ring. }
  rewrite E.
  rewrite (rsum_ext n (fun i => b i * (u i + w i)) (fun i => b i * u i + b i * w i)) by (intros; ring).
  rewrite rsum_plus.
  rewrite (rsum_ext n (fun i => (mv n A u i - b i) * w i) (fun i => mv n A u i * w i - b i * w i))
    by (intros; ring).
  rewrite rsum_minus. unfold dot. lra.
Qed.

Lemma potential_ext : forall b u v, (forall i, (i < n)%nat -> u i = v i) ->
  potential n A b u = potential n A b v.
Proof.
  intros b u v H. unfold potential. rewrite !quad_dot. f_equal.
  - f_equal. apply dot_ext; auto. intros. apply mv_ext; auto.
  - apply rsum_ext. intros i L. rewrite H; auto.
Qed.

Lemma bvp_gap : forall b g u v, symmetric n A ->
  solves_bvp n con A b g u -> admissible n con g v ->
  potential n A b v = potential n A b u +
    / 2 * dot n (mv n A (fun i => v i - u i)) (fun i => v i - u i).
Proof.
  intros b g u v Sy U V.
  rewrite (potential_ext b v (fun i => u i + (v i - u i))) by (intros; ring).
  rewrite potential_shift by auto. rewrite rsum_0; [ring|].
  intros i L. specialize (U i L). specialize (V i L). destruct (con i).
  - rewrite V, U by auto. ring.
  - unfold mv. rewrite U. ring.
Qed.

Lemma bvp_minimises : forall b g u, symmetric n A -> semidefinite n con A ->
  (solves_bvp n con A b g u <-> minimises n con A b g u).
Proof.
  intros b g u Sy Se. split.
  - intros U. split.
    + intros i L C. specialize (U i L). now rewrite C in U.
    + intros v V. rewrite (bvp_gap b g u v Sy U V).
      assert (0 <= dot n (mv n A (fun i => v i - u i)) (fun i => v i - u i)); [|lra].
      rewrite <- quad_dot. apply Se. intros i L C. rewrite (V i L C).
      specialize (U i L). rewrite C in U. lra.
  - intros (Ad & Mi) i L. destruct (con i) eqn:C; [apply Ad; auto|].
    set (r := mv n A u i - b i). set (a := A i i).
    assert (Q : forall t, 0 <= t * r + / 2 * (t * t * a)).
    { intros t. set (w := fun k => if Nat.eqb k i then t else 0).
      assert (Wi : w i = t) by (unfold w; now rewrite Nat.eqb_refl).
      assert (Wo : forall k, k <> i -> w k = 0)
        by (intros k K; unfold w; apply Nat.eqb_neq in K; now rewrite K).
      assert (V : admissible n con g (fun k => u k + w k)).
      { intros k Lk Ck. rewrite (Ad k Lk Ck), Wo; [ring|]. intros ->. congruence. }
      specialize (Mi _ V). rewrite potential_shift in Mi by auto.
      rewrite (rsum_single n i) in Mi; [|auto|intros j _ J; rewrite (Wo j J); ring].
      unfold dot in Mi. rewrite (rsum_single n i) in Mi; [|auto|intros j _ J; rewrite (Wo j J); ring].
      unfold mv at 2 in Mi. rewrite (rsum_single n i) in Mi; [|auto|intros j _ J; rewrite (Wo j J); ring].
      rewrite Wi in Mi. fold r in Mi. fold a in Mi. lra. }
    assert (R0 : r = 0); [|unfold r, mv in R0; lra].
    destruct (Req_dec r 0) as [|N]; auto. exfalso.
    set (m := 1 + Rabs a). assert (M : 1 <= m) by (unfold m; pose proof (Rabs_pos a); lra).
    assert (Am : a <= m) by (unfold m; pose proof (Rle_abs a); lra).
    specialize (Q (- r / m)).
    assert (E : - r / m * r + / 2 * (- r / m * (- r / m) * a) = (r * r / (m * m)) * (/ 2 * a - m))
      by (field; lra).
    rewrite E in Q.
    assert (P : 0 < r * r / (m * m)).
    { apply Rdiv_lt_0_compat; [|nra]. destruct (Rdichotomy _ _ N); nra. }
    nra.
Qed.

Lemma bvp_combine : forall a c b1 b2 g1 g2 u v,
  solves_bvp n con A b1 g1 u -> solves_bvp n con A b2 g2 v ->
  solves_bvp n con A (combine2 a c b1 b2) (combine2 a c g1 g2) (combine2 a c u v).
Proof.
  intros a c b1 b2 g1 g2 u v U V i L. specialize (U i L). specialize (V i L). unfold combine2.
  destruct (con i); [now rewrite U, V|].
  rewrite <- U, <- V, <- !rsum_scale, <- rsum_plus. apply rsum_ext. intros. ring.
Qed.
End E.

Section F.
Variable d : nat.
Variable qs : list qpoint.
Variable n : nat.
Variable con : nat -> bool.
Notation en := (energy d qs).

Lemma energy_combine_l : forall a c u v w,
  en (combine_fields a c u v) w = a * en u w + c * en v w.
Proof.
  intros. unfold energy, combine_fields. rewrite <- !lsum_scale, <- lsum_plus. apply lsum_ext. intros q _.
  rewrite (dot_ext d _ (fun k => a * mv d (q_A q) (u q) k + c * mv d (q_A q) (v q) k) (w q) (w q)); auto.
  - unfold dot. rewrite (rsum_ext d _ (fun i => a * (mv d (q_A q) (u q) i * w q i) + c * (mv d (q_A q) (v q) i * w q i)))
      by (intros; ring). rewrite rsum_plus, !rsum_scale. ring.
  - intros i _. unfold mv. rewrite <- !rsum_scale, <- rsum_plus. apply rsum_ext. intros. ring.
Qed.

Lemma energy_ext_l : forall u v w, (forall q k, In q qs -> (k < d)%nat -> u q k = v q k) -> en u w = en v w.
Proof.
  intros u v w H. unfold energy. apply lsum_ext. intros q I. f_equal. apply dot_ext; auto.
  intros i _. apply mv_ext. auto.
Qed.

Lemma field_combine : forall a c x y q k,
  field_of n (combine2 a c x y) q k = a * field_of n x q k + c * field_of n y q k.
Proof.
  intros. unfold field_of, combine2. rewrite <- !rsum_scale, <- rsum_plus. apply rsum_ext. intros. ring.
Qed.

End F.

Section F2.
Variable d : nat.
Variables qs rs : list qpoint.
Variable n : nat.
Variable con : nat -> bool.
Notation en := (energy d qs).

Lemma corrector_combine : forall a c f1 f2 x y,
  corrector d qs rs n con f1 x -> corrector d qs rs n con f2 y ->
  corrector d qs rs n con (combine_fields a c f1 f2) (combine2 a c x y).
Proof.
  intros a c f1 f2 x y X Y. apply corrector_orthogonal in X. apply corrector_orthogonal in Y.
  apply corrector_orthogonal. destruct X as (X1 & X2). destruct Y as (Y1 & Y2). split.
  - intros i L C. unfold combine2. rewrite X1, Y1 by auto. ring.
  - intros z Z. specialize (X2 z Z). specialize (Y2 z Z).
    rewrite (energy_ext_l d qs _ (combine_fields a c (field_of n x) (field_of n y))).
    + rewrite !energy_combine_l.
      replace (en (field_of n x) (field_of n z)) with (- energy d rs f1 (field_of n z)) by lra.
      replace (en (field_of n y) (field_of n z)) with (- energy d rs f2 (field_of n z)) by lra. ring.
    + intros q k _ _. rewrite field_combine. reflexivity.
Qed.

Lemma energy_zero_field : forall x w, (forall i, (i < n)%nat -> x i = 0) -> en (field_of n x) w = 0.
Proof.
  intros x w Z. rewrite (energy_ext_l d qs _ (combine_fields 0 0 (field_of n x) (field_of n x))).
  - rewrite energy_combine_l. ring.
  - intros q k _ _. unfold combine_fields, field_of. rewrite rsum_0; [ring|]. intros j L. rewrite Z by auto. ring.
Qed.

Lemma corrector_unique : forall f x y, coercive d qs n con ->
  corrector d qs rs n con f x -> corrector d qs rs n con f y ->
  forall i, (i < n)%nat -> x i = y i.
Proof.
  intros f x y Co X Y i L.
  assert (H : combine2 1 (-1) x y i = 0); [|unfold combine2 in H; lra].
  pose proof (corrector_combine 1 (-1) f f x y X Y) as Z.
  apply corrector_orthogonal in Z. destruct Z as (Z1 & Z2).
  apply Co; auto. specialize (Z2 _ Z1). rewrite energy_combine_l in Z2. lra.
Qed.

Lemma corrector_zero_always : forall f, balanced d rs n con f <-> corrector d qs rs n con f (fun _ => 0).
Proof.
  intros f. rewrite corrector_orthogonal. split.
  - intros B. split; [intros ? ? ?; reflexivity|]. intros y Y.
    rewrite energy_zero_field by auto. rewrite (B y Y). ring.
  - intros (_ & O) y Y. specialize (O y Y). rewrite energy_zero_field in O by auto. lra.
Qed.
Lemma corrector_zero : forall f x, coercive d qs n con -> corrector d qs rs n con f x ->
  ((forall i, (i < n)%nat -> x i = 0) <-> balanced d rs n con f).
Proof.
  intros f x Co X. split.
  - intros Z y Y. apply corrector_orthogonal in X. destruct X as (_ & O). specialize (O y Y).
    rewrite energy_zero_field in O by auto. lra.
  - intros B i L. rewrite (corrector_unique f x (fun _ => 0) Co X); auto.
    apply corrector_zero_always. exact B.
Qed.

End F2.
