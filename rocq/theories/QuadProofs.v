From Coq Require Import Reals List Arith Bool Lia Lra.
From Verif Require Import Util RSum CoarseModel CoarseSpec LinModel LinSpec QuadModel QuadSpec.
Import ListNotations.
Open Scope R_scope.

(** * Integrals *)
Lemma is_integral_ext : forall d f g v, (forall x, length x = d -> f x = g x) ->
  is_integral d f v -> is_integral d g v.
Proof.
  induction d as [|d IH]; intros f g v E H; cbn [is_integral] in *.
  - rewrite H. now apply E.
  - destruct H as (h & F & H1 & H2 & H3). exists h, F. split; auto. intros x.
    apply (IH (fun ys => f (x :: ys))); auto. intros ys L. apply E. cbn. now rewrite L.
Qed.

Lemma is_integral_scale : forall d f v c, is_integral d f v -> is_integral d (fun x => c * f x) (c * v).
Proof.
  induction d as [|d IH]; intros f v c H; cbn [is_integral] in *.
  - now rewrite H.
  - destruct H as (h & F & H1 & H2 & H3). exists (fun x => c * h x), (fun x => c * F x).
    split; [intros x; apply (IH (fun ys => f (x :: ys))); auto|]. split.
    + intros x. apply (derivable_pt_lim_scal F c x (h x)), H2.
    + rewrite H3. ring.
Qed.

Lemma is_integral_plus : forall d f g v w, is_integral d f v -> is_integral d g w ->
  is_integral d (fun x => f x + g x) (v + w).
Proof.
  induction d as [|d IH]; intros f g v w H K; cbn [is_integral] in *.
  - now rewrite H, K.
  - destruct H as (h & F & H1 & H2 & H3). destruct K as (k & G & K1 & K2 & K3).
    exists (fun x => h x + k x), (fun x => F x + G x).
    split; [intros x; apply (IH (fun ys => f (x :: ys)) (fun ys => g (x :: ys))); auto|]. split.
    + intros x. apply (derivable_pt_lim_plus F G x (h x) (k x)); auto.
    + rewrite H3, K3. ring.
Qed.

Lemma is_integral_zero : forall d, is_integral d (fun _ => 0) 0.
Proof.
  induction d as [|d IH]; cbn [is_integral]; auto.
  exists (fun _ => 0), (fun _ => 0). split; auto. split; [|ring]. intros x. apply derivable_pt_lim_const.
Qed.

Lemma is_integral_lsum : forall A d (l : list A) f v, (forall a, In a l -> is_integral d (f a) (v a)) ->
  is_integral d (fun x => lsum l (fun a => f a x)) (lsum l v).
Proof.
  induction l as [|a l IH]; intros f v H; cbn [lsum].
  - apply is_integral_zero.
  - apply is_integral_plus; [apply H; now left|]. apply IH. intros b I. apply H. now right.
Qed.

Lemma is_integral_unique : forall d f v w, is_integral d f v -> is_integral d f w -> v = w.
Proof.
  induction d as [|d IH]; intros f v w H K; cbn [is_integral] in *.
  - congruence.
  - destruct H as (h & F & H1 & H2 & H3). destruct K as (k & G & K1 & K2 & K3).
    assert (E : forall x, h x = k x) by (intros x; apply (IH (fun ys => f (x :: ys))); auto).
    destruct (MVT_cor2 (fun x => F x - G x) (fun x => h x - k x) 0 1) as (c & C & _).
    + lra.
    + intros x _. apply (derivable_pt_lim_minus F G x (h x) (k x)); auto.
    + rewrite E in C. rewrite H3, K3. lra.
Qed.

(** * Monomials *)
Fixpoint mono_value (line : list (R * R)) (es : list nat) : R :=
  match es with [] => 1 | e :: es' => lsum line (fun p => snd p * fst p ^ e) * mono_value line es' end.

Lemma lsum_map : forall A B (h : A -> B) l (f : B -> R), lsum (map h l) f = lsum l (fun a => f (h a)).
Proof. induction l as [|a l IH]; intros f; cbn [map lsum]; [auto|]. now rewrite IH. Qed.
Lemma lsum_flat_map : forall A B (h : A -> list B) l (f : B -> R),
  lsum (flat_map h l) f = lsum l (fun a => lsum (h a) f).
Proof. induction l as [|a l IH]; intros f; cbn [flat_map lsum]; [auto|]. now rewrite lsum_app, IH. Qed.

Lemma rule_monomial : forall line es,
  apply_rule (product_rule line (length es)) (monomial es) = mono_value line es.
Proof.
  intros line es. unfold apply_rule. induction es as [|e es IH]; cbn [length product_rule mono_value].
  - cbn. ring.
  - rewrite lsum_flat_map.
    rewrite (lsum_ext _ line _ (fun p => mono_value line es * (snd p * fst p ^ e))).
    + rewrite lsum_scale. ring.
    + intros p _. rewrite lsum_map.
      rewrite (lsum_ext _ (product_rule line (length es)) _
                 (fun q => (snd p * fst p ^ e) * (snd q * monomial es (fst q)))).
      * rewrite lsum_scale, IH. ring.
      * intros q _. cbn [fst snd monomial]. ring.
Qed.

Lemma rule_length : forall line d q, In q (product_rule line d) -> length (fst q) = d.
Proof.
  induction d as [|d IH]; intros q I; cbn [product_rule] in I.
  - destruct I as [<-|[]]. reflexivity.
  - apply in_flat_map in I. destruct I as (p & _ & I). apply in_map_iff in I. destruct I as (r & <- & I).
    cbn [fst length]. now rewrite (IH r I).
Qed.

(** A line rule exact up to degree [m]. *)
Definition line_exact (line : list (R * R)) (m : nat) : Prop :=
  forall e, (e <= m)%nat -> lsum line (fun p => snd p * fst p ^ e) = / INR (e + 1).

Lemma monomial_integral : forall line m es, line_exact line m -> (forall e, In e es -> (e <= m)%nat) ->
  is_integral (length es) (monomial es) (mono_value line es).
Proof.
  intros line m es X. induction es as [|e es IH]; intros H; cbn [length is_integral mono_value].
  - reflexivity.
  - assert (IH' := IH (fun a I => H a (or_intror I))).
    set (I0 := mono_value line es) in *.
    exists (fun x => x ^ e * I0), (fun x => x ^ (S e) * / INR (e + 1) * I0). split; [|split].
    + intros x. apply (is_integral_scale _ _ _ (x ^ e)) in IH'. exact IH'.
    + intros x.
      pose proof (derivable_pt_lim_scal (fun y => y ^ (S e)) (I0 * / INR (e + 1)) x _ (derivable_pt_lim_pow x (S e))) as D.
      replace (I0 * / INR (e + 1) * (INR (S e) * x ^ Nat.pred (S e))) with (x ^ e * I0) in D.
      * intros eps He. destruct (D eps He) as (del & Hd). exists del. intros h Nh Lh.
        specialize (Hd h Nh Lh). unfold mult_real_fct in Hd.
        replace ((x + h) ^ S e * / INR (e + 1) * I0 - x ^ S e * / INR (e + 1) * I0)
          with (I0 * / INR (e + 1) * (x + h) ^ S e - I0 * / INR (e + 1) * x ^ S e) by ring. exact Hd.
      * cbn [Nat.pred]. rewrite (Nat.add_1_r e). field. apply not_0_INR. lia.
    + rewrite (X e) by (apply H; now left). rewrite pow1, pow_i by lia. ring.
Qed.

Lemma poly_integral : forall line m d f, line_exact line m -> poly d m f ->
  is_integral d f (apply_rule (product_rule line d) f).
Proof.
  intros line m d f X (ts & T & E).
  assert (A : apply_rule (product_rule line d) f =
              lsum ts (fun t => fst t * mono_value line (snd t))).
  { unfold apply_rule.
    rewrite (lsum_ext _ _ _ (fun q => lsum ts (fun t => fst t * (snd q * monomial (snd t) (fst q))))).
    - transitivity (lsum ts (fun t => lsum (product_rule line d) (fun q => fst t * (snd q * monomial (snd t) (fst q))))).
      + clear. induction (product_rule line d) as [|q r IH]; cbn [lsum].
        * symmetry. apply lsum_0. auto.
        * rewrite IH, <- lsum_plus. reflexivity.
      + apply lsum_ext. intros t I. rewrite lsum_scale. f_equal. destruct (T t I) as (L & _). rewrite <- L.
        apply rule_monomial.
    - intros q I. rewrite E by (apply (rule_length line d q I)). rewrite <- lsum_scale. apply lsum_ext.
      intros. ring. }
  rewrite A. apply (is_integral_ext d (fun x => lsum ts (fun t => fst t * monomial (snd t) x))).
  - intros x L. symmetry. now apply E.
  - apply is_integral_lsum. intros t I. apply is_integral_scale. destruct (T t I) as (L & M). rewrite <- L.
    now apply (monomial_integral line m).
Qed.

(** * Gauss rules *)
Lemma sqrt_sq : forall a, 0 <= a -> sqrt a * sqrt a = a.
Proof. exact sqrt_sqrt. Qed.

Lemma gauss1 : line_exact (line_rule 1) 1.
Proof.
  intros e L. destruct e as [|[|e]]; [..|lia]; cbn; lra.
Qed.
Lemma gauss2 : line_exact (line_rule 2) 3.
Proof.
  intros e L. pose proof (sqrt_sq 3 ltac:(lra)) as S. cbn [line_rule lsum fst snd].
  set (s := sqrt 3) in *.
  destruct e as [|[|[|[|e]]]]; [..|lia]; cbn [Nat.add INR pow].
  - field.
  - field.
  - replace (1 / 2 * ((1 / 2 - s / 6) * ((1 / 2 - s / 6) * 1)) + (1 / 2 * ((1 / 2 + s / 6) * ((1 / 2 + s / 6) * 1)) + 0))
      with (1/4 + (s * s) / 36) by field. rewrite S. field.
  - match goal with |- ?l = _ => replace l with (1/8 + (s * s) / 24) by field end. rewrite S. field.
Qed.
Lemma gauss3 : line_exact (line_rule 3) 5.
Proof.
  intros e L. pose proof (sqrt_sq 15 ltac:(lra)) as S. cbn [line_rule lsum fst snd].
  set (s := sqrt 15) in *.
  destruct e as [|[|[|[|[|[|e]]]]]]; [..|lia]; cbn [Nat.add INR pow].
  - field.
  - field.
  - match goal with |- ?l = _ => replace l with (1/4 + (5/900) * (s * s)) by field end. rewrite S. field.
  - match goal with |- ?l = _ => replace l with (1/8 + (5/600) * (s * s)) by field end. rewrite S. field.
  - match goal with |- ?l = _ => replace l with (1/16 + (30/3600) * (s * s) + (5/90000) * (s * s) * (s * s)) by field end. rewrite S. field.
  - match goal with |- ?l = _ => replace l with (1/32 + (25/3600) * (s * s) + (25/180000) * (s * s) * (s * s)) by field end. rewrite S. field.
Qed.

Lemma cube_exact : forall d o f, (o <= 5)%nat -> poly d (2 * Nat.div2 o + 1) f ->
  is_integral d f (apply_rule (cube_rule d o) f).
Proof.
  intros d o f L P. unfold cube_rule, gauss_points.
  apply (poly_integral _ (2 * Nat.div2 o + 1)); auto.
  destruct o as [|[|[|[|[|[|o]]]]]]; try lia; cbn [Nat.div2 Nat.add Nat.mul];
    first [exact gauss1 | exact gauss2 | exact gauss3].
Qed.

(** * Closure of polynomials *)
Lemma poly_mono : forall d m m' f, (m <= m')%nat -> poly d m f -> poly d m' f.
Proof.
  intros d m m' f L (ts & T & E). exists ts. split; auto. intros t I. destruct (T t I) as (A & B).
  split; auto. intros e Ie. specialize (B e Ie). lia.
Qed.
Lemma poly_ext : forall d m f g, (forall x, length x = d -> f x = g x) -> poly d m f -> poly d m g.
Proof.
  intros d m f g H (ts & T & E). exists ts. split; auto. intros x L. rewrite <- H; auto.
Qed.
Lemma monomial_zero : forall d x, monomial (repeat 0%nat d) x = 1.
Proof.
  induction d as [|d IH]; intros [|y x]; cbn [repeat monomial]; auto. rewrite IH. cbn. ring.
Qed.
Lemma poly_const : forall d m c, poly d m (fun _ => c).
Proof.
  intros d m c. exists [(c, repeat 0%nat d)]. split.
  - intros t [<-|[]]. cbn [snd]. split; [apply repeat_length|]. intros e I. apply repeat_spec in I. lia.
  - intros x _. cbn [lsum fst snd]. rewrite monomial_zero. ring.
Qed.
Lemma poly_plus : forall d m f g, poly d m f -> poly d m g -> poly d m (fun x => f x + g x).
Proof.
  intros d m f g (ts & T & E) (us & U & G). exists (ts ++ us). split.
  - intros t I. apply in_app_or in I. destruct I; auto.
  - intros x L. rewrite lsum_app, E, G by auto. reflexivity.
Qed.
Fixpoint zip_add (a b : list nat) : list nat :=
  match a, b with x :: a', y :: b' => (x + y)%nat :: zip_add a' b' | _, _ => [] end.
Lemma zip_add_spec : forall a b x, length a = length b -> length x = length a ->
  monomial (zip_add a b) x = monomial a x * monomial b x.
Proof.
  induction a as [|e a IH]; intros [|f b] [|y x] L M; cbn in L, M; try lia; cbn [zip_add monomial].
  - ring.
  - rewrite IH by lia. rewrite pow_add. ring.
Qed.
Lemma zip_add_bound : forall a b m n, length a = length b ->
  (forall e, In e a -> (e <= m)%nat) -> (forall e, In e b -> (e <= n)%nat) ->
  length (zip_add a b) = length a /\ forall e, In e (zip_add a b) -> (e <= m + n)%nat.
Proof.
  induction a as [|x a IH]; intros [|y b] m n L A B; cbn in L; try lia; cbn [zip_add length].
  - split; auto. intros e [].
  - destruct (IH b m n) as (I1 & I2); try lia.
    + intros e I. apply A. now right.
    + intros e I. apply B. now right.
    + split; [lia|]. intros e [<-|I]; auto.
      specialize (A x (or_introl eq_refl)). specialize (B y (or_introl eq_refl)). lia.
Qed.
Lemma poly_mult : forall d m n f g, poly d m f -> poly d n g -> poly d (m + n) (fun x => f x * g x).
Proof.
  intros d m n f g (ts & T & E) (us & U & G).
  exists (flat_map (fun t => map (fun u => (fst t * fst u, zip_add (snd t) (snd u))) us) ts). split.
  - intros t I. apply in_flat_map in I. destruct I as (a & Ia & I). apply in_map_iff in I.
    destruct I as (b & <- & Ib). cbn [snd]. destruct (T a Ia) as (A1 & A2). destruct (U b Ib) as (B1 & B2).
    destruct (zip_add_bound (snd a) (snd b) m n) as (C1 & C2); auto; try lia. split; auto; lia.
  - intros x L. rewrite E, G by auto. rewrite lsum_flat_map.
    rewrite Rmult_comm, <- lsum_scale. apply lsum_ext. intros a Ia. rewrite lsum_map. cbn [fst snd].
    rewrite Rmult_comm, <- lsum_scale. apply lsum_ext. intros b Ib.
    destruct (T a Ia) as (A1 & _). destruct (U b Ib) as (B1 & _).
    rewrite zip_add_spec by lia. ring.
Qed.
Lemma poly_rsum : forall d m n f, (forall i, (i < n)%nat -> poly d m (f i)) ->
  poly d m (fun x => rsum n (fun i => f i x)).
Proof.
  induction n as [|n IH]; intros f H; cbn [rsum].
  - apply poly_const.
  - apply poly_plus; [apply IH; auto|apply H; lia].
Qed.
Lemma poly_scale : forall d m c f, poly d m f -> poly d m (fun x => c * f x).
Proof. intros. apply (poly_mult d 0 m (fun _ => c) f); auto. apply poly_const. Qed.

(** Energy densities are polynomials. *)
Lemma product_poly : forall d k m n fac A (u v : list R -> nat -> R),
  poly d 0 fac -> (forall i j, (i < d)%nat -> (j < d)%nat -> poly d k (fun x => A x i j)) ->
  poly_field d m u -> poly_field d n v ->
  poly d (k + m + n) (fun x => fac x * dot d (mv d (A x) (u x)) (v x)).
Proof.
  intros d k m n fac A u v F PA U V. apply (poly_mult d 0 (k + m + n)); auto.
  unfold dot. apply poly_rsum. intros i Li.
  apply (poly_mult d (k + m) n (fun x => mv d (A x) (u x) i) (fun x => v x i)); [|apply V; auto].
  unfold mv. apply poly_rsum. intros j Lj. apply (poly_mult d k m (fun x => A x i j) (fun x => u x j)); auto.
Qed.

Lemma density_rule : forall d o fac A (u v : list R -> nat -> R),
  lsum (cube_rule d o) (fun q => fac (fst q) * snd q * dot d (mv d (A (fst q)) (u (fst q))) (v (fst q))) =
  apply_rule (cube_rule d o) (fun x => fac x * dot d (mv d (A x) (u x)) (v x)).
Proof. intros. unfold apply_rule. apply lsum_ext. intros q _. ring. Qed.

Lemma energy_integral : forall d k o diffusion l u v, (o <= 5)%nat -> (k + 2 <= 2 * Nat.div2 o + 1)%nat ->
  poly_cell d k diffusion l -> poly_field d 1 u -> poly_field d 1 v ->
  is_integral d (energy_density d diffusion l u v)
    (lsum (cube_rule d o) (fun q => lc_factor _ l (fst q) * snd q *
       dot d (mv d (diffusion (lc_global _ l (fst q))) (u (fst q))) (v (fst q)))).
Proof.
  intros d k o diffusion l u v Lo Lk (F & A) U V.
  rewrite (density_rule d o (lc_factor _ l) (fun x => diffusion (lc_global _ l x)) u v).
  apply cube_exact; auto. apply (poly_mono d (k + 1 + 1)); [lia|].
  apply (product_poly d k 1 1 (lc_factor _ l) (fun x => diffusion (lc_global _ l x)) u v); auto.
Qed.

(** Products on a local grid. *)
Lemma grid_energy : forall d o els n x y,
  energy d (grid_points d o els) (field_of n x) (field_of n y) =
  lsum els (fun e => apply_rule (cube_rule d o) (fun p =>
    el_factor e p * dot d (mv d (el_A e p) (fun k => rsum n (fun j => x j * el_grad e j p k)))
      (fun k => rsum n (fun j => y j * el_grad e j p k)))).
Proof.
  intros d o els n x y. unfold energy, grid_points. rewrite lsum_flat_map. apply lsum_ext. intros e _.
  rewrite lsum_map. cbn [q_w q_A]. unfold field_of. cbn [q_grad]. apply (density_rule d o (el_factor e) (el_A e)
    (fun p k => rsum n (fun j => x j * el_grad e j p k)) (fun p k => rsum n (fun j => y j * el_grad e j p k))).
Qed.

Lemma poly_combination : forall d n x (g : nat -> list R -> nat -> R), (forall i, (i < n)%nat -> poly_field d 1 (g i)) ->
  poly_field d 1 (fun p k => rsum n (fun j => x j * g j p k)).
Proof.
  intros d n x g H k L. apply poly_rsum. intros j Lj. apply (poly_scale d 1 (x j) (fun p => g j p k)). apply H; auto.
Qed.

Lemma grid_products_agree : forall d k n els o o' x y, (o <= 5)%nat -> (o' <= 5)%nat ->
  (k + 2 <= 2 * Nat.div2 o + 1)%nat -> (k + 2 <= 2 * Nat.div2 o' + 1)%nat ->
  (forall e, In e els -> poly_element d k n e) ->
  energy d (grid_points d o els) (field_of n x) (field_of n y) =
  energy d (grid_points d o' els) (field_of n x) (field_of n y).
Proof.
  intros d k n els o o' x y Lo Lo' Lk Lk' H. rewrite !grid_energy. apply lsum_ext. intros e I.
  destruct (H e I) as (F & A & G).
  assert (P : poly d (k + 1 + 1) (fun p =>
    el_factor e p * dot d (mv d (el_A e p) (fun k => rsum n (fun j => x j * el_grad e j p k)))
      (fun k => rsum n (fun j => y j * el_grad e j p k)))).
  { apply (product_poly d k 1 1 (el_factor e) (el_A e) (fun p k => rsum n (fun j => x j * el_grad e j p k))
      (fun p k => rsum n (fun j => y j * el_grad e j p k))); auto; apply poly_combination; auto. }
  eapply is_integral_unique; apply cube_exact; auto; apply (poly_mono d (k + 1 + 1)); auto; lia.
Qed.

Lemma same_points : forall d o o', Nat.div2 o = Nat.div2 o' -> cube_rule d o = cube_rule d o'.
Proof. intros d o o' E. unfold cube_rule, gauss_points. now rewrite E. Qed.

Lemma poly_coord : forall d i, poly d 1 (fun x => nth i x 0).
Proof.
  intros d i. destruct (Nat.ltb i d) eqn:L; [apply Nat.ltb_lt in L|apply Nat.ltb_ge in L].
  - exists [(1, map (fun j => if Nat.eqb j i then 1%nat else 0%nat) (seq 0 d))]. split.
    + intros t [<-|[]]. cbn [snd]. rewrite map_length, seq_length. split; auto.
      intros e I. apply in_map_iff in I. destruct I as (j & <- & _). destruct (Nat.eqb j i); lia.
    + intros x X. cbn [lsum fst snd].
      assert (G : forall d s x, length x = d -> (s <= i < s + d)%nat ->
        nth (i - s) x 0 = monomial (map (fun j => if Nat.eqb j i then 1%nat else 0%nat) (seq s d)) x).
      { clear. induction d as [|d IH]; intros s [|y x] X L; cbn in X; try lia. cbn [seq map monomial].
        destruct (Nat.eqb_spec s i) as [->|N].
        - rewrite Nat.sub_diag. cbn [nth].
          assert (Z : forall n t x, (i < t)%nat ->
            monomial (map (fun j => if Nat.eqb j i then 1%nat else 0%nat) (seq t n)) x = 1).
          { clear. induction n as [|n IH]; intros t [|z x] H; cbn [seq map monomial]; auto.
            destruct (Nat.eqb_spec t i); [lia|]. rewrite IH by lia. cbn. ring. }
          rewrite Z by lia. cbn. ring.
        - replace (i - s)%nat with (S (i - S s)) by lia. cbn [nth]. rewrite (IH (S s)) by lia. cbn. ring. }
      rewrite <- (G d 0%nat x X ltac:(lia)), Nat.sub_0_r. ring.
  - apply (poly_ext d 1 (fun _ => 0)); [|apply poly_const]. intros x X. symmetry. apply nth_overflow. lia.
Qed.
