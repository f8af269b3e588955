(** Proofs for C110. *)
From Coq Require Import Reals List Arith Bool Lra Lia.
From Verif Require Import Util RSum LinModel LinSpec LinProofs QuadModel CoarseModel CoarseSpec CoarseProofs.
From Verif Require Import SystemModel SystemSpec SystemProofs FemModel FemSpec FemProofs EnergySpec EnergyProofs PatchSpec PatchProofs SolveSpec.
Import ListNotations.
Open Scope R_scope.

(** * Linear algebra *)
Definition skip (p j : nat) : nat := if Nat.ltb j p then j else S j.

Lemma rsum_skip : forall n p f, (p <= n)%nat -> rsum (S n) f = f p + rsum n (fun j => f (skip p j)).
Proof.
  induction n as [|n IH]; intros p f L.
  - assert (p = 0)%nat by lia. subst p. cbn. ring.
  - destruct (Nat.eq_dec p (S n)) as [->|N].
    + change (rsum (S (S n)) f) with (rsum (S n) f + f (S n)).
      rewrite (rsum_ext (S n) (fun j => f (skip (S n) j)) f).
      * ring.
      * intros i Li. unfold skip. destruct (Nat.ltb_spec i (S n)); [reflexivity|lia].
    + change (rsum (S (S n)) f) with (rsum (S n) f + f (S n)). rewrite (IH p) by lia. cbn [rsum].
      unfold skip at 3. destruct (Nat.ltb_spec n p); [lia|]. ring.
Qed.

(** Fewer equations than unknowns: a solution that is not zero. *)
Lemma kernel : forall m n (A : nat -> nat -> R), (m < n)%nat ->
  exists x, (exists j, (j < n)%nat /\ x j <> 0) /\ forall i, (i < m)%nat -> mv n A x i = 0.
Proof.
  induction m as [|m IH]; intros n A L.
  - exists (fun _ => 1). split; [exists 0%nat; split; [lia|lra]|]. intros; lia.
  - destruct (nonzero_dec n (A m)) as [(p & Lp & Np)|Z].
    + destruct n as [|n]; [lia|].
      set (B := fun i j => A i (skip p j) - A i p / A m p * A m (skip p j)).
      destruct (IH n B ltac:(lia)) as (x & (j & Lj & Nj) & E).
      set (s := rsum n (fun j => A m (skip p j) * x j)).
      set (y := fun k => if Nat.eqb k p then - s / A m p else x (if Nat.ltb k p then k else Nat.pred k)).
      assert (Y : forall j, y (skip p j) = x j).
      { intros k. unfold y, skip. destruct (Nat.ltb_spec k p).
        - destruct (Nat.eqb_spec k p); [lia|]. destruct (Nat.ltb_spec k p); [reflexivity|lia].
        - destruct (Nat.eqb_spec (S k) p); [lia|]. destruct (Nat.ltb_spec (S k) p); [lia|reflexivity]. }
      assert (Yp : y p = - s / A m p) by (unfold y; now rewrite Nat.eqb_refl).
      assert (S0 : forall i, mv (S n) A y i = A i p * (- s / A m p) + rsum n (fun j => A i (skip p j) * x j)).
      { intros i. unfold mv. rewrite (rsum_skip n p) by lia. rewrite Yp. f_equal. apply rsum_ext. intros k _. now rewrite Y. }
      exists y. split.
      * exists (skip p j). split; [unfold skip; destruct (Nat.ltb_spec j p); lia|]. now rewrite Y.
      * intros i Li. rewrite S0. destruct (Nat.eq_dec i m) as [->|Ni].
        -- fold s. field. exact Np.
        -- specialize (E i ltac:(lia)). unfold mv, B in E.
           rewrite (rsum_ext n _ (fun j => A i (skip p j) * x j - A i p / A m p * (A m (skip p j) * x j))) in E by (intros; ring).
           rewrite rsum_minus, rsum_scale in E. fold s in E.
           replace (rsum n (fun j => A i (skip p j) * x j)) with (A i p / A m p * s) by lra. field. exact Np.
    + destruct (IH n A ltac:(lia)) as (x & X & E). exists x. split; auto. intros i Li.
      destruct (Nat.eq_dec i m) as [->|N]; [|apply E; lia]. unfold mv. apply rsum_0. intros k Lk. rewrite Z by auto. ring.
Qed.

Lemma injective_onto : forall n A, (forall x, (forall i, (i < n)%nat -> mv n A x i = 0) -> forall i, (i < n)%nat -> x i = 0) ->
  forall b : nat -> R, exists x, forall i, (i < n)%nat -> mv n A x i = b i.
Proof.
  intros n A J b.
  destruct (kernel n (S n) (fun i j => if Nat.eqb j n then - b i else A i j) ltac:(lia)) as (x & (j & Lj & Nj) & E).
  assert (E' : forall i, (i < n)%nat -> mv n A x i = b i * x n).
  { intros i Li. specialize (E i Li). unfold mv in E. cbn [rsum] in E. rewrite Nat.eqb_refl in E.
    rewrite (rsum_ext n _ (fun j => A i j * x j)) in E by (intros k Lk; destruct (Nat.eqb_spec k n); [lia|reflexivity]).
    unfold mv. lra. }
  destruct (Req_dec (x n) 0) as [Z|N].
  - exfalso. apply Nj. destruct (Nat.eq_dec j n) as [->|D]; auto. apply (J x); [|lia].
    intros i Li. rewrite E', Z by auto. ring.
  - exists (fun k => x k / x n). intros i Li. unfold mv.
    rewrite (rsum_ext n _ (fun j => A i j * x j * / x n)) by (intros; unfold Rdiv; ring). rewrite rsum_scale_r.
    fold (mv n A x i). rewrite E' by auto. field. exact N.
Qed.

Lemma choose : forall n (R : nat -> (nat -> R) -> Prop), (forall i, (i < n)%nat -> exists x, R i x) ->
  exists Y, forall i, (i < n)%nat -> R i (Y i).
Proof.
  induction n as [|n IH]; intros R H.
  - exists (fun _ _ => 0). intros; lia.
  - destruct (IH R) as (Y & HY); [intros; apply H; lia|]. destruct (H n ltac:(lia)) as (x & X).
    exists (fun i => if Nat.eqb i n then x else Y i). intros i L. destruct (Nat.eqb_spec i n) as [->|N]; auto. apply HY. lia.
Qed.

Lemma onto_injective : forall n A, (forall b : nat -> R, exists x, forall i, (i < n)%nat -> mv n A x i = b i) ->
  forall x, (forall i, (i < n)%nat -> mv n A x i = 0) -> forall i, (i < n)%nat -> x i = 0.
Proof.
  intros n A O x K.
  destruct (choose n (fun j y => forall i, (i < n)%nat -> mv n A y i = if Nat.eqb i j then 1 else 0)) as (Y & HY).
  { intros j _. destruct (O (fun i => if Nat.eqb i j then 1 else 0)) as (y & E). eauto. }
  set (B := fun k j => Y j k).
  assert (AB : forall c i, (i < n)%nat -> mv n A (fun k => mv n B c k) i = c i).
  { intros c i Li. unfold mv.
    rewrite (rsum_ext n _ (fun k => rsum n (fun j => A i k * Y j k * c j))).
    - rewrite rsum_swap. rewrite (rsum_ext n _ (fun j => mv n A (Y j) i * c j)).
      + rewrite (rsum_single n i); auto.
        * rewrite HY, Nat.eqb_refl by auto. ring.
        * intros j Lj N. rewrite HY by auto. destruct (Nat.eqb_spec i j); [congruence|ring].
      + intros j Lj. unfold mv. now rewrite rsum_scale_r.
    - intros k Lk. rewrite <- rsum_scale. apply rsum_ext. intros. unfold B. ring. }
  assert (J : forall c, (forall i, (i < n)%nat -> mv n B c i = 0) -> forall i, (i < n)%nat -> c i = 0).
  { intros c Z i Li. rewrite <- (AB c i Li). unfold mv at 1. apply rsum_0. intros k Lk. rewrite Z by auto. ring. }
  destruct (injective_onto n B J x) as (c & C).
  assert (Cz : forall i, (i < n)%nat -> c i = 0).
  { intros i Li. rewrite <- (AB c i Li), <- (K i Li). apply mv_ext. intros k Lk. now apply C. }
  intros i Li. rewrite <- (C i Li). unfold mv. apply rsum_0. intros k Lk. rewrite Cz by auto. ring.
Qed.

(** * Constrained systems *)
Lemma reduced_apply : forall n con A u i, (i < n)%nat ->
  mv n (reduced_matrix con A) u i = if con i then u i else rsum n (fun j => A i j * u j).
Proof.
  intros n con A u i Li. unfold mv, reduced_matrix, constrain_matrix. destruct (con i); [|reflexivity].
  rewrite (rsum_single n i); auto.
  - rewrite Nat.eqb_refl. ring.
  - intros j _ N. destruct (Nat.eqb_spec i j); [congruence|ring].
Qed.

Lemma unique_solvable : forall n con A, unique n con A -> forall b g, exists u, solves_bvp n con A b g u.
Proof.
  intros n con A U b g.
  destruct (injective_onto n (reduced_matrix con A)) with (b := fun i => if con i then g i else b i) as (u & E).
  - intros x Z. apply U. intros i Li. specialize (Z i Li). rewrite reduced_apply in Z by auto. destruct (con i); exact Z.
  - exists u. intros i Li. specialize (E i Li). rewrite reduced_apply in E by auto. destruct (con i); exact E.
Qed.
Lemma solvable_unique : forall n con A, (forall b g, exists u, solves_bvp n con A b g u) -> unique n con A.
Proof.
  intros n con A S u Z. apply (onto_injective n (reduced_matrix con A)).
  - intros b. destruct (S b b) as (x & X). exists x. intros i Li. specialize (X i Li). rewrite reduced_apply by auto.
    destruct (con i); exact X.
  - intros i Li. specialize (Z i Li). rewrite reduced_apply by auto. destruct (con i); exact Z.
Qed.
Lemma unique_one : forall n con A, unique n con A -> forall b g, one_solution n (solves_bvp n con A b g).
Proof.
  intros n con A U b g. split; [now apply unique_solvable|]. intros x y X Y i Li. now apply (unique_solution n con A b g x y U X Y).
Qed.

(** * Functions without gradient *)
Fixpoint up (cs : list nat) (bs : list bool) : list nat :=
  match cs, bs with
  | c :: cs', b :: bs' => (if b then S c else c) :: up cs' bs'
  | _, _ => []
  end.
Fixpoint put (k : nat) (b : bool) (bs : list bool) : list bool :=
  match bs with
  | [] => []
  | a :: r => match k with O => b :: r | S k' => a :: put k' b r end
  end.
Lemma put_length : forall bs k b, length (put k b bs) = length bs.
Proof. induction bs as [|a bs IH]; intros [|k] b; cbn; auto. Qed.
Lemma corner_bits : forall cs js, In js (corners cs) -> exists bs, length bs = length cs /\ js = up cs bs.
Proof.
  induction cs as [|c cs IH]; intros js J; cbn [corners] in J.
  - destruct J as [<-|[]]. exists []. split; reflexivity.
  - apply in_app_or in J. destruct J as [J|J]; apply in_map_iff in J; destruct J as (r & <- & J);
      destruct (IH r J) as (bs & L & ->).
    + exists (false :: bs). cbn. auto.
    + exists (true :: bs). cbn. auto.
Qed.
Lemma bits_corner : forall cs bs, length bs = length cs -> In (up cs bs) (corners cs).
Proof.
  induction cs as [|c cs IH]; intros [|b bs] L; try discriminate L; cbn; [now left|].
  apply in_or_app. destruct b; [right|left]; apply in_map; apply IH; cbn in L; lia.
Qed.

(** The combination of two functions, each on its own cell, is known from its
    values at the points. *)
Lemma pair_determined : forall line, two_points line -> forall cs fs a b (V w : list nat -> R), length fs = length cs ->
  (forall q, In q (product_rule line (length cs)) -> a * value V cs (fst q) + b * value w fs (fst q) = 0) ->
  forall bs, length bs = length cs -> a * V (up cs bs) + b * w (up fs bs) = 0.
Proof.
  intros line (_ & x1 & w1 & x2 & w2 & I1 & I2 & D). induction cs as [|c cs IH]; intros [|f fs] a b V w L Z bs Lb; try discriminate L.
  - destruct bs; [|discriminate Lb]. apply (Z ([], 1)). now left.
  - destruct bs as [|t bs]; [discriminate Lb|]. cbn [length] in L, Lb.
    assert (T : forall q, In q (product_rule line (length cs)) ->
      a * value (fun js => V (c :: js)) cs (fst q) + b * value (fun js => w (f :: js)) fs (fst q) = 0 /\
      a * value (fun js => V (S c :: js)) cs (fst q) + b * value (fun js => w (S f :: js)) fs (fst q) = 0).
    { intros q Q.
      set (p0 := a * value (fun js => V (c :: js)) cs (fst q) + b * value (fun js => w (f :: js)) fs (fst q)).
      set (p1 := a * value (fun js => V (S c :: js)) cs (fst q) + b * value (fun js => w (S f :: js)) fs (fst q)).
      assert (A : forall x wt, In (x, wt) line -> (1 - x) * p0 + x * p1 = 0).
      { intros x wt X. rewrite <- (Z (x :: fst q, wt * snd q)).
        - cbn [value fst]. unfold p0, p1. ring.
        - cbn [length product_rule]. apply in_flat_map. exists (x, wt). split; auto. apply in_map_iff. exists q. split; auto. }
      pose proof (A _ _ I1) as A1. pose proof (A _ _ I2) as A2. clear A. clearbody p0 p1.
      assert (E : (x1 - x2) * (p1 - p0) = 0) by lra.
      apply Rmult_integral in E. destruct E as [E|E]; [lra|]. assert (p1 = p0) by lra. subst p1. split; lra. }
    cbn [up]. destruct t.
    + apply (IH fs a b (fun js => V (S c :: js)) (fun js => w (S f :: js))); try lia. intros q Q. now apply T.
    + apply (IH fs a b (fun js => V (c :: js)) (fun js => w (f :: js))); try lia. intros q Q. now apply T.
Qed.

(** The same for derivatives: differences along the edges. *)
Lemma edge_zero : forall line, two_points line -> forall k cs fs hs gs (V w : list nat -> R),
  length fs = length cs -> length hs = length cs -> length gs = length cs -> (k < length cs)%nat ->
  (forall q, In q (product_rule line (length cs)) -> grad hs V cs (fst q) k + grad gs w fs (fst q) k = 0) ->
  forall bs, length bs = length cs ->
    (V (up cs (put k true bs)) - V (up cs (put k false bs))) / nth k hs 1 +
    (w (up fs (put k true bs)) - w (up fs (put k false bs))) / nth k gs 1 = 0.
Proof.
  intros line T. pose proof T as (_ & x1 & w1 & x2 & w2 & I1 & I2 & D).
  induction k as [|k IH]; intros [|c cs] [|f fs] [|h hs] [|g gs] V w Lf Lh Lg Lk Z bs Lb; cbn [length] in *; try lia;
    destruct bs as [|t bs]; cbn [length] in Lb; try lia; cbn [put up nth].
  - pose proof (pair_determined line T cs fs (/ h) (/ g) (fun js => 1 * V (S c :: js) + (-1) * V (c :: js))
      (fun js => 1 * w (S f :: js) + (-1) * w (f :: js)) ltac:(lia)) as PD.
    assert (E : / h * (1 * V (S c :: up cs bs) + (-1) * V (c :: up cs bs)) + / g * (1 * w (S f :: up fs bs) + (-1) * w (f :: up fs bs)) = 0).
    { apply (PD); [|lia]. intros q Q. rewrite !value_lin.
      rewrite <- (Z (x1 :: fst q, w1 * snd q)).
      - cbn [grad fst]. unfold Rdiv. ring.
      - cbn [product_rule]. apply in_flat_map. exists (x1, w1). split; auto. apply in_map_iff. exists q. split; auto. }
    unfold Rdiv. lra.
  - assert (S : forall q, In q (product_rule line (length cs)) ->
      grad hs (fun js => V (c :: js)) cs (fst q) k + grad gs (fun js => w (f :: js)) fs (fst q) k = 0 /\
      grad hs (fun js => V (S c :: js)) cs (fst q) k + grad gs (fun js => w (S f :: js)) fs (fst q) k = 0).
    { intros q Q.
      set (p0 := grad hs (fun js => V (c :: js)) cs (fst q) k + grad gs (fun js => w (f :: js)) fs (fst q) k).
      set (p1 := grad hs (fun js => V (S c :: js)) cs (fst q) k + grad gs (fun js => w (S f :: js)) fs (fst q) k).
      assert (A : forall x wt, In (x, wt) line -> (1 - x) * p0 + x * p1 = 0).
      { intros x wt X. rewrite <- (Z (x :: fst q, wt * snd q)).
        - cbn [grad fst]. unfold p0, p1. ring.
        - cbn [product_rule]. apply in_flat_map. exists (x, wt). split; auto. apply in_map_iff. exists q. split; auto. }
      pose proof (A _ _ I1) as A1. pose proof (A _ _ I2) as A2. clear A. clearbody p0 p1.
      assert (E : (x1 - x2) * (p1 - p0) = 0) by lra.
      apply Rmult_integral in E. destruct E as [E|E]; [lra|]. assert (p1 = p0) by lra. subst p1. split; lra. }
    destruct t.
    + apply (IH cs fs hs gs (fun js => V (Datatypes.S c :: js)) (fun js => w (Datatypes.S f :: js))); try lia. intros q Q. now apply S.
    + apply (IH cs fs hs gs (fun js => V (c :: js)) (fun js => w (f :: js))); try lia. intros q Q. now apply S.
Qed.

Lemma edges_constant : forall ns (w : list nat -> R), Forall (fun n => (0 < n)%nat) ns ->
  (forall cs k bs, In cs (cells ns) -> (k < length ns)%nat -> length bs = length ns ->
     w (up cs (put k true bs)) = w (up cs (put k false bs))) ->
  forall js js', node ns js -> node ns js' -> w js = w js'.
Proof.
  induction ns as [|n ns IH]; intros w F E js js' N N'.
  - inversion N. inversion N'. reflexivity.
  - inversion F; subst. rename H1 into Pn, H2 into F'.
    assert (St : forall c js, (c < n)%nat -> node ns js -> w (S c :: js) = w (c :: js)).
    { intros c r Lc Nr. destruct (node_corner ns r F' Nr) as (cs & I & J). destruct (corner_bits cs r J) as (bs & Lb & ->).
      apply (E (c :: cs) 0%nat (false :: bs)).
      - cbn [cells]. apply in_flat_map. exists c. split; [apply in_seq; lia|now apply in_map].
      - cbn; lia.
      - cbn [length]. rewrite Lb. f_equal. now apply cells_length. }
    assert (G : forall c js, (c <= n)%nat -> node ns js -> w (c :: js) = w (0%nat :: js)).
    { induction c as [|c IHc]; intros r Lc Nr; auto. rewrite St by (auto; lia). apply IHc; auto. lia. }
    inversion N; subst. inversion N'; subst. rewrite (G x l), (G x0 l0) by auto.
    apply (IH (fun js => w (0%nat :: js))); auto. intros cs k bs I Lk Lb.
    apply (E (0%nat :: cs) (S k) (false :: bs)); cbn [length]; try lia.
    cbn [cells]. apply in_flat_map. exists 0%nat. split; [apply in_seq; lia|now apply in_map].
Qed.

Lemma nth_pos : forall (hs : list R) k, Forall (Rlt 0) hs -> 0 < nth k hs 1.
Proof.
  intros hs k F. destruct (nth_in_or_default k hs 1) as [I|E]; [|rewrite E; lra].
  rewrite Forall_forall in F. now apply F.
Qed.

Lemma flat : forall ns hs w line, length hs = length ns -> Forall (fun n => (0 < n)%nat) ns -> Forall (Rlt 0) hs ->
  two_points line ->
  (forall cs q k, In cs (cells ns) -> In q (product_rule line (length ns)) -> (k < length ns)%nat -> grad hs w cs (fst q) k = 0) ->
  forall js js', node ns js -> node ns js' -> w js = w js'.
Proof.
  intros ns hs w line Lh Fn Fh T Z. apply edges_constant; auto. intros cs k bs I Lk Lb.
  pose proof (cells_length _ _ I) as Lc.
  pose proof (nth_pos hs k Fh) as Pk.
  assert (E' : (w (up cs (put k true bs)) - w (up cs (put k false bs))) / nth k hs 1 + (0 - 0) / nth k hs 1 = 0).
  { apply (edge_zero line T k cs cs hs hs w (fun _ => 0)); try lia. intros q Q. rewrite grad_zero. rewrite Z; auto; [ring|]. rewrite <- Lc. exact Q. }
  assert (P : (w (up cs (put k true bs)) - w (up cs (put k false bs))) / nth k hs 1 = 0) by (unfold Rdiv in E' |- *; lra).
  unfold Rdiv in P. apply Rmult_integral in P. destruct P as [P|P]; [lra|]. pose proof (Rinv_0_lt_compat _ Pk). lra.
Qed.

(** * Local problems *)
Lemma corrector_bvp : forall d qs n con b x,
  local_problem d qs n con b x <-> solves_bvp n con (stiffness d qs) b (fun _ => 0) x.
Proof.
  intros d qs n con b x. unfold local_problem, solves, solves_bvp. split; intros H i Li; specialize (H i Li).
  - fold (reduced_matrix con (stiffness d qs)) in H. rewrite reduced_apply in H by auto.
    unfold constrain_vector in H. destruct (con i); auto.
  - fold (reduced_matrix con (stiffness d qs)). rewrite reduced_apply by auto. unfold constrain_vector.
    destruct (con i); auto.
Qed.

Lemma stiffness_energy : forall d qs n y z, dot n (mv n (stiffness d qs) y) z = LinSpec.energy d qs (field_of n y) (field_of n z).
Proof.
  intros d qs n y z. rewrite energy_field_r. unfold dot at 1. apply rsum_ext. intros i _. rewrite stiffness_field. ring.
Qed.

Lemma coercive_unique : forall d qs n con, coercive d qs n con -> unique n con (stiffness d qs).
Proof.
  intros d qs n con Co. apply definite_unique. intros v V E. apply Co; auto. now rewrite <- stiffness_energy.
Qed.

Lemma coercive_problem : forall d qs n con b, coercive d qs n con -> one_solution n (local_problem d qs n con b).
Proof.
  intros d qs n con b Co. apply coercive_unique in Co.
  destruct (unique_one n con _ Co b (fun _ => 0)) as ((x & X) & U). split.
  - exists x. now apply corrector_bvp.
  - intros y z Y Z. apply U; now apply corrector_bvp.
Qed.
Lemma coercive_one : forall d qs rs n con field, coercive d qs n con -> one_solution n (corrector d qs rs n con field).
Proof. intros. now apply coercive_problem. Qed.

Lemma nodal_point : forall ns hs num n y (A : list nat -> list R -> nat -> nat -> R) cs q, numbering ns num n -> In cs (cells ns) ->
  length (fst q : list R) = length ns ->
  forall k, field_of n y {| q_w := volume hs * snd q; q_A := A cs (fst q); q_grad := fun i => grad hs (one_at num i) cs (fst q) |} k =
  grad hs (nodal num y) cs (fst q) k.
Proof.
  intros ns hs num n y A cs q Nu I L k. unfold field_of. cbn [q_grad]. apply (nodal_grad ns); auto.
  rewrite (cells_length _ _ I). exact L.
Qed.

Lemma varied_coercive : forall ns hs num n con A order, length hs = length ns -> Forall (fun m => (0 < m)%nat) ns -> Forall (Rlt 0) hs ->
  numbering ns num n -> two_points (line_rule (gauss_points order)) ->
  (forall cs xs, In cs (cells ns) -> length xs = length ns -> positive (length ns) (A cs xs)) ->
  (exists i, (i < n)%nat /\ con i = true) ->
  coercive (length ns) (grid_points (length ns) order (varied_elements ns hs num A)) n con.
Proof.
  intros ns hs num n con A order Lh Fn Fh Nu T Po (i0 & L0 & C0) y Y E i Li.
  unfold LinSpec.energy, grid_points, varied_elements in E. rewrite lsum_flat_map, lsum_map in E. cbn [el_factor el_A el_grad] in E.
  pose proof (volume_pos hs Fh) as Vp. destruct T as (Tp & T').
  set (term := fun cs (q : list R * R) => volume hs * snd q * dot (length ns) (mv (length ns) (A cs (fst q)) (grad hs (nodal num y) cs (fst q)))
     (grad hs (nodal num y) cs (fst q))).
  assert (E0 : lsum (cells ns) (fun cs => lsum (cube_rule (length ns) order) (term cs)) <= 0).
  { refine (Rle_trans _ _ _ _ E). right. apply lsum_ext. intros cs I. rewrite lsum_map. apply lsum_ext. intros q Q.
    cbn [q_w q_A]. unfold term. f_equal. apply dot_ext.
    - intros k _. apply mv_ext. intros m _. symmetry. apply (nodal_point ns hs num n y A cs q); auto. now apply (rule_length _ _ _ Q).
    - intros k _. symmetry. apply (nodal_point ns hs num n y A cs q); auto. now apply (rule_length _ _ _ Q). }
  assert (Nn : forall cs q, In cs (cells ns) -> In q (cube_rule (length ns) order) -> 0 <= term cs q).
  { intros cs q I Q. unfold term. pose proof (rule_positive _ _ _ Tp Q). apply Rmult_le_pos.
    - left. now apply Rmult_lt_0_compat.
    - apply positive_nonneg. apply Po; auto. now apply (rule_length _ _ _ Q). }
  assert (E1 : lsum (cells ns) (fun cs => lsum (cube_rule (length ns) order) (term cs)) = 0).
  { apply Rle_antisym; auto. apply lsum_nonneg. intros c Ic. apply lsum_nonneg. intros. now apply Nn. }
  assert (Fl : forall js js', node ns js -> node ns js' -> nodal num y js = nodal num y js').
  { apply (flat ns hs (nodal num y) (line_rule (gauss_points order))); auto; [now split|].
    intros cs q k I Q Lk.
    pose proof (lsum_zero_each _ _ _ cs (fun c Ic => lsum_nonneg _ _ _ (fun q Q => Nn c q Ic Q)) E1 I) as E2. cbv beta in E2.
    pose proof (lsum_zero_each _ _ _ q (fun q Q => Nn cs q I Q) E2 Q) as E3. cbv beta in E3. unfold term in E3.
    pose proof (rule_positive _ _ _ Tp Q) as Pq.
    apply Rmult_integral in E3. destruct E3 as [E3|E3]; [pose proof (Rmult_lt_0_compat _ _ Vp Pq); lra|].
    destruct (Req_dec (grad hs (nodal num y) cs (fst q) k) 0) as [|N]; auto.
    assert (0 < dot (length ns) (mv (length ns) (A cs (fst q)) (grad hs (nodal num y) cs (fst q))) (grad hs (nodal num y) cs (fst q))).
    { apply Po; eauto. now apply (rule_length _ _ _ Q). }
    lra. }
  destruct (proj2 (proj2 Nu) i Li) as (js & Nj & <-). destruct (proj2 (proj2 Nu) i0 L0) as (js0 & Nj0 & <-).
  rewrite <- (Y (num js0) L0 C0). now apply (Fl js js0).
Qed.

(** * The coarse system *)
Section Coarse.
Variable d : nat.
Variable P : Type.
Variable diffusion : P -> nat -> nat -> R.
Variable grid : list (coarse_cell P * list (cface P)).
Variable N : nat.
Variable con : nat -> bool.
Hypothesis Ix : forall c fs i, In (c, fs) grid -> (i < cc_n P c)%nat -> (cc_index P c i < N)%nat.

Lemma matrix_form : forall source neumann M V, walk d P diffusion source neumann (fun _ _ => 0) (fun _ => 0) grid = Some (M, V) ->
  forall u v, dot N (mv N M u) v = lsum grid (fun cf => lsum (covered P (fst cf)) (fun l =>
    CoarseSpec.energy d P diffusion l (test_grad P u (fst cf) l) (test_grad P v (fst cf) l))).
Proof.
  intros source neumann M V E u v. destruct (walk_val _ _ _ _ _ _ _ _ _ _ E) as (A & _).
  transitivity (rsum N (fun a => v a * lsum grid (fun cf => rsum (cc_n P (fst cf)) (fun i => hit P (fst cf) i a *
    lsum (covered P (fst cf)) (fun l => CoarseSpec.energy d P diffusion l (test_grad P u (fst cf) l) (used_grad P (fst cf) l i)))))).
  - unfold dot. apply rsum_ext. intros a La. rewrite Rmult_comm. f_equal. unfold mv.
    rewrite (rsum_ext N _ (fun b => lsum grid (fun cf => cell_part d P diffusion (fst cf) a b * u b))).
    + rewrite <- lsum_rsum. apply lsum_ext. intros (c, fs) I. cbn [fst]. rewrite cell_apply; [reflexivity|]. intros i. now apply (Ix c fs).
    + intros b Lb. rewrite A, Rplus_0_l.
      transitivity (u b * lsum grid (fun cf => cell_part d P diffusion (fst cf) a b)); [ring|].
      rewrite <- lsum_scale. apply lsum_ext. intros. ring.
  - rewrite (weigh P grid N v (fun cf i => lsum (covered P (fst cf)) (fun l =>
      CoarseSpec.energy d P diffusion l (test_grad P u (fst cf) l) (used_grad P (fst cf) l i)))) by auto.
    apply lsum_ext. intros cf _.
    transitivity (lsum (covered P (fst cf)) (fun l => rsum (cc_n P (fst cf)) (fun i => v (cc_index P (fst cf) i) *
      CoarseSpec.energy d P diffusion l (test_grad P u (fst cf) l) (used_grad P (fst cf) l i)))).
    + rewrite lsum_rsum. apply rsum_ext. intros. now rewrite lsum_scale.
    + apply lsum_ext. intros l _. unfold test_grad at 3. now rewrite energy_sum_r.
Qed.

Hypothesis Po : forall c fs l q, In (c, fs) grid -> In l (covered P c) -> In q (lc_quad P l) ->
  positive d (diffusion (lc_global P l (fst q))) /\ 0 < lc_factor P l (fst q) * snd q.

Lemma form_zero : forall v,
  lsum grid (fun cf => lsum (covered P (fst cf)) (fun l =>
    CoarseSpec.energy d P diffusion l (test_grad P v (fst cf) l) (test_grad P v (fst cf) l))) <= 0 ->
  forall c fs l q k, In (c, fs) grid -> In l (covered P c) -> In q (lc_quad P l) -> (k < d)%nat -> test_grad P v c l (fst q) k = 0.
Proof.
  intros v E c fs l q k I L Q Lk.
  assert (N3 : forall c fs l q, In (c, fs) grid -> In l (covered P c) -> In q (lc_quad P l) ->
    0 <= lc_factor P l (fst q) * snd q * dot d (mv d (diffusion (lc_global P l (fst q))) (test_grad P v c l (fst q))) (test_grad P v c l (fst q))).
  { intros c' fs' l' q' I' L' Q'. destruct (Po c' fs' l' q' I' L' Q') as (A & B). apply Rmult_le_pos; [lra|]. now apply positive_nonneg. }
  assert (N2 : forall c fs l, In (c, fs) grid -> In l (covered P c) -> 0 <= CoarseSpec.energy d P diffusion l (test_grad P v c l) (test_grad P v c l)).
  { intros c' fs' l' I' L'. apply lsum_nonneg. intros q' Q'. now apply (N3 c' fs'). }
  assert (N1 : forall cf, In cf grid -> 0 <= lsum (covered P (fst cf)) (fun l => CoarseSpec.energy d P diffusion l (test_grad P v (fst cf) l) (test_grad P v (fst cf) l))).
  { intros (c', fs') I'. apply lsum_nonneg. intros l' L'. now apply (N2 c' fs'). }
  assert (E0 : lsum grid (fun cf => lsum (covered P (fst cf)) (fun l =>
    CoarseSpec.energy d P diffusion l (test_grad P v (fst cf) l) (test_grad P v (fst cf) l))) = 0).
  { apply Rle_antisym; auto. now apply lsum_nonneg. }
  pose proof (lsum_zero_each _ _ _ (c, fs) N1 E0 I) as E1. cbn [fst] in E1.
  pose proof (lsum_zero_each _ _ _ l (fun l L => N2 c fs l I L) E1 L) as E2. cbv beta in E2.
  pose proof (lsum_zero_each _ _ _ q (fun q Q => N3 c fs l q I L Q) E2 Q) as E3. cbv beta in E3.
  destruct (Po c fs l q I L Q) as (A & B). apply Rmult_integral in E3. destruct E3 as [E3|E3]; [lra|].
  destruct (Req_dec (test_grad P v c l (fst q) k) 0) as [|Nz]; auto.
  assert (0 < dot d (mv d (diffusion (lc_global P l (fst q))) (test_grad P v c l (fst q))) (test_grad P v c l (fst q))) by (apply A; eauto).
  lra.
Qed.

Lemma coarse_one : (forall c fs, In (c, fs) grid -> (cc_slots P c = cc_n P c + 2)%nat) ->
  forall source neumann g, one_solution N (coarse_solution d P diffusion source neumann N con g grid) <-> seen d N con grid.
Proof.
  intros Sl source neumann g.
  destruct (proj2 (walk_some d P diffusion source neumann grid (fun _ _ => 0) (fun _ => 0)) Sl) as ((M, V) & W).
  assert (B : forall u, coarse_solution d P diffusion source neumann N con g grid u <-> solves_bvp N con M V g u).
  { intros u. split.
    - intros (M' & V' & W' & S). rewrite W in W'. injection W' as <- <-. now apply coarse_bvp in S.
    - intros S. exists M, V. split; auto. now apply coarse_bvp. }
  split.
  - intros ((u & U) & Un) v Z G i Li. apply B in U.
    enough (u i + v i = u i) by lra. apply (Un (fun i => u i + v i) u); auto; [|now apply B].
    apply B. intros a La. specialize (U a La). destruct (con a) eqn:C; [rewrite Z by auto; lra|].
    assert (K : mv N M v a = 0).
    { pose proof (matrix_form source neumann M V W v (fun b => if Nat.eqb b a then 1 else 0)) as F.
      rewrite lsum_0 in F.
      - unfold dot in F. rewrite (rsum_single N a) in F; auto.
        + rewrite Nat.eqb_refl in F. lra.
        + intros b _ D. destruct (Nat.eqb_spec b a); [congruence|ring].
      - intros (c, fs) I. cbn [fst]. apply lsum_0. intros l Il. unfold CoarseSpec.energy. apply lsum_0. intros q Q.
        unfold dot. rewrite rsum_0; [ring|]. intros k Lk. unfold mv. rewrite rsum_0; [ring|]. intros m Lm.
        rewrite (G c fs l q m) by auto. ring. }
    unfold mv in K.
    rewrite (rsum_ext N _ (fun j => M a j * u j + M a j * v j)) by (intros; ring). rewrite rsum_plus. lra.
  - intros S.
    assert (U : unique N con M).
    { apply definite_unique. intros v Z E. rewrite (matrix_form source neumann M V W) in E. apply S; auto.
      intros c fs l q k. now apply (form_zero v E c fs). }
    destruct (unique_one N con M U V g) as ((u & Hu) & Un). split.
    + exists u. now apply B.
    + intros x y X Y. apply Un; now apply B.
Qed.
End Coarse.

(** * The reference system *)
Lemma bare_grad : forall P v (c : fcell P) x k, test_grad P v (bare P c) (bare_local P c) x k = fine_grad P v c x k.
Proof.
  intros P v c x k. unfold test_grad, fine_grad, used_grad. cbn [bare bare_local cc_n cc_index cc_grad lc_grad].
  apply rsum_ext. intros. ring.
Qed.

Lemma fem_one : forall d P diffusion (grid : list (fcell P * list (cface P))) N con,
  (forall c fs i, In (c, fs) grid -> (i < fc_n P c)%nat -> (fc_index P c i < N)%nat) ->
  (forall c fs q, In (c, fs) grid -> In q (fc_quad P c) ->
     positive d (diffusion (fc_global P c (fst q))) /\ 0 < fc_factor P c (fst q) * snd q) ->
  forall source neumann g start,
  one_solution N (fem_solution d P diffusion source neumann N con g start grid) <->
  (forall v, (forall i, (i < N)%nat -> con i = true -> v i = 0) ->
     (forall c fs q k, In (c, fs) grid -> In q (fc_quad P c) -> (k < d)%nat -> fine_grad P v c (fst q) k = 0) ->
     forall i, (i < N)%nat -> v i = 0).
Proof.
  intros d P diffusion grid N con Ix Po source neumann g start.
  assert (T : one_solution N (fem_solution d P diffusion source neumann N con g start grid) <->
              one_solution N (coarse_solution d P diffusion source neumann N con g (bares P grid))).
  { unfold one_solution. split; intros ((u & U) & Un); split.
    - exists u. now apply (fem_as_coarse d P diffusion source neumann grid N con g start u) in U.
    - intros x y X Y. apply Un; now apply fem_as_coarse.
    - exists u. now apply fem_as_coarse.
    - intros x y X Y. apply (fem_as_coarse d P diffusion source neumann grid N con g start) in X.
      apply (fem_as_coarse d P diffusion source neumann grid N con g start) in Y. now apply Un. }
  assert (B : forall c fs l q, In (c, fs) (bares P grid) -> In l (covered P c) -> In q (lc_quad P l) ->
    exists c', In (c', fs) grid /\ c = bare P c' /\ l = bare_local P c' /\ In q (fc_quad P c')).
  { intros c fs l q I L Q. apply bares_in in I. destruct I as (c' & I & ->). exists c'.
    unfold covered in L. cbn in L. destruct L as [<-|[]]. auto. }
  rewrite T, coarse_one.
  - unfold seen. split.
    + intros S v Z G. apply S; auto. intros c fs l q k I L Q Lk. destruct (B c fs l q I L Q) as (c' & I' & -> & -> & Q').
      rewrite bare_grad. now apply (G c' fs).
    + intros S v Z G. apply S; auto. intros c fs q k I Q Lk. rewrite <- bare_grad.
      apply (G (bare P c) fs); auto.
      * apply in_map_iff. exists (c, fs). split; auto.
      * now left.
  - intros c fs i I. apply bares_in in I. destruct I as (c' & I & ->). now apply (Ix c' fs).
  - intros c fs l q I L Q. destruct (B c fs l q I L Q) as (c' & I' & -> & -> & Q'). now apply (Po c' fs).
  - intros c fs I. apply bares_in in I. destruct I as (c' & I & ->). reflexivity.
Qed.

Section Fine.
Variables (ns : list nat) (hs : list R) (num : list nat -> nat) (n : nat).
Variable diffusion : list R -> nat -> nat -> R.
Variable global : list nat -> list R -> list R.
Variable line : list (R * R).
Variable rquad : list nat -> list (list R * R).
Variable fs : list nat -> list (cface (list R)).
Let d := length ns.
Let grid := fine_boxes ns hs num global (product_rule line d) rquad fs.
Hypothesis Lh : length hs = length ns.
Hypothesis Fn : Forall (fun m => (0 < m)%nat) ns.
Hypothesis Fh : Forall (Rlt 0) hs.
Hypothesis Num : numbering ns num n.
Hypothesis Tp : two_points line.
Hypothesis Po : forall x, positive d (diffusion x).

Lemma fine_in : forall c f, In (c, f) grid -> exists cs, In cs (cells ns) /\ f = fs cs /\
  c = fem_cell (box_cell hs num cs []) (global cs) (volume hs) (product_rule line d) (rquad cs).
Proof. intros c f I. apply in_map_iff in I. destruct I as (cs & E & I). injection E as <- <-. eauto. Qed.

Lemma fine_index : forall c f i, In (c, f) grid -> (i < fc_n _ c)%nat -> (fc_index _ c i < n)%nat.
Proof.
  intros c f i I L. destruct (fine_in c f I) as (cs & J & -> & ->). cbn in L |- *.
  apply (proj1 Num). apply (corner_node ns cs); auto. now apply nth_In.
Qed.

Lemma fine_flat : forall v,
  (forall c f q k, In (c, f) grid -> In q (fc_quad _ c) -> (k < d)%nat -> fine_grad _ v c (fst q) k = 0) ->
  forall i j, (i < n)%nat -> (j < n)%nat -> v i = v j.
Proof.
  intros v G i j Li Lj. destruct (proj2 (proj2 Num) i Li) as (js & Nj & <-). destruct (proj2 (proj2 Num) j Lj) as (js' & Nj' & <-).
  apply (flat ns hs (nodal num v) line); auto. intros cs q k I Q Lk.
  rewrite <- (box_fine_grad ns hs num n v cs [] (global cs) (volume hs) (product_rule line d) (rquad cs)); auto.
  - apply (G _ (fs cs)); auto. apply in_map_iff. exists cs. auto.
  - rewrite (rule_length _ _ _ Q). symmetry. now apply cells_length.
Qed.

Lemma fine_positive : forall c f q, In (c, f) grid -> In q (fc_quad _ c) ->
  positive d (diffusion (fc_global _ c (fst q))) /\ 0 < fc_factor _ c (fst q) * snd q.
Proof.
  intros c f q I Q. destruct (fine_in c f I) as (cs & J & -> & ->). cbn in Q |- *. split; auto.
  apply Rmult_lt_0_compat; [now apply volume_pos|]. now apply (rule_positive line d); [apply Tp|].
Qed.

Lemma fine_one : forall con, (exists i, (i < n)%nat /\ con i = true) -> forall source neumann g start,
  one_solution n (fem_solution d (list R) diffusion source neumann n con g start grid).
Proof.
  intros con (i0 & L0 & C0) source neumann g start. apply fem_one.
  - apply fine_index.
  - apply fine_positive.
  - intros v Z G i Li. rewrite <- (Z i0 L0 C0). now apply fine_flat.
Qed.

(** ** Pure Neumann problems *)
Lemma value_one : forall cs xs, length xs = length cs -> value (fun _ => 1) cs xs = 1.
Proof. induction cs as [|c cs IH]; intros [|x xs] L; try discriminate L; cbn; auto. rewrite !IH by (cbn in L; lia). ring. Qed.
Lemma grad_const : forall gs a cs xs k, grad gs (fun _ => a) cs xs k = 0.
Proof.
  induction gs as [|g gs IH]; intros a [|c cs] [|x xs] k; cbn [grad]; auto.
  destruct k; [unfold Rdiv; ring|rewrite !IH; ring].
Qed.

Hypothesis Lr : forall cs q, In cs (cells ns) -> In q (rquad cs) -> length (fst q) = d.
Hypothesis Lf : forall cs f q, In cs (cells ns) -> In f (fs cs) -> In q (cf_quad _ f) -> length (fst (fst q)) = d.

Lemma shift_grad : forall v s c f xs k, In (c, f) grid -> length xs = d ->
  fine_grad _ (fun i => v i + s) c xs k = fine_grad _ v c xs k.
Proof.
  intros v s c f xs k I L. destruct (fine_in c f I) as (cs & J & -> & ->).
  assert (Lx : length xs = length cs) by (rewrite (cells_length _ _ J); exact L).
  rewrite !(box_fine_grad ns hs num n) by auto.
  rewrite (grad_ext hs cs xs k (nodal num (fun i => v i + s)) (fun js => 1 * nodal num v js + s * (fun _ => 1) js)).
  - rewrite grad_lin, grad_const. ring.
  - exact Lx.
  - intros. unfold nodal. ring.
Qed.
Lemma shift_val : forall v s c f xs, In (c, f) grid -> length xs = d ->
  fine_val _ (fun i => v i + s) c xs = fine_val _ v c xs + s.
Proof.
  intros v s c f xs I L. destruct (fine_in c f I) as (cs & J & -> & ->).
  assert (Lx : length xs = length cs) by (rewrite (cells_length _ _ J); exact L).
  unfold fine_val. cbn [fem_cell box_cell fc_n fc_index fc_val cc_n cc_index cc_val].
  rewrite (rsum_ext _ _ (fun j => v (num (nth j (corners cs) [])) * value (one_at num (num (nth j (corners cs) []))) cs xs
      + s * (1 * value (one_at num (num (nth j (corners cs) []))) cs xs))) by (intros; ring).
  rewrite rsum_plus, rsum_scale. f_equal.
  rewrite (value_sum _ cs xs (fun _ => 1) (fun j => one_at num (num (nth j (corners cs) [])))) by auto.
  rewrite (value_ext cs xs _ (fun _ => 1)); [rewrite value_one by auto; ring|auto|].
  intros js Jc. exact (corner_sum ns num n (fun _ => 1) cs js Num J Jc).
Qed.

Let en (u v : nat -> R) := lsum grid (fun cf => fine_energy d (list R) diffusion (fst cf) (fine_grad _ u (fst cf)) (fine_grad _ v (fst cf))).
Let ld source neumann (v : nat -> R) := lsum grid (fun cf => fine_load (list R) source (fst cf) (fine_val _ v (fst cf))
       + boundary_load (list R) neumann (snd cf) (fine_val _ v (fst cf))).

Lemma quad_length : forall c f q, In (c, f) grid -> In q (fc_quad _ c) -> length (fst q) = d.
Proof. intros c f q I Q. destruct (fine_in c f I) as (cs & J & -> & ->). cbn in Q. now apply (rule_length _ _ _ Q). Qed.

Lemma shift_en_r : forall u v s, en u (fun i => v i + s) = en u v.
Proof.
  intros u v s. apply lsum_ext. intros (c, f) I. cbn [fst]. unfold fine_energy. apply lsum_ext. intros q Q. f_equal.
  apply dot_ext; auto. intros k _. apply (shift_grad v s c f); auto. now apply (quad_length c f).
Qed.
Lemma shift_en_l : forall u v s, en (fun i => u i + s) v = en u v.
Proof.
  intros u v s. apply lsum_ext. intros (c, f) I. cbn [fst]. unfold fine_energy. apply lsum_ext. intros q Q. f_equal.
  apply dot_ext; auto. intros k _. apply mv_ext. intros m _. apply (shift_grad u s c f); auto. now apply (quad_length c f).
Qed.
Lemma shift_ld : forall source neumann v s, ld source neumann (fun i => v i + s) = ld source neumann v + s * supply source neumann grid.
Proof.
  intros source neumann v s. unfold ld, supply. rewrite <- lsum_scale, <- lsum_plus. apply lsum_ext. intros (c, f) I. cbn [fst snd].
  assert (A : fine_load (list R) source c (fine_val _ (fun i => v i + s) c) =
              fine_load (list R) source c (fine_val _ v c) + s * fine_load (list R) source c (fun _ => 1)).
  { unfold fine_load. rewrite <- lsum_scale, <- lsum_plus. apply lsum_ext. intros q Q. rewrite (shift_val v s c f); auto; [ring|].
    destruct (fine_in c f I) as (cs & J & -> & ->). cbn in Q. now apply (Lr cs). }
  assert (B : boundary_load (list R) neumann f (fine_val _ (fun i => v i + s) c) =
              boundary_load (list R) neumann f (fine_val _ v c) + s * boundary_load (list R) neumann f (fun _ => 1)).
  { unfold boundary_load. rewrite <- lsum_scale, <- lsum_plus. apply lsum_ext. intros e Ie. apply filter_In in Ie. destruct Ie as (Ie & _).
    rewrite <- lsum_scale, <- lsum_plus. apply lsum_ext. intros q Q. rewrite (shift_val v s c f); auto; [ring|].
    destruct (fine_in c f I) as (cs & J & -> & ->). now apply (Lf cs e). }
  rewrite A, B. ring.
Qed.

Lemma weak : forall source neumann con g start u,
  fem_solution d (list R) diffusion source neumann n con g start grid u <->
  (forall i, (i < n)%nat -> con i = true -> u i = g i) /\
  (forall v, (forall i, (i < n)%nat -> con i = true -> v i = 0) -> en u v = ld source neumann v).
Proof. intros source neumann con g start u. apply fem_weak_form. apply fine_index. Qed.

Lemma some_index : (0 < n)%nat.
Proof.
  enough (node ns (map (fun _ => 0%nat) ns)) by (pose proof (proj1 Num _ H); lia).
  unfold node. clear. induction ns as [|m r IH]; cbn; constructor; auto. lia.
Qed.

Lemma neumann_solvable : forall source neumann g start,
  (exists u, fem_solution d (list R) diffusion source neumann n (fun _ => false) g start grid u) <-> supply source neumann grid = 0.
Proof.
  intros source neumann g start. split.
  - intros (u & U). apply weak in U. destruct U as (_ & W).
    pose proof (W (fun _ => 0) ltac:(intros; discriminate)) as W0. pose proof (W (fun _ => 0 + 1) ltac:(intros; discriminate)) as W1.
    rewrite (shift_en_r u (fun _ => 0) 1), (shift_ld source neumann (fun _ => 0) 1) in W1. lra.
  - intros S. pose proof some_index as L0.
    destruct (fine_one (fun i => Nat.eqb i 0) ltac:(exists 0%nat; auto) source neumann g start) as ((u & U) & _).
    exists u. apply weak in U. destruct U as (_ & W). apply weak. split; [intros; discriminate|]. intros v _.
    set (v' := fun i => v i + - v 0%nat).
    assert (W' : en u v' = ld source neumann v').
    { apply W. intros i _ E. apply Nat.eqb_eq in E. subst i. unfold v'. ring. }
    unfold v' in W'. rewrite shift_en_r, shift_ld, S in W'. lra.
Qed.

Lemma neumann_level : forall source neumann g start u,
  fem_solution d (list R) diffusion source neumann n (fun _ => false) g start grid u ->
  forall u', fem_solution d (list R) diffusion source neumann n (fun _ => false) g start grid u' <->
             exists s, forall i, (i < n)%nat -> u' i = u i + s.
Proof.
  intros source neumann g start u U u'. pose proof some_index as L0.
  assert (Sh : forall w s, fem_solution d (list R) diffusion source neumann n (fun _ => false) g start grid w ->
     fem_solution d (list R) diffusion source neumann n (fun _ => false) g start grid (fun i => w i + s)).
  { intros w s W. apply weak in W. destruct W as (_ & W). apply weak. split; [intros; discriminate|]. intros v Z.
    rewrite shift_en_l. now apply W. }
  split.
  - intros U'. exists (u' 0%nat - u 0%nat).
    assert (Fx : forall w, fem_solution d (list R) diffusion source neumann n (fun _ => false) g start grid w -> w 0%nat = u' 0%nat ->
      fem_solution d (list R) diffusion source neumann n (fun i => Nat.eqb i 0) u' start grid w).
    { intros w W E. apply weak in W. destruct W as (_ & W). apply weak. split.
      - intros i _ Ei. apply Nat.eqb_eq in Ei. now subst i.
      - intros v _. apply W. intros; discriminate. }
    destruct (fine_one (fun i => Nat.eqb i 0) ltac:(exists 0%nat; auto) source neumann u' start) as (_ & Un).
    intros i Li. apply (Un u' (fun i => u i + (u' 0%nat - u 0%nat))); auto. apply Fx; [now apply Sh|ring].
  - intros (s & E). pose proof (Sh u s U) as W. apply fem_bvp in W. apply fem_bvp. intros i Li. specialize (W i Li).
    cbn beta iota in W |- *. rewrite <- W. apply rsum_ext. intros j Lj. now rewrite E.
Qed.
End Fine.

(** * Coarse systems without oversampling *)
(** The fine cells along an edge of the coarse cell. *)
Fixpoint along (ms : list nat) (k t : nat) (bs : list bool) : list nat :=
  match ms, bs with
  | m :: ms', b :: bs' =>
    match k with
    | O => t :: along ms' (length ms') t bs'
    | S k' => (if b then Nat.pred m else 0%nat) :: along ms' k' t bs'
    end
  | _, _ => []
  end.
Lemma along_length : forall ms k t bs, length bs = length ms -> length (along ms k t bs) = length ms.
Proof. induction ms as [|m ms IH]; intros [|k] t [|b bs] L; try discriminate L; cbn in *; auto. Qed.
Lemma along_cell : forall ms k t bs, Forall (fun m => (0 < m)%nat) ms -> length bs = length ms ->
  ((k < length ms)%nat -> (t < nth k ms 0)%nat) -> In (along ms k t bs) (cells ms).
Proof.
  induction ms as [|m ms IH]; intros k t [|b bs] F L T; try discriminate L; [now left|].
  inversion F; subst. cbn [length] in *. destruct k as [|k]; cbn [along cells nth] in *; apply in_flat_map.
  - exists t. split; [apply in_seq; split; [lia|apply T; lia]|]. apply in_map. apply IH; auto; lia.
  - exists (if b then Nat.pred m else 0%nat). split; [apply in_seq; destruct b; lia|]. apply in_map. apply IH; auto. intros. apply T. lia.
Qed.
Lemma along_next : forall ms k t bs, length bs = length ms -> (k < length ms)%nat ->
  up (along ms k t bs) (put k true bs) = up (along ms k (S t) bs) (put k false bs).
Proof.
  assert (O : forall ms k t t' bs, length bs = length ms -> (length ms <= k)%nat -> along ms k t bs = along ms k t' bs).
  { induction ms as [|m ms IH]; intros k t t' [|b bs] L Lk; try discriminate L; auto. cbn [length] in *.
    destruct k as [|k]; [lia|]. cbn [along]. f_equal. apply IH; lia. }
  induction ms as [|m ms IH]; intros k t [|b bs] L Lk; try discriminate L; cbn [length] in *; [lia|].
  destruct k as [|k]; cbn [along put up].
  - f_equal. f_equal. apply O; lia.
  - f_equal. apply IH; lia.
Qed.
Lemma along_node : forall ms k t bs, Forall (fun m => (0 < m)%nat) ms -> length bs = length ms ->
  ((k < length ms)%nat -> (t <= nth k ms 0)%nat) -> node ms (up (along ms k t bs) (put k false bs)).
Proof.
  induction ms as [|m ms IH]; intros k t [|b bs] F L T; try discriminate L; [constructor|].
  inversion F; subst. cbn [length] in *. destruct k as [|k]; cbn [along up put nth] in *; constructor.
  - apply T. lia.
  - replace bs with (put (length ms) false bs) at 2; [apply IH; auto; lia|].
    assert (G : forall k bs, (length bs <= k)%nat -> put k false bs = bs).
    { clear. intros k bs. revert k. induction bs as [|b bs IH]; intros [|k] L; cbn in *; auto; [lia|]. f_equal. apply IH. lia. }
    apply G. lia.
  - destruct b; lia.
  - apply IH; auto. intros. apply T. lia.
Qed.
Lemma along_outer : forall ms k t bs, length bs = length ms -> (k < length ms)%nat -> t = 0%nat \/ t = nth k ms 0%nat ->
  outer_node ms (up (along ms k t bs) (put k false bs)) = true.
Proof.
  induction ms as [|m ms IH]; intros k t [|b bs] L Lk T; try discriminate L; cbn [length] in *; [lia|].
  destruct k as [|k]; cbn [along up put nth outer_node] in *.
  - destruct T as [->| ->]; [reflexivity|]. rewrite Nat.eqb_refl, orb_true_r. reflexivity.
  - rewrite (IH k t bs) by (auto; lia). apply orb_true_r.
Qed.

Section Inner.
Variables (ns : list nat) (hs : list R) (num : list nat -> nat) (n : nat).
Variables (ms : list nat) (gs : list R).
Variable diffusion : list R -> nat -> nat -> R.
Variable line : list (R * R).
Variable loc : list nat -> nat -> list nat -> R.
Variable global : list nat -> list nat -> list R -> list R.
Variable rquad : list nat -> list nat -> list (list R * R).
Variable vals : list nat -> list nat -> nat -> list R -> R.
Variable fs : list nat -> list (cface (list R)).
Let d := length ns.
Let grid := map (fun cs => (box_cell hs num cs (inner_elements ms gs line (global cs) (rquad cs) (vals cs) (loc cs)), fs cs)) (cells ns).
Hypothesis Lh : length hs = length ns.
Hypothesis Lm : length ms = length ns.
Hypothesis Lg : length gs = length ns.
Hypothesis Fn : Forall (fun m => (0 < m)%nat) ns.
Hypothesis Fm : Forall (fun m => (0 < m)%nat) ms.
Hypothesis Fh : Forall (Rlt 0) hs.
Hypothesis Fg : Forall (Rlt 0) gs.
Hypothesis Num : numbering ns num n.
Hypothesis Tp : two_points line.
Hypothesis Po : forall x, positive d (diffusion x).
Hypothesis Van : forall cs i js, In cs (cells ns) -> (i < length (corners cs))%nat -> node ms js -> outer_node ms js = true -> loc cs i js = 0.

(** Stored function belonging to the coarse function [v]. *)
Definition stored (v : nat -> R) (cs : list nat) : list nat -> R :=
  fun js => rsum (length (corners cs)) (fun i => v (num (nth i (corners cs) [])) * loc cs i js).

Lemma inner_grad : forall v cs f xs k, In cs (cells ns) -> In f (cells ms) -> length xs = d ->
  test_grad (list R) v (box_cell hs num cs (inner_elements ms gs line (global cs) (rquad cs) (vals cs) (loc cs)))
    {| lc_covered := true; lc_global := global cs f; lc_factor := fun _ => volume gs;
       lc_grad := fun i xs => grad gs (loc cs i) f xs; lc_val := vals cs f;
       lc_quad := product_rule line (length ms); lc_rquad := rquad cs f |} xs k =
  grad hs (nodal num v) cs xs k + grad gs (stored v cs) f xs k.
Proof.
  intros v cs f xs k I J L. unfold test_grad, used_grad. cbn [box_cell cc_n cc_index cc_grad lc_grad].
  rewrite (rsum_ext _ _ (fun i => v (num (nth i (corners cs) [])) * grad hs (one_at num (num (nth i (corners cs) []))) cs xs k +
    v (num (nth i (corners cs) [])) * grad gs (loc cs i) f xs k)) by (intros; ring).
  rewrite rsum_plus. f_equal.
  - rewrite (grad_sum _ hs cs xs k (fun i => v (num (nth i (corners cs) []))) (fun i => one_at num (num (nth i (corners cs) []))))
      by (rewrite (cells_length _ _ I); exact L).
    apply grad_ext; [rewrite (cells_length _ _ I); exact L|]. intros js J'. now apply (corner_sum ns num n).
  - rewrite (grad_sum _ gs f xs k (fun i => v (num (nth i (corners cs) []))) (loc cs)) by (rewrite (cells_length _ _ J), Lm; exact L).
    reflexivity.
Qed.


(** Without gradient, a coarse function has no differences along edges. *)
Lemma inner_edges : forall v,
  (forall cs f q k, In cs (cells ns) -> In f (cells ms) -> In q (product_rule line d) -> (k < d)%nat ->
     grad hs (nodal num v) cs (fst q) k + grad gs (stored v cs) f (fst q) k = 0) ->
  forall cs k bs, In cs (cells ns) -> (k < length ns)%nat -> length bs = length ns ->
    nodal num v (up cs (put k true bs)) = nodal num v (up cs (put k false bs)).
Proof.
  intros v Z cs k bs I Lk Lb. pose proof (cells_length _ _ I) as Lc.
  set (E := nodal num v (up cs (put k true bs)) - nodal num v (up cs (put k false bs))).
  set (f := fun t => stored v cs (up (along ms k t bs) (put k false bs))).
  pose proof (nth_pos hs k Fh) as Ph. pose proof (nth_pos gs k Fg) as Pg.
  assert (St : forall t, (t < nth k ms 0)%nat -> E / nth k hs 1 + (f (S t) - f t) / nth k gs 1 = 0).
  { intros t Lt. unfold E, f. rewrite <- along_next by lia.
    apply (edge_zero line Tp k cs (along ms k t bs) hs gs (nodal num v) (stored v cs)); try lia.
    - rewrite along_length; lia.
    - intros q Q. rewrite Lc in Q. apply Z; auto. apply along_cell; auto; lia. }
  assert (Sv : forall t, (t <= nth k ms 0)%nat -> t = 0%nat \/ t = nth k ms 0%nat -> f t = 0).
  { intros t Lt T. unfold f, stored. apply rsum_0. intros i Li. rewrite Van; auto; [ring| |].
    - apply along_node; auto; lia.
    - apply along_outer; auto; lia. }
  assert (Su : rsum (nth k ms 0%nat) (fun t => E / nth k hs 1 + (f (S t) - f t) / nth k gs 1) = 0) by (apply rsum_0; auto).
  rewrite rsum_plus in Su. unfold Rdiv in Su at 2. rewrite rsum_scale_r, telescope in Su.
  rewrite (Sv (nth k ms 0%nat)), (Sv 0%nat) in Su by (auto; lia).
  assert (C : rsum (nth k ms 0%nat) (fun _ => E / nth k hs 1) = INR (nth k ms 0%nat) * (E / nth k hs 1)).
  { generalize (nth k ms 0%nat) as m. intros m. induction m as [|m IH]; [cbn; ring|]. cbn [rsum]. rewrite IH, S_INR. ring. }
  assert (Pm : (0 < nth k ms 0)%nat) by (rewrite Forall_forall in Fm; apply Fm, nth_In; lia).
  apply lt_INR in Pm. cbn [INR] in Pm.
  assert (M0 : INR (nth k ms 0%nat) * (E / nth k hs 1) = 0) by lra.
  apply Rmult_integral in M0. destruct M0 as [M0|M0]; [lra|]. unfold Rdiv in M0. apply Rmult_integral in M0.
  destruct M0 as [M0|M0]; [unfold E in M0; lra|]. pose proof (Rinv_0_lt_compat _ Ph). lra.
Qed.

Lemma inner_one : forall con, (exists i, (i < n)%nat /\ con i = true) -> forall source neumann g,
  one_solution n (coarse_solution d (list R) diffusion source neumann n con g grid).
Proof.
  intros con (i0 & L0 & C0) source neumann g.
  assert (Gi : forall c f, In (c, f) grid -> exists cs, In cs (cells ns) /\
    c = box_cell hs num cs (inner_elements ms gs line (global cs) (rquad cs) (vals cs) (loc cs)) /\ f = fs cs).
  { intros c f I. apply in_map_iff in I. destruct I as (cs & E & I). injection E as <- <-. eauto. }
  assert (Cv : forall cs, covered (list R) (box_cell hs num cs (inner_elements ms gs line (global cs) (rquad cs) (vals cs) (loc cs))) =
    inner_elements ms gs line (global cs) (rquad cs) (vals cs) (loc cs)).
  { intros cs. unfold covered, inner_elements. cbn [box_cell cc_locals]. induction (cells ms) as [|x r IH]; auto. cbn [map filter lc_covered]. now rewrite IH. }
  apply coarse_one.
  - intros c f i I Li. destruct (Gi c f I) as (cs & J & -> & _). cbn [box_cell cc_n cc_index] in *.
    apply (proj1 Num). apply (corner_node ns cs); auto. now apply nth_In.
  - intros c f l q I L Q. destruct (Gi c f I) as (cs & J & -> & _). rewrite Cv in L. apply in_map_iff in L.
    destruct L as (x & <- & L). cbn [lc_global lc_factor lc_quad] in *. split; auto.
    apply Rmult_lt_0_compat; [now apply volume_pos|]. apply (rule_positive line (length ms)); auto. apply Tp.
  - intros c f I. destruct (Gi c f I) as (cs & J & -> & _). reflexivity.
  - intros v Z G i Li. destruct (proj2 (proj2 Num) i Li) as (js & Nj & <-). destruct (proj2 (proj2 Num) i0 L0) as (js' & Nj' & <-).
    rewrite <- (Z (num js') L0 C0). change (nodal num v js = nodal num v js'). apply (edges_constant ns); auto.
    apply inner_edges. intros cs f q k I J Q Lk. rewrite <- inner_grad; auto; [|now apply (rule_length _ _ _ Q)].
    eapply (G _ (fs cs)); auto.
    + apply in_map_iff. exists cs. split; [reflexivity|exact I].
    + rewrite Cv. apply in_map_iff. exists f. split; [reflexivity|exact J].
    + cbn [lc_quad]. rewrite Lm. exact Q.
Qed.
End Inner.
