From Coq Require Import Reals List Arith Bool Lia Lra Permutation.
From Verif Require Import Util StorageModel StorageSpec MsfemModel MsfemSpec MsfemProofs
  RSum LinModel LinSpec LinProofs SolutionModel SolutionSpec SolutionProofs ResidualSpec.
Import ListNotations.
Open Scope R_scope.

(** Test of a constrained system by a function vanishing on the constrained
    unknowns. *)
Lemma solved_test : forall n con A b x w,
  solves n (constrain_matrix con A) (constrain_vector con b) x -> vanishes n con w ->
  rsum n (fun i => w i * mv n A x i) = rsum n (fun i => w i * b i).
Proof.
  intros n con A b x w H V. apply rsum_ext. intros i L.
  destruct (con i) eqn:C; [rewrite (V i L C); ring|].
  specialize (H i L). unfold constrain_vector in H. rewrite C in H. rewrite <- H. f_equal.
  unfold mv. apply rsum_ext. intros j _. unfold constrain_matrix. now rewrite C.
Qed.

Lemma energy_fields : forall d qs n x w,
  energy d qs (field_of n x) (field_of n w) = rsum n (fun i => w i * mv n (stiffness d qs) x i).
Proof.
  intros. rewrite energy_field_r. apply rsum_ext. intros i _. now rewrite <- stiffness_field.
Qed.

Lemma rhs_test : forall d qs n f w,
  rsum n (fun i => w i * local_rhs d qs f i) = - energy d qs f (field_of n w).
Proof.
  intros. rewrite energy_field_r, <- rsum_opp. apply rsum_ext. intros i _.
  unfold local_rhs, evaluate_product.
  rewrite (lsum_ext _ qs _ (fun q => (-1) * (q_w q * dot d (mv d (q_A q) (f q)) (q_grad q i)))) by (intros; ring).
  rewrite lsum_scale. ring.
Qed.

(** Constrained unknowns of a solution vanish. *)
Lemma solved_vanishes : forall n con A b x,
  solves n (constrain_matrix con A) (constrain_vector con b) x -> vanishes n con x.
Proof.
  intros n con A b x H i L C. specialize (H i L). unfold constrain_vector in H. rewrite C in H.
  unfold mv, constrain_matrix in H. rewrite C in H. rewrite (rsum_single n i) in H; auto.
  - rewrite Nat.eqb_refl in H. lra.
  - intros j _ N. destruct (Nat.eqb_spec i j); [congruence|ring].
Qed.

Lemma form_combine : forall d qs n m u h w,
  energy d qs (field_of n (combine_fn m u h)) (field_of n w) =
  rsum m (fun k => u k * energy d qs (field_of n (h k)) (field_of n w)).
Proof.
  intros. rewrite energy_fields.
  rewrite (rsum_ext n _ (fun i => rsum m (fun k => u k * (w i * mv n (stiffness d qs) (h k) i)))).
  - rewrite rsum_swap. apply rsum_ext. intros k _. now rewrite energy_fields, rsum_scale.
  - intros i _. unfold combine_fn. rewrite mv_sum, <- rsum_scale. apply rsum_ext. intros. ring.
Qed.

Lemma form_plus : forall d qs n x y w,
  energy d qs (field_of n (fun j => x j + y j)) (field_of n w) =
  energy d qs (field_of n x) (field_of n w) + energy d qs (field_of n y) (field_of n w).
Proof.
  intros. rewrite !energy_fields, <- rsum_plus. apply rsum_ext. intros i _. rewrite mv_plus. ring.
Qed.

Lemma form_minus : forall d qs n x y w,
  energy d qs (field_of n (fun j => x j - y j)) (field_of n w) =
  energy d qs (field_of n x) (field_of n w) - energy d qs (field_of n y) (field_of n w).
Proof.
  intros. rewrite !energy_fields, <- rsum_minus. apply rsum_ext. intros i _. rewrite mv_minus. ring.
Qed.

Lemma form_ext : forall d qs n x y w, (forall j, (j < n)%nat -> x j = y j) ->
  energy d qs (field_of n x) (field_of n w) = energy d qs (field_of n y) (field_of n w).
Proof.
  intros d qs n x y w H. rewrite !energy_fields. apply rsum_ext. intros i _. f_equal. now apply mv_ext.
Qed.

Lemma form_zero : forall d qs n w, energy d qs (field_of n (fun _ => 0)) (field_of n w) = 0.
Proof.
  intros. rewrite energy_fields. apply rsum_0. intros. unfold mv. rewrite rsum_0; intros; ring.
Qed.

(** The two boundary functions of an exact cell. *)
Lemma boundary_functions : forall c d qs rs con field sols g, dims_ok RS c ->
  exact_cell c d qs rs con field -> solver_functions RS c sols -> dirichlet_rhs c d rs g ->
  c_boundary RS c = true ->
  solves (c_len RS c) (constrain_matrix con (stiffness d qs))
    (constrain_vector con (fun i => nth i (c_neu RS c) 0)) (fun j => coef RS sols (c_n RS c) j) /\
  corrector d qs rs (c_len RS c) con (field_of (c_len RS c) g) (fun j => coef RS sols (S (c_n RS c)) j).
Proof.
  intros c d qs rs con field sols g D (E1 & E2 & E3) HS G B.
  destruct (solver_slots RS c (fresh_slots RS c) sols D) as (_ & _ & _ & H2).
  { unfold fresh_slots. apply repeat_length. }
  { intros v Hv. apply repeat_spec in Hv. subst. apply vzero_length. }
  { exact HS. }
  rewrite B in H2. destruct H2 as (H2 & H3). split.
  - specialize (E3 _ _ _ H2). intros i Li. specialize (E3 i Li). etransitivity; [exact E3|].
    unfold entries. rewrite E1 by exact Li. reflexivity.
  - specialize (E3 _ _ _ H3). intros i Li. specialize (E3 i Li). etransitivity; [exact E3|].
    unfold entries. rewrite E1 by exact Li. unfold constrain_vector, entries. destruct (con i); auto.
Qed.

Lemma no_boundary_functions : forall c sols j, dims_ok RS c -> solver_functions RS c sols ->
  c_boundary RS c = false -> coef RS sols (c_n RS c) j = 0 /\ coef RS sols (S (c_n RS c)) j = 0.
Proof.
  intros c sols j D HS B.
  destruct (solver_slots RS c (fresh_slots RS c) sols D) as (_ & _ & _ & H2).
  { unfold fresh_slots. apply repeat_length. }
  { intros v Hv. apply repeat_spec in Hv. subst. apply vzero_length. }
  { exact HS. }
  rewrite B in H2. destruct H2 as (H2 & H3). unfold coef. rewrite H2, H3. unfold vzero.
  split; apply nth_repeat.
Qed.

Section Cell.
Variables (c : cell RS) (d : nat) (qs rs : list qpoint) (con : nat -> bool) (hat : nat -> nat -> R).
Variables (sols : list (vec RS)) (u : list R) (mesh : list (list (nat * bool))).
Hypothesis D : dims_ok RS c.
Hypothesis EX : exact_cell c d qs rs con (fun m => field_of (c_len RS c) (hat m)).
Hypothesis HS : solver_functions RS c sols.

Let N := c_len RS c.
Let n := c_n RS c.
Let cf (m : nat) : R := nth m u 0.
Definition value_at (j : nat) : R := ref_value RS false mesh n u sols j + combine_fn n cf hat j.

Lemma value_split : forall j,
  value_at j - combine_fn n cf hat j = combine_fn n cf (fun m j => coef RS sols m j) j
               + (coef RS sols (S n) j - coef RS sols n j).
Proof.
  intros j. unfold value_at, ref_value. cbn [andb]. rewrite sum_n_rsum. cbn [kadd ksub kmul RS k0 K].
  unfold combine_fn, cf. fold n. cbn [K RS] in *. ring.
Qed.

Lemma inner_balance : forall w, vanishes N con w ->
  energy d qs (field_of N (combine_fn n cf (fun m j => coef RS sols m j))) (field_of N w) +
  energy d rs (field_of N (combine_fn n cf hat)) (field_of N w) = 0.
Proof.
  intros w W. rewrite !form_combine, <- rsum_plus. apply rsum_0. intros m L.
  pose proof (exact_correctors c d qs rs con _ sols D EX HS m L) as H.
  pose proof (solved_test _ _ _ _ _ _ H W) as T. rewrite rhs_test, <- energy_fields in T.
  fold N in T. rewrite T. ring.
Qed.

Lemma cell_balance : forall g w, dirichlet_rhs c d rs g -> vanishes N con w ->
  energy d qs (field_of N (fun j => value_at j - combine_fn n cf hat j)) (field_of N w) +
  energy d rs (field_of N (combine_fn n cf hat)) (field_of N w) =
  if c_boundary RS c then - energy d rs (field_of N g) (field_of N w) - flux_on c w else 0.
Proof.
  intros g w G W.
  rewrite (form_ext d qs N (fun j => value_at j - combine_fn n cf hat j) _ w (fun j _ => value_split j)).
  rewrite form_plus. pose proof (inner_balance w W) as IB.
  destruct (c_boundary RS c) eqn:B.
  - destruct (boundary_functions c d qs rs con _ sols g D EX HS G B) as (HN & HD).
    rewrite (form_minus d qs N (fun j => coef RS sols (S n) j) (fun j => coef RS sols n j) w).
    pose proof (solved_test _ _ _ _ _ _ HN W) as TN. rewrite <- energy_fields in TN.
    pose proof (solved_test _ _ _ _ _ _ HD W) as TD. rewrite rhs_test, <- energy_fields in TD.
    fold N n in TN, TD. rewrite TN, TD. unfold flux_on. fold N. cbn [K RS] in *. lra.
  - rewrite (form_ext d qs N (fun j => coef RS sols (S n) j - coef RS sols n j) (fun _ => 0)).
    + rewrite form_zero. cbn [K RS] in *. lra.
    + intros j _. destruct (no_boundary_functions c sols j D HS B) as (E1 & E2).
      fold n in E1, E2. cbn [K RS] in *. rewrite E1, E2. ring.
Qed.

(** Two solutions of the same constrained system agree. *)
Lemma solved_unique : forall b b' x y, unique N con (stiffness d qs) ->
  (forall i, (i < N)%nat -> con i = false -> b i = b' i) ->
  solves N (constrain_matrix con (stiffness d qs)) (constrain_vector con b) x ->
  solves N (constrain_matrix con (stiffness d qs)) (constrain_vector con b') y ->
  forall i, (i < N)%nat -> x i = y i.
Proof.
  intros b b' x y U E HX HY i L. enough (x i - y i = 0) by lra.
  apply (U (fun j => x j - y j)); auto. intros k Lk. destruct (con k) eqn:C.
  - rewrite (solved_vanishes _ _ _ _ _ HX k Lk C), (solved_vanishes _ _ _ _ _ HY k Lk C). ring.
  - pose proof (HX k Lk) as X. pose proof (HY k Lk) as Y. unfold constrain_vector in X, Y. rewrite C in X, Y.
    assert (R : forall z, mv N (constrain_matrix con (stiffness d qs)) z k = mv N (stiffness d qs) z k).
    { intros z. unfold mv. apply rsum_ext. intros l _. unfold constrain_matrix. now rewrite C. }
    rewrite R in X, Y. pose proof (mv_minus N (stiffness d qs) x y k) as M. unfold mv at 1 in M.
    rewrite M, X, Y, (E k Lk C). ring.
Qed.

Lemma rhs_combine : forall m a (h : nat -> nat -> R) i,
  local_rhs d rs (field_of N (combine_fn m a h)) i = rsum m (fun k => a k * local_rhs d rs (field_of N (h k)) i).
Proof.
  intros m a h i.
  assert (Q : forall x, local_rhs d rs (field_of N x) i = - mv N (stiffness d rs) x i).
  { intros x. rewrite stiffness_field. unfold local_rhs, evaluate_product.
    rewrite (lsum_ext _ rs _ (fun q => (-1) * (q_w q * dot d (mv d (q_A q) (field_of N x q)) (q_grad q i))))
      by (intros; ring). rewrite lsum_scale. ring. }
  rewrite Q. unfold combine_fn at 1. rewrite mv_sum, <- rsum_opp. apply rsum_ext. intros k _. rewrite Q. ring.
Qed.

Lemma corrector_combine : forall m a (h x : nat -> nat -> R),
  (forall k, (k < m)%nat -> corrector d qs rs N con (field_of N (h k)) (x k)) ->
  corrector d qs rs N con (field_of N (combine_fn m a h)) (combine_fn m a x).
Proof.
  intros m a h x H i L. unfold combine_fn at 1. rewrite mv_sum. unfold constrain_vector.
  rewrite rhs_combine.
  destruct (con i) eqn:C.
  - apply rsum_0. intros k Lk. rewrite (H k Lk i L). unfold constrain_vector. rewrite C. ring.
  - apply rsum_ext. intros k Lk. rewrite (H k Lk i L). unfold constrain_vector. now rewrite C.
Qed.

Lemma twice : forall g y, unique N con (stiffness d qs) ->
  dirichlet_rhs c d rs (combine_fn n g hat) -> c_boundary RS c = true ->
  corrector d qs rs N con (field_of N (combine_fn n (fun m => cf m + g m) hat)) y ->
  forall j, (j < N)%nat -> ref_value RS false mesh n u sols j + coef RS sols n j = y j.
Proof.
  intros g y U G B Y j L.
  destruct (boundary_functions c d qs rs con _ sols _ D EX HS G B) as (_ & HD). fold N n in HD.
  pose proof (corrector_combine n g hat (fun m j => coef RS sols m j)
                (fun m Lm => exact_correctors c d qs rs con _ sols D EX HS m Lm)) as HG.
  pose proof (corrector_combine n (fun m => cf m + g m) hat (fun m j => coef RS sols m j)
                (fun m Lm => exact_correctors c d qs rs con _ sols D EX HS m Lm)) as HY.
  pose proof (solved_unique _ _ _ _ U (fun i _ _ => eq_refl) HD HG j L) as E1. cbn beta in E1.
  pose proof (solved_unique _ _ _ _ U (fun i _ _ => eq_refl) Y HY j L) as E2.
  rewrite E2. unfold ref_value. cbn [andb]. rewrite sum_n_rsum. cbn [kadd ksub kmul RS k0 K].
  fold n in E1. cbn [K RS] in *. rewrite E1. unfold combine_fn, cf.
  rewrite (rsum_ext n (fun m => (nth m u 0 + g m) * coef RS sols m j)
     (fun m => nth m u 0 * coef RS sols m j + g m * coef RS sols m j)) by (intros; ring).
  rewrite rsum_plus. ring.
Qed.
End Cell.

(** What a run leaves for a cell. *)
Lemma run_value : forall debug ncells cs tr s0 reads cr cs' order p c hat,
  NoDup (map (c_key RS) cs) -> (forall c, In c cs -> dims_ok RS c) ->
  empty_store RS s0 -> interleaving RS cs tr ->
  NoDup (map (c_key RS) cs') -> incl cs' cs ->
  (forall c, In c cs -> length (cr_local RS cr (c_key RS c)) = c_n RS c) ->
  (forall c, In c cs -> length (cr_prolong RS cr (c_key RS c)) = c_len RS c) ->
  Permutation order (map (c_key RS) cs') -> (debug = true -> length cs' = ncells) ->
  msfem_apply RS debug false ncells s0 tr reads (Some cr) cs' order = Some (Proxy p) ->
  In c cs' ->
  (forall j, (j < c_len RS c)%nat -> nth j (cr_prolong RS cr (c_key RS c)) 0 =
     combine_fn (c_n RS c) (fun m => nth m (cr_local RS cr (c_key RS c)) 0) hat j) ->
  exists sols v, solver_functions RS c sols /\ assoc (c_key RS c) p = Some v /\
    forall j, (j < c_len RS c)%nat ->
      entries v j = value_at c hat sols (cr_local RS cr (c_key RS c)) (c_mesh RS c) j.
Proof.
  intros debug ncells cs tr s0 reads cr cs' order p c hat ND D E T ND' I L LP O DB H Ic P.
  assert (NE : cs' <> []) by (intros ->; destruct Ic).
  destruct (solution_values RS debug false ncells cs tr s0 reads cr cs' order ND D E T ND' I L LP NE DB O)
    as (p' & A & _ & V). rewrite A in H. injection H as <-.
  destruct (V c Ic) as (sols & v & S1 & S2 & _ & S4).
  exists sols, v. split; auto. split; auto. intros j Lj. unfold entries. cbn [k0 RS K] in S4. rewrite S4.
  unfold value_at. cbn [kadd RS k0]. rewrite P by exact Lj. reflexivity.
Qed.
