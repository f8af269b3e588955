(** Proofs for C18, C40-C42. *)
From Coq Require Import Reals List Arith Bool Lra Lia.
From Verif Require Import Util RSum LinModel LinSpec.
Import ListNotations.
Open Scope R_scope.

Section L.
Variable n : nat.
Variable constrained : nat -> bool.

Lemma reduced_eqs : forall A b p x,
  solves n (reduced_matrix constrained A) (reduced_rhs n constrained A b p) x <->
  forall i, (i < n)%nat ->
    if constrained i then x i = 0 else mv n A x i = b i - mv n A p i.
Proof.
  intros A b p x. unfold solves. split; intros H i L; specialize (H i L);
    unfold reduced_matrix, reduced_rhs, constrain_matrix, constrain_vector, mv in *;
    destruct (constrained i); auto.
  - rewrite <- H. symmetry. rewrite (rsum_single n i); auto.
    + rewrite Nat.eqb_refl. ring.
    + intros j Lj N. destruct (Nat.eqb_spec i j); [congruence|ring].
  - rewrite (rsum_single n i); auto.
    + rewrite Nat.eqb_refl, H. ring.
    + intros j Lj N. destruct (Nat.eqb_spec i j); [congruence|ring].
Qed.

Lemma lifting_exact : forall A b g start x u,
  let p := project_dirichlet constrained g start in
  (forall i, (i < n)%nat -> u i = x i + p i) ->
  (solves n (reduced_matrix constrained A) (reduced_rhs n constrained A b p) x <->
   solves_bvp n constrained A b g u).
Proof.
  intros A b g start x u p U. rewrite reduced_eqs. unfold solves_bvp.
  assert (G : forall i, constrained i = true -> p i = g i).
  { intros i C. unfold p, project_dirichlet. now rewrite C. }
  clearbody p.
  assert (M : forall i, rsum n (fun j => A i j * u j) = mv n A x i + mv n A p i).
  { intros i. rewrite <- mv_plus. apply rsum_ext. intros j Lj. rewrite U; auto. }
  split; intros H i L; specialize (H i L); specialize (U i L); specialize (G i);
    rewrite ?M in *; destruct (constrained i); try rewrite (G eq_refl) in U; lra.
Qed.

Lemma unique_solution : forall A b g u v,
  unique n constrained A -> solves_bvp n constrained A b g u -> solves_bvp n constrained A b g v ->
  forall i, (i < n)%nat -> u i = v i.
Proof.
  intros A b g u v Un U V.
  assert (H : solves_bvp n constrained A (fun _ => 0) (fun _ => 0) (fun i => u i - v i)).
  { intros i L. specialize (U i L). specialize (V i L). destruct (constrained i); [lra|].
    rewrite (rsum_ext n _ (fun j => A i j * u j - A i j * v j)) by (intros; ring).
    rewrite rsum_minus. lra. }
  intros i L. specialize (Un _ H i L). simpl in Un. lra.
Qed.

Lemma definite_unique : forall A,
  (forall v, vanishes n constrained v -> dot n (mv n A v) v <= 0 -> forall i, (i < n)%nat -> v i = 0) ->
  unique n constrained A.
Proof.
  intros A D u U. apply D.
  - intros i L C. specialize (U i L). rewrite C in U. exact U.
  - right. apply rsum_0. intros i L. specialize (U i L). destruct (constrained i).
    + rewrite U. ring.
    + unfold mv. rewrite U. ring.
Qed.

Lemma fem_bvp : forall A b g sol sol',
  fem_apply n constrained A b g sol sol' <-> solves_bvp n constrained A b g sol'.
Proof.
  intros A b g sol sol'. unfold fem_apply. split.
  - intros (x & S & U). apply (lifting_exact A b g sol x sol' U). exact S.
  - intros S. set (p := project_dirichlet constrained g sol).
    exists (fun i => sol' i - p i).
    assert (U : forall i, (i < n)%nat -> sol' i = (sol' i - p i) + p i) by (intros; ring).
    split; [apply (lifting_exact A b g sol _ sol' U); exact S|exact U].
Qed.

Lemma coarse_bvp : forall A b g sol',
  coarse_apply n constrained A b g sol' <-> solves_bvp n constrained A b g sol'.
Proof. intros A b g sol'. apply (fem_bvp A b g (fun _ => 0) sol'). Qed.
End L.

Section C.
Variable d : nat.
Variable qs : list qpoint.
Variable n : nat.
Variable constrained : nat -> bool.

Notation en := (energy d qs).

Lemma energy_plus_l : forall u v w, en (plus u v) w = en u w + en v w.
Proof.
  intros u v w. unfold energy, plus. rewrite <- lsum_plus. apply lsum_ext. intros q _.
  rewrite (dot_ext d _ (fun k => mv d (q_A q) (u q) k + mv d (q_A q) (v q) k) (w q) (w q));
    [|intros; apply mv_plus|auto].
  unfold dot. rewrite (rsum_ext d _ (fun i => mv d (q_A q) (u q) i * w q i + mv d (q_A q) (v q) i * w q i))
    by (intros; ring).
  rewrite rsum_plus. ring.
Qed.

Lemma energy_field_r : forall u y, en u (field_of n y) =
  rsum n (fun i => y i * lsum qs (fun q => q_w q * dot d (mv d (q_A q) (u q)) (q_grad q i))).
Proof.
  intros u y. unfold energy, field_of.
  rewrite (rsum_ext n _ (fun i => lsum qs (fun q => y i * (q_w q * dot d (mv d (q_A q) (u q)) (q_grad q i)))))
    by (intros; symmetry; apply lsum_scale).
  rewrite <- lsum_rsum. apply lsum_ext. intros q _. rewrite dot_sum_r, <- rsum_scale.
  apply rsum_ext. intros. ring.
Qed.

Lemma stiffness_field : forall x i,
  mv n (stiffness d qs) x i =
  lsum qs (fun q => q_w q * dot d (mv d (q_A q) (field_of n x q)) (q_grad q i)).
Proof.
  intros x i. unfold mv at 1. unfold stiffness.
  rewrite (rsum_ext n _ (fun j => lsum qs (fun q => q_w q * (x j * dot d (mv d (q_A q) (q_grad q j)) (q_grad q i))))).
  - rewrite <- lsum_rsum. apply lsum_ext. intros q _. rewrite rsum_scale. f_equal.
    rewrite <- (dot_sum_l d n x (fun j => mv d (q_A q) (q_grad q j))).
    apply dot_ext; auto. intros k Lk. symmetry. apply mv_sum.
  - intros j Lj. rewrite Rmult_comm, <- lsum_scale. apply lsum_ext. intros. ring.
Qed.

Lemma corrector_eqs : forall rs field x,
  corrector d qs rs n constrained field x <->
  vanishes n constrained x /\
  forall i, (i < n)%nat -> constrained i = false ->
    lsum qs (fun q => q_w q * dot d (mv d (q_A q) (field_of n x q)) (q_grad q i)) +
    lsum rs (fun q => q_w q * dot d (mv d (q_A q) (field q)) (q_grad q i)) = 0.
Proof.
  intros rs field x. unfold corrector, local_problem.
  assert (K : forall i,
    lsum qs (fun q => q_w q * dot d (mv d (q_A q) (field_of n x q)) (q_grad q i)) +
    lsum rs (fun q => q_w q * dot d (mv d (q_A q) (field q)) (q_grad q i)) =
    mv n (stiffness d qs) x i - local_rhs d rs field i).
  { intros i. rewrite stiffness_field. unfold local_rhs, evaluate_product.
    rewrite (lsum_ext _ rs (fun q => q_w q * (-1 * dot d (mv d (q_A q) (field q)) (q_grad q i)))
      (fun q => (-1) * (q_w q * dot d (mv d (q_A q) (field q)) (q_grad q i)))) by (intros; ring).
    rewrite lsum_scale. ring. }
  assert (Z : forall i, mv n (stiffness d qs) (fun _ => 0) i = 0).
  { intros i. unfold mv. apply rsum_0. intros. ring. }
  pose proof (reduced_eqs n constrained (stiffness d qs) (local_rhs d rs field) (fun _ => 0) x) as R.
  assert (E : solves n (constrain_matrix constrained (stiffness d qs))
                (constrain_vector constrained (local_rhs d rs field)) x <->
              solves n (reduced_matrix constrained (stiffness d qs))
                (reduced_rhs n constrained (stiffness d qs) (local_rhs d rs field) (fun _ => 0)) x).
  { unfold solves, reduced_matrix, reduced_rhs, constrain_vector.
    split; intros H i L; rewrite (H i L); destruct (constrained i); auto; rewrite Z; ring. }
  rewrite E, R. split.
  - intros H. split.
    + intros i L C. specialize (H i L). rewrite C in H. auto.
    + intros i L C. specialize (H i L). rewrite C in H. rewrite K, H, Z. ring.
  - intros (V & O) i L. destruct (constrained i) eqn:C; [auto|].
    specialize (O i L C). rewrite K in O. rewrite Z. lra.
Qed.
End C.

Section C2.
Variable d : nat.
Variables qs rs : list qpoint.
Variable n : nat.
Variable constrained : nat -> bool.

Notation en := (energy d qs).

Lemma corrector_orthogonal : forall field x,
  corrector d qs rs n constrained field x <->
  vanishes n constrained x /\
  forall y, vanishes n constrained y ->
    en (field_of n x) (field_of n y) + energy d rs field (field_of n y) = 0.
Proof.
  intros field x. rewrite corrector_eqs. split; intros (V & O); split; auto.
  - intros y Y. rewrite !energy_field_r, <- rsum_plus. apply rsum_0. intros i L.
    destruct (constrained i) eqn:C; [rewrite (Y i L C); ring|]. rewrite <- Rmult_plus_distr_l, (O i L C). ring.
  - intros i L C.
    specialize (O (fun j => if Nat.eqb j i then 1 else 0)). rewrite !energy_field_r in O.
    rewrite !(rsum_single n i) in O; auto.
    + rewrite Nat.eqb_refl in O. rewrite <- O; [ring|].
      intros j Lj Cj. destruct (Nat.eqb_spec j i) as [->|]; [congruence|auto].
    + intros j Lj N. destruct (Nat.eqb_spec j i); [congruence|ring].
    + intros j Lj N. destruct (Nat.eqb_spec j i); [congruence|ring].
Qed.

Lemma corrector_orthogonal_same : forall field x, same_products d qs rs n constrained field ->
  corrector d qs rs n constrained field x <->
  vanishes n constrained x /\
  forall y, vanishes n constrained y -> en (plus field (field_of n x)) (field_of n y) = 0.
Proof.
  intros field x S. rewrite corrector_orthogonal. split; intros (V & O); split; auto; intros y Y;
  specialize (O y Y); specialize (S y Y); rewrite energy_plus_l in *; lra.
Qed.

Lemma energy_sym_f : forall u v,
  (forall q, In q qs -> forall i j, (i < d)%nat -> (j < d)%nat -> q_A q i j = q_A q j i) ->
  en u v = en v u.
Proof.
  intros u v S. unfold energy. apply lsum_ext. intros q I. f_equal. apply dot_mv_sym. apply S; auto.
Qed.

Lemma energy_pos_f : forall u,
  (forall q, In q qs -> 0 <= q_w q /\ forall v, 0 <= dot d (mv d (q_A q) v) v) -> 0 <= en u u.
Proof.
  intros u H. apply lsum_nonneg. intros q I. destruct (H q I). apply Rmult_le_pos; auto.
Qed.

Lemma corrector_minimal : forall field x y,
  (forall q, In q qs -> forall i j, (i < d)%nat -> (j < d)%nat -> q_A q i j = q_A q j i) ->
  (forall q, In q qs -> 0 <= q_w q /\ forall v, 0 <= dot d (mv d (q_A q) v) v) ->
  same_products d qs rs n constrained field ->
  corrector d qs rs n constrained field x -> vanishes n constrained y ->
  en (plus field (field_of n x)) (plus field (field_of n x)) <=
  en (plus field (field_of n y)) (plus field (field_of n y)).
Proof.
  intros field x y S Pd SP H Y. apply corrector_orthogonal_same in H; [|exact SP]. destruct H as (X & O).
  set (u := plus field (field_of n x)) in *.
  set (w := field_of n (fun i => y i - x i)).
  assert (E : forall v, en (plus field (field_of n y)) v = en (plus u w) v).
  { intros v. unfold energy. apply lsum_ext. intros q _. f_equal. apply dot_ext; auto.
    intros k Lk. apply mv_ext. intros m Lm. unfold plus, u, w, field_of, plus.
    rewrite (rsum_ext n (fun j => (y j - x j) * q_grad q j m) (fun j => y j * q_grad q j m - x j * q_grad q j m))
      by (intros; ring).
    rewrite rsum_minus. ring. }
  rewrite E, (energy_sym_f (plus u w) _ S), E. rewrite !energy_plus_l.
  rewrite (energy_sym_f u (plus u w) S), (energy_sym_f w (plus u w) S), !energy_plus_l.
  rewrite (energy_sym_f w u S).
  assert (Z : en u w = 0).
  { apply O. intros i L C. rewrite (X i L C), (Y i L C). ring. }
  rewrite Z. pose proof (energy_pos_f w Pd). lra.
Qed.
End C2.

Lemma valid_iff : forall v, valid v = true <-> all_finite v.
Proof.
  intros v. unfold valid, all_finite. rewrite forallb_forall. split; intros H x I; specialize (H x I).
  - destruct x; [eauto|discriminate].
  - destruct H as (q & ->). reflexivity.
Qed.

Lemma fem_repeat : forall n constrained A b g k s s',
  fem_solves n constrained A b g (S k) s s' -> solves_bvp n constrained A b g s'.
Proof. intros n constrained A b g k s s' H. inversion H; subst. eapply fem_bvp; eauto. Qed.

Lemma vplus_finite : forall a b, all_finite a -> all_finite b -> all_finite (vplus a b).
Proof.
  intros a b A B x I. unfold vplus in I. apply in_map_iff in I. destruct I as ((u & v) & <- & I).
  simpl. destruct (A u (in_combine_l _ _ _ _ I)) as (p & ->).
  destruct (B v (in_combine_r _ _ _ _ I)) as (q & ->). simpl. eauto.
Qed.

Lemma valid_false : forall v, valid v = false <-> ~ all_finite v.
Proof. intros v. rewrite <- valid_iff. destruct (valid v); split; congruence. Qed.

Lemma coarse_outcome : forall rhs lifting s r,
  coarse_apply_inverse true rhs lifting s = r -> 
  match r with
  | Abort => ~ all_finite rhs
  | Solution x => all_finite rhs /\ exists c y, s = Returned c y /\ all_finite y /\ x = vplus y lifting
  | InvalidState => all_finite rhs /\
      (s = LinearSolverFailed \/ exists c y, s = Returned c y /\ ~ all_finite y)
  | Escapes o => all_finite rhs /\ s = SolverOther /\ o = SolverOther
  end.
Proof.
  intros rhs lifting s r <-. unfold coarse_apply_inverse.
  destruct (valid rhs) eqn:V; cbn [andb negb].
  - apply valid_iff in V. destruct s as [c y| |]; auto.
    destruct (valid y) eqn:W; cbn [negb].
    + apply valid_iff in W. split; auto. exists c, y. auto.
    + apply valid_false in W. split; auto. right. exists c, y. auto.
  - apply valid_false in V. exact V.
Qed.

Lemma local_outcome : forall direct rhs start s r,
  local_apply_inverse direct rhs start s = r ->
  match r with
  | Abort => False
  | Solution x => all_finite rhs /\ all_finite x /\
      exists c y, s = Returned c y /\ x = if direct then y else start
  | InvalidState => ~ all_finite rhs \/
      exists c y, s = Returned c y /\ ~ all_finite (if direct then y else start)
  | Escapes o => all_finite rhs /\ s = o /\ (o = LinearSolverFailed \/ o = SolverOther)
  end.
Proof.
  intros direct rhs start s r <-. unfold local_apply_inverse.
  destruct (valid rhs) eqn:V; cbn [negb].
  - apply valid_iff in V. destruct s as [c y| |]; auto. cbv zeta.
    destruct (valid (if direct then y else start)) eqn:W; cbn [negb].
    + apply valid_iff in W. eauto 6.
    + apply valid_false in W. right. eauto.
  - apply valid_false in V. auto.
Qed.

Lemma vplus_added : forall a b, added a b (vplus a b).
Proof.
  unfold added, vplus. intros a b. rewrite map_length, combine_length. split; [reflexivity|].
  revert b. induction a as [|x a IH]; intros [|y b] [|i] p r A B; try discriminate; simpl in A, B.
  - injection A as <-. injection B as <-. exists (num_add x y). split; [reflexivity|].
    destruct x as [u|], y as [v|]; simpl; auto. eexists. split; reflexivity.
  - exact (IH b i p r A B).
Qed.
