(** Theorems about constrained linear systems: C18, C40-C42. *)
From Coq Require Import Reals List Arith Bool Lra Lia QArith.
From Verif Require Import Util RSum LinModel LinSpec LinProofs.
Import ListNotations.
Open Scope R_scope.

(** * Concrete data: three nodes on a line, the outer two constrained. *)
Definition outer (i : nat) : bool := negb (Nat.eqb i 1).
Definition line : nat -> nat -> R := fun i j =>
  match i, j with
  | O, O => 1 | O, S O => -1
  | S O, O => -1 | S O, S O => 2 | S O, S (S O) => -1
  | S (S O), S O => -1 | S (S O), S (S O) => 1
  | _, _ => 0
  end.
Definition ends : nat -> R := fun i => match i with O => 1 | _ => 3 end.
Definition line_u : nat -> R := fun i => match i with O => 1 | S O => 2 | _ => 3 end.

Lemma line_unique : unique 3 outer line.
Proof.
  apply definite_unique. intros v V D i L. unfold vanishes in V.
  assert (V0 : v 0%nat = 0) by (apply V; auto). assert (V2 : v 2%nat = 0) by (apply V; auto).
  unfold dot, mv, line in D. simpl in D. rewrite V0, V2 in D.
  assert (V1 : v 1%nat = 0) by nra.
  destruct i as [|[|[|i]]]; auto; lia.
Qed.

(** ** C40: the Dirichlet lifting is exact, for both solvers. *)
Theorem C40_reference_solution_solves_the_boundary_value_problem :
  forall n constrained A b g sol sol',
  fem_apply n constrained A b g sol sol' <->
  solves_bvp n constrained A b g sol'.
Proof. exact fem_bvp. Qed.
Print Assumptions C40_reference_solution_solves_the_boundary_value_problem.

Theorem C40_coarse_solution_solves_the_boundary_value_problem :
  forall n constrained A b g sol',
  coarse_apply n constrained A b g sol' <->
  solves_bvp n constrained A b g sol'.
Proof. exact coarse_bvp. Qed.
Print Assumptions C40_coarse_solution_solves_the_boundary_value_problem.

Example C40_line : forall sol, fem_apply 3 outer line (fun _ => 0) ends sol line_u.
Proof.
  intros sol. apply fem_bvp. intros i L.
  destruct i as [|[|[|i]]]; [reflexivity| |reflexivity|lia].
  simpl. unfold line, line_u. ring.
Qed.

(** Without subtracting the operator's action on the lifting the claim fails. *)
Example C40_needs_the_shift : exists x,
  solves 3 (reduced_matrix outer line) (constrain_vector outer (fun _ => 0)) x /\
  ~ solves_bvp 3 outer line (fun _ => 0) ends
      (fun i => x i + project_dirichlet outer ends (fun _ => 0) i).
Proof.
  exists (fun _ => 0). split.
  - intros i L. unfold mv. rewrite rsum_0; [|intros; ring].
    unfold constrain_vector. now destruct (outer i).
  - intros H. specialize (H 1%nat ltac:(lia)). simpl in H.
    unfold line, project_dirichlet, outer, ends in H. simpl in H. lra.
Qed.

(** ** C41: independence of the lifting inside the domain. *)
Theorem C41_result_independent_of_start_value : forall n constrained A b g s1 s2 u1 u2,
  unique n constrained A ->
  fem_apply n constrained A b g s1 u1 -> fem_apply n constrained A b g s2 u2 ->
  forall i, (i < n)%nat -> u1 i = u2 i.
Proof.
  intros n constrained A b g s1 s2 u1 u2 U H1 H2. apply fem_bvp in H1. apply fem_bvp in H2.
  exact (unique_solution n constrained A b g u1 u2 U H1 H2).
Qed.
Print Assumptions C41_result_independent_of_start_value.

Theorem C41_repeated_solves_return_the_same_solution : forall n constrained A b g k m s u v,
  unique n constrained A ->
  fem_solves n constrained A b g (S k) s u -> fem_solves n constrained A b g (S m) s v ->
  forall i, (i < n)%nat -> u i = v i.
Proof.
  intros n constrained A b g k m s u v U H1 H2. apply fem_repeat in H1. apply fem_repeat in H2.
  exact (unique_solution n constrained A b g u v U H1 H2).
Qed.
Print Assumptions C41_repeated_solves_return_the_same_solution.

(** Symmetric or not, a matrix positive on the free unknowns is enough. *)
Theorem C41_definite_systems_are_uniquely_solvable : forall n constrained A,
  (forall v, vanishes n constrained v -> dot n (mv n A v) v <= 0 -> forall i, (i < n)%nat -> v i = 0) ->
  unique n constrained A.
Proof. exact definite_unique. Qed.
Print Assumptions C41_definite_systems_are_uniquely_solvable.

Example C41_line : unique 3 outer line /\
  forall k s, fem_solves 3 outer line (fun _ => 0) ends (S k) s line_u.
Proof.
  split; [exact line_unique|]. induction k as [|k IH]; intros s.
  - apply (fs_S _ _ _ _ _ _ s s); [constructor|apply C40_line].
  - apply (fs_S _ _ _ _ _ _ s line_u); [apply IH|apply C40_line].
Qed.

(** A system that is not uniquely solvable does depend on the start value. *)
Example C41_uniqueness_needed : exists s1 s2 u1 u2,
  fem_apply 1 (fun _ => false) (fun _ _ => 0) (fun _ => 0) (fun _ => 0) s1 u1 /\
  fem_apply 1 (fun _ => false) (fun _ _ => 0) (fun _ => 0) (fun _ => 0) s2 u2 /\ u1 O <> u2 O.
Proof.
  exists (fun _ => 0), (fun _ => 0), (fun _ => 0), (fun _ => 1). repeat split.
  - apply fem_bvp. intros i L. simpl. ring.
  - apply fem_bvp. intros i L. simpl. ring.
  - lra.
Qed.

(** ** C42: solver failures. *)
Theorem C42_coarse_outcomes : forall rhs lifting s,
  match coarse_apply_inverse true rhs lifting s with
  | Abort => ~ all_finite rhs
  | Solution x => all_finite rhs /\ exists c y, s = Returned c y /\ all_finite y /\ added y lifting x
  | InvalidState => all_finite rhs /\
      (s = LinearSolverFailed \/ exists c y, s = Returned c y /\ ~ all_finite y)
  | Escapes o => all_finite rhs /\ s = SolverOther /\ o = SolverOther
  end.
Proof.
  intros rhs lifting s. pose proof (coarse_outcome rhs lifting s _ eq_refl) as H.
  destruct (coarse_apply_inverse true rhs lifting s); auto.
  destruct H as (F & c & y & E & G & ->). split; auto. exists c, y. auto using vplus_added.
Qed.
Print Assumptions C42_coarse_outcomes.

(** Without assertions the right hand side is not looked at. *)
Theorem C42_coarse_outcomes_release : forall rhs lifting s,
  match coarse_apply_inverse false rhs lifting s with
  | Abort => False
  | Solution x => exists c y, s = Returned c y /\ all_finite y /\ added y lifting x
  | InvalidState => s = LinearSolverFailed \/ exists c y, s = Returned c y /\ ~ all_finite y
  | Escapes o => s = SolverOther /\ o = SolverOther
  end.
Proof.
  intros rhs lifting s. pose proof (C42_coarse_outcomes [] lifting s) as H.
  assert (E : coarse_apply_inverse false rhs lifting s = coarse_apply_inverse true [] lifting s) by reflexivity.
  rewrite E. destruct (coarse_apply_inverse true [] lifting s); try tauto.
  apply H. intros x [].
Qed.
Print Assumptions C42_coarse_outcomes_release.

(** A returned coarse solution is finite whenever the lifting is, in every
    build and whatever the right hand side was. *)
Theorem C42_coarse_solution_is_finite : forall debug rhs lifting s x,
  all_finite lifting -> coarse_apply_inverse debug rhs lifting s = Solution x -> all_finite x.
Proof.
  intros debug rhs lifting s x F H. unfold coarse_apply_inverse in H.
  destruct (debug && negb (valid rhs)); [discriminate|].
  destruct s as [c y| |]; try discriminate. destruct (valid y) eqn:V; [|discriminate].
  injection H as <-. apply vplus_finite; auto. now apply valid_iff.
Qed.
Print Assumptions C42_coarse_solution_is_finite.

Theorem C42_local_outcomes : forall direct rhs start s,
  match local_apply_inverse direct rhs start s with
  | Abort => False
  | Solution x => all_finite rhs /\ all_finite x /\
      exists c y, s = Returned c y /\ x = if direct then y else start
  | InvalidState => ~ all_finite rhs \/
      exists c y, s = Returned c y /\ ~ all_finite (if direct then y else start)
  | Escapes o => all_finite rhs /\ s = o /\ (o = LinearSolverFailed \/ o = SolverOther)
  end.
Proof. intros direct rhs start s. exact (local_outcome direct rhs start s _ eq_refl). Qed.
Print Assumptions C42_local_outcomes.

(** The reference solver accepts whatever the linear solver returns, finite or
    not, and passes on every exception. *)
Theorem C42_reference_outcomes : forall lifting s,
  match fem_apply_result lifting s with
  | Solution x => exists c y, s = Returned c y /\ added y lifting x
  | Escapes o => s = o /\ (o = LinearSolverFailed \/ o = SolverOther)
  | _ => False
  end.
Proof. intros lifting [c y| |]; simpl; auto. exists c, y. auto using vplus_added. Qed.
Print Assumptions C42_reference_outcomes.

(** The solver's own convergence statistics never matter. *)
Theorem C42_statistics_are_ignored : forall debug direct start rhs lifting x c c',
  local_apply_inverse direct rhs start (Returned c x) = local_apply_inverse direct rhs start (Returned c' x) /\
  coarse_apply_inverse debug rhs lifting (Returned c x) = coarse_apply_inverse debug rhs lifting (Returned c' x) /\
  fem_apply_result lifting (Returned c x) = fem_apply_result lifting (Returned c' x).
Proof. intros. repeat split; reflexivity. Qed.
Print Assumptions C42_statistics_are_ignored.

Example C42_cases :
  coarse_apply_inverse true [Some 1%Q] [Some 2%Q] (Returned true [Some 3%Q]) = Solution [Some (3 + 2)%Q] /\
  coarse_apply_inverse true [Some 1%Q] [Some 2%Q] (Returned true [None]) = InvalidState /\
  coarse_apply_inverse true [None] [Some 2%Q] (Returned true [Some 3%Q]) = Abort /\
  coarse_apply_inverse false [None] [Some 2%Q] LinearSolverFailed = InvalidState /\
  coarse_apply_inverse true [Some 1%Q] [Some 2%Q] SolverOther = Escapes SolverOther /\
  local_apply_inverse true [None] [Some 0%Q] (Returned true [Some 3%Q]) = InvalidState /\
  local_apply_inverse true [Some 1%Q] [Some 0%Q] (Returned false [Some 3%Q]) = Solution [Some 3%Q] /\
  local_apply_inverse false [Some 1%Q] [Some 0%Q] (Returned true [Some 3%Q]) = Solution [Some 0%Q] /\
  local_apply_inverse true [Some 1%Q] [Some 0%Q] LinearSolverFailed = Escapes LinearSolverFailed /\
  fem_apply_result [Some 1%Q] (Returned false [None]) = Solution [None].
Proof. repeat split. Qed.

(** ** C18: correctors. *)
(** [qs]: quadrature of the matrix, [rs]: of the right hand sides.  In the
    products the code forms, the corrector balances the coarse field. *)
Theorem C18_corrector_balances_the_field : forall d qs rs n constrained field x,
  corrector d qs rs n constrained field x <->
  vanishes n constrained x /\
  forall y, vanishes n constrained y ->
    energy d qs (field_of n x) (field_of n y) + energy d rs field (field_of n y) = 0.
Proof. exact corrector_orthogonal. Qed.
Print Assumptions C18_corrector_balances_the_field.

(** Where the two quadratures agree, this is orthogonality of the corrected
    function ... *)
Theorem C18_corrector_is_orthogonal : forall d qs rs n constrained field x,
  same_products d qs rs n constrained field ->
  corrector d qs rs n constrained field x <->
  vanishes n constrained x /\
  forall y, vanishes n constrained y -> energy d qs (plus field (field_of n x)) (field_of n y) = 0.
Proof. exact corrector_orthogonal_same. Qed.
Print Assumptions C18_corrector_is_orthogonal.

(** ... and only there: a corrected function is orthogonal exactly if the
    quadratures agree on the coarse field. *)
Theorem C18_orthogonal_iff_quadratures_agree : forall d qs rs n constrained field x,
  corrector d qs rs n constrained field x ->
  ((forall y, vanishes n constrained y -> energy d qs (plus field (field_of n x)) (field_of n y) = 0) <->
   same_products d qs rs n constrained field).
Proof.
  intros d qs rs n constrained field x H. apply corrector_orthogonal in H. destruct H as (_ & H).
  split; intros O y Y; specialize (H y Y); specialize (O y Y); rewrite energy_plus_l in *; lra.
Qed.
Print Assumptions C18_orthogonal_iff_quadratures_agree.

Theorem C18_corrected_function_has_minimal_energy : forall d qs rs n constrained field x y,
  (forall q, In q qs -> forall i j, (i < d)%nat -> (j < d)%nat -> q_A q i j = q_A q j i) ->
  (forall q, In q qs -> 0 <= q_w q /\ forall v, 0 <= dot d (mv d (q_A q) v) v) ->
  same_products d qs rs n constrained field ->
  corrector d qs rs n constrained field x -> vanishes n constrained y ->
  energy d qs (plus field (field_of n x)) (plus field (field_of n x)) <=
  energy d qs (plus field (field_of n y)) (plus field (field_of n y)).
Proof. exact corrector_minimal. Qed.
Print Assumptions C18_corrected_function_has_minimal_energy.

(** Two local cells with diffusion 1 and 3 at their centres, coarse gradient 1:
    the corrector has the value 1/4 at the inner node, the corrected flux is
    constant.  The right hand side uses two points per cell, with the same
    means of the diffusion. *)
Definition cell_grad (left : bool) : nat -> nat -> R := fun i _ =>
  match i, left with O, true => -2 | S O, true => 2 | S O, false => -2 | S (S O), false => 2 | _, _ => 0 end.
Definition two_cells : list qpoint :=
  [{| q_w := 1/2; q_A := fun _ _ => 1; q_grad := cell_grad true |};
   {| q_w := 1/2; q_A := fun _ _ => 3; q_grad := cell_grad false |}].
Definition quarter : nat -> R := fun i => match i with S O => 1/4 | _ => 0 end.

(** Two points per cell, mean diffusion [a] in the first and 3 in the second. *)
Definition four_points (a : R) : list qpoint :=
  [{| q_w := 1/4; q_A := fun _ _ => a - 1/2; q_grad := cell_grad true |};
   {| q_w := 1/4; q_A := fun _ _ => a + 1/2; q_grad := cell_grad true |};
   {| q_w := 1/4; q_A := fun _ _ => 2; q_grad := cell_grad false |};
   {| q_w := 1/4; q_A := fun _ _ => 4; q_grad := cell_grad false |}].

Example C18_two_cells :
  corrector 1 two_cells (four_points 1) 3 outer (fun _ _ => 1) quarter /\
  same_products 1 two_cells (four_points 1) 3 outer (fun _ _ => 1) /\
  (forall q, In q two_cells -> forall i j, (i < 1)%nat -> (j < 1)%nat -> q_A q i j = q_A q j i) /\
  (forall q, In q two_cells -> 0 <= q_w q /\ forall v, 0 <= dot 1 (mv 1 (q_A q) v) v) /\
  energy 1 two_cells (plus (fun _ _ => 1) (field_of 3 quarter)) (plus (fun _ _ => 1) (field_of 3 quarter)) = 3/2 /\
  energy 1 two_cells (fun _ _ => 1) (fun _ _ => 1) = 2.
Proof.
  split; [|split; [|split; [|split; [|split]]]].
  - apply corrector_eqs. split.
    + intros i L C. destruct i as [|[|i]]; [reflexivity|discriminate|reflexivity].
    + intros i L C. destruct i as [|[|[|i]]]; try discriminate.
      unfold two_cells, four_points, field_of, dot, mv, cell_grad, quarter. simpl. lra.
  - intros y Y. unfold energy, two_cells, four_points, field_of, dot, mv, cell_grad. simpl. lra.
  - intros q [<-|[<-|[]]] i j Li Lj; reflexivity.
  - intros q [<-|[<-|[]]]; split; simpl; try lra; intros v; unfold dot, mv; simpl; nra.
  - unfold energy, two_cells, plus, field_of, dot, mv, cell_grad, quarter. simpl. lra.
  - unfold energy, two_cells, dot, mv. simpl. lra.
Qed.

(** With two points per cell whose mean in the first cell is 2 instead of the
    centre value 1, the corrector is 1/8: the corrected function is neither
    orthogonal nor of least energy. *)
Example C18_two_cells_disagreeing :
  let eighth : nat -> R := fun i => match i with S O => 1/8 | _ => 0 end in
  corrector 1 two_cells (four_points 2) 3 outer (fun _ _ => 1) eighth /\
  ~ same_products 1 two_cells (four_points 2) 3 outer (fun _ _ => 1) /\
  energy 1 two_cells (plus (fun _ _ => 1) (field_of 3 eighth)) (plus (fun _ _ => 1) (field_of 3 eighth)) = 13/8.
Proof.
  split; [|split].
  - apply corrector_eqs. split.
    + intros i L C. destruct i as [|[|i]]; [reflexivity|discriminate|reflexivity].
    + intros i L C. destruct i as [|[|[|i]]]; try discriminate.
      unfold two_cells, four_points, field_of, dot, mv, cell_grad. simpl. lra.
  - intros H. specialize (H (fun i => match i with S O => 1 | _ => 0 end)).
    enough (-2 = -1) by lra.
    assert (V : vanishes 3 outer (fun i => match i with S O => 1 | _ => 0 end)).
    { intros i L C. destruct i as [|[|i]]; [reflexivity|discriminate|reflexivity]. }
    specialize (H V). unfold energy, two_cells, four_points, field_of, dot, mv, cell_grad in H. simpl in H. lra.
  - unfold energy, two_cells, plus, field_of, dot, mv, cell_grad. simpl. lra.
Qed.
