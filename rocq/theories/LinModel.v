(** Constrained linear systems: coarse operator, reference solver and local
    correctors.

    /repo/dune/multiscale/msfem/coarse_scale_operator.cc:79-91,99-138,
    /repo/dune/multiscale/msfem/fem_solver.cc:43-131,
    /repo/dune/multiscale/msfem/localproblems/localoperator.cc:113-195,
    /repo/dune/multiscale/msfem/diffusion_evaluation.hh:99-129,214-243.
    Simplified: exact real numbers, vectors and matrices are functions of their
    indices (first [n] used).  External: DirichletConstraints::apply (unit rows,
    zero entries), DirichletProjection (sets the constrained entries), the
    elliptic operator and the functionals (assembled by quadrature), the linear
    solver (a relation between system and result). *)
From Coq Require Import Reals List Arith Bool QArith.
From Verif Require Import Util RSum.
Import ListNotations.
Open Scope R_scope.

Section Lin.
Variable n : nat.                   (* number of unknowns *)
Variable constrained : nat -> bool. (* Dirichlet degrees of freedom *)

(** DirichletConstraints::apply(matrix), coarse_scale_operator.cc:83-91,
    fem_solver.cc:96-101, external: unit rows. *)
Definition constrain_matrix (A : nat -> nat -> R) : nat -> nat -> R :=
  fun i j => if constrained i then (if Nat.eqb i j then 1 else 0) else A i j.
(** DirichletConstraints::apply(vector), same lines (fem_solver.cc:96-101),
    external: zero entries. *)
Definition constrain_vector (b : nat -> R) : nat -> R :=
  fun i => if constrained i then 0 else b i.

(** coarse_scale_operator.cc:79-91, fem_solver.cc:92-101: subtract the
    operator's action on the lifting, then constrain. *)
Definition reduced_matrix (A : nat -> nat -> R) : nat -> nat -> R := constrain_matrix A.
(** coarse_scale_operator.cc:79-91, fem_solver.cc:92-101. *)
Definition reduced_rhs (A : nat -> nat -> R) (b p : nat -> R) : nat -> R :=
  constrain_vector (fun i => b i - mv n A p i).

(** The linear solver solved the system it was given (line 123 / 124). *)
Definition solves (A : nat -> nat -> R) (r x : nat -> R) : Prop :=
  forall i, (i < n)%nat -> mv n A x i = r i.

(** DirichletProjection into a function, fem_solver.cc:76-80 and
    coarse_scale_operator.cc:65-68: sets the constrained entries only. *)
Definition project_dirichlet (g start : nat -> R) : nat -> R :=
  fun i => if constrained i then g i else start i.

(** fem_solver.cc:49-131: the lifting starts as a copy of the current content
    of [solution] (line 76); [sol'] is a possible content afterwards. *)
Definition fem_apply (A : nat -> nat -> R) (b g sol sol' : nat -> R) : Prop :=
  let p := project_dirichlet g sol in
  exists x, solves (reduced_matrix A) (reduced_rhs A b p) x /\
            forall i, (i < n)%nat -> sol' i = x i + p i.           (* 128 *)

(** Repeated calls of solve (lines 43-47) on one solver object. *)
Inductive fem_solves (A : nat -> nat -> R) (b g : nat -> R) : nat -> (nat -> R) -> (nat -> R) -> Prop :=
| fs_0 : forall s, fem_solves A b g 0 s s
| fs_S : forall k s s' s'', fem_solves A b g k s s' -> fem_apply A b g s' s'' ->
                            fem_solves A b g (S k) s s''.

(** CoarseScaleOperator: the lifting is a new function, zero inside
    (coarse_scale_operator.cc:47). *)
Definition coarse_apply (A : nat -> nat -> R) (b g sol' : nat -> R) : Prop :=
  let p := project_dirichlet g (fun _ => 0) in
  exists x, solves (reduced_matrix A) (reduced_rhs A b p) x /\
            forall i, (i < n)%nat -> sol' i = x i + p i.           (* 133 *)
End Lin.

(** ** Local problems. *)
Section Local.
Variable d : nat.
(** All quadrature points of the local grid: weight times integration
    element, diffusion matrix, gradients of the local basis functions
    (localoperator.cc:101-110, diffusion_evaluation.hh:99-129). *)
Record qpoint := { q_w : R; q_A : nat -> nat -> R; q_grad : nat -> nat -> R }.
(** [qs]: points of the matrix (order chosen by the external EllipticCG,
    localoperator.cc:101); [rs]: points of the right hand sides (order of the
    diffusion plus order of the test function, diffusion_evaluation.hh:65-85,
    180-200). *)
Variables qs rs : list qpoint.
Variable n : nat.
Variable constrained : nat -> bool.

(** Elliptic operator (external, localoperator.cc:101,110). *)
Definition stiffness : nat -> nat -> R := fun i j =>
  lsum qs (fun q => q_w q * dot d (mv d (q_A q) (q_grad q j)) (q_grad q i)).

(** CoarseBasisProduct::evaluate, diffusion_evaluation.hh:99-129, and
    DirichletProduct::evaluate, 214-243: minus flux of the given gradient
    field times test gradient; integrated by an external functional. *)
Definition evaluate_product (field : nat -> R) (q : qpoint) (ii : nat) : R :=
  -1 * dot d (mv d (q_A q) field) (q_grad q ii).
(** The functional over the local grid, localoperator.cc:113-168 (integration
    external). *)
Definition local_rhs (field : qpoint -> nat -> R) : nat -> R := fun ii =>
  lsum rs (fun q => q_w q * evaluate_product (field q) q ii).

(** Constraints for one of the right hand sides, localoperator.cc:156-163, and
    apply_inverse (171-195) with an exact solver. *)
Definition local_problem (b x : nat -> R) : Prop :=
  solves n (constrain_matrix constrained stiffness) (constrain_vector constrained b) x.
(** assemble_all_local_rhs, localoperator.cc:154-163, and apply_inverse with
    an exact solver. *)
Definition corrector (field : qpoint -> nat -> R) (x : nat -> R) : Prop := local_problem (local_rhs field) x.
End Local.

(** ** Failure handling. *)
(** A number is finite ([Some]) or not; XT::Common::valid,
    coarse_scale_operator.cc:107,130, localoperator.cc:174,193. *)
Definition num : Type := option Q.
(** XT::Common::valid: coarse_scale_operator.cc:107,130, localoperator.cc:174,193. *)
Definition valid (v : list num) : bool := forallb (fun x => match x with Some _ => true | None => false end) v.
(** Addition of two entries, coarse_scale_operator.cc:133, fem_solver.cc:128. *)
Definition num_add (a b : num) : num :=
  match a, b with Some x, Some y => Some (x + y)%Q | _, _ => None end.
(** operator+= of vectors, coarse_scale_operator.cc:133, fem_solver.cc:128. *)
Definition vplus (a b : list num) : list num := map (fun p => num_add (fst p) (snd p)) (combine a b).

(** What the linear solver did: coarse_scale_operator.cc:121-128,
    fem_solver.cc:124, localoperator.cc:184. *)
Inductive solver : Type :=
| Returned (converged : bool) (x : list num) (* with the solver's own statistics *)
| LinearSolverFailed                 (* Stuff::Exceptions::linear_solver_failed *)
| SolverOther.                       (* any other exception *)

(** Ends of apply_inverse: coarse_scale_operator.cc:99-138, localoperator.cc:171-195. *)
Inductive sresult : Type :=
| Solution (x : list num)
| InvalidState                       (* Dune::InvalidStateException *)
| Escapes (o : solver)               (* the solver's exception passes through *)
| Abort.                             (* failed assertion, debug builds *)

(** CoarseScaleOperator::apply_inverse, coarse_scale_operator.cc:99-138. *)
Definition coarse_apply_inverse (debug : bool) (rhs lifting : list num) (s : solver) : sresult :=
  if debug && negb (valid rhs) then Abort                          (* 107 *)
  else match s with
       | LinearSolverFailed => InvalidState                        (* 124-128 *)
       | SolverOther => Escapes SolverOther
       | Returned _ x => if negb (valid x) then InvalidState         (* 130-131 *)
                       else Solution (vplus x lifting)             (* 133 *)
       end.

(** LocalProblemOperator::apply_inverse, localoperator.cc:171-195.  [direct]:
    use_umfpack_ (lines 103-107, 187); [start]: content of current_solution
    before.  The direct solver writes into current_solution and its statistics
    (line 184) are never read; the other solvers get current_solution as right
    hand side and write into writable_rhs (line 191, the arguments are right
    hand side, solution: fem_solver.cc:124, coarse_scale_operator.cc:123), so
    current_solution stays as it was. *)
Definition local_apply_inverse (direct : bool) (rhs start : list num) (s : solver) : sresult :=
  if negb (valid rhs) then InvalidState                            (* 174-175 *)
  else match s with
       | Returned _ x =>
           let after := if direct then x else start in             (* 188, 191 *)
           if negb (valid after) then InvalidState                 (* 193-194 *)
           else Solution after
       | o => Escapes o
       end.

(** Elliptic_FEM_Solver::apply, fem_solver.cc:124-128: no check. *)
Definition fem_apply_result (lifting : list num) (s : solver) : sresult :=
  match s with Returned _ x => Solution (vplus x lifting) | o => Escapes o end.
