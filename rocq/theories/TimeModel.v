(** Timed sections of the two programs: which sections the profile of a run
    contains, with exceptions at every external call.

    /repo/src/msfem.cc:17-51, /repo/src/cgfem.cc:16-40,
    /repo/dune/multiscale/msfem/algorithm.cc:47-79, msfem/msfem_solver.cc:43-119,
    121-145, msfem/coarse_scale_operator.cc:36-92, 99-138, msfem/fem_solver.cc:49-131,
    msfem/localproblems/localproblemsolver.cc:116-162, localgridlist.cc:27-75,
    msfem/localsolution_proxy.cc:33-50, common/error_calc.cc:86-114, 138-335,
    fem/algorithm.cc:25-44, problems/random.cc:57-88, common/main_init.cc:23-88.

    Simplified: one process; what is not timed is one external call per stretch
    of code, which returns or throws; sections are only started and stopped by
    the main thread (the calls inside the threads of the local problems are
    commented out, localproblemsolver.cc:139-148). *)
From Coq Require Import List String Bool Arith.
Import ListNotations.
Open Scope string_scope.
Open Scope list_scope.

(** Sections are named by strings, e.g. src/msfem.cc:27. *)
Definition section := string.

(** Reference solves: on the fine grid (fem/algorithm.cc:32-33,
    error_calc.cc:106-108) and on the coarse grid (error_calc.cc:162-164). *)
Inductive grid : Type := Fine | Coarse.
(** Stretches of Elliptic_FEM_Solver::apply: fem_solver.cc:55-80, 82-88, 92-101,
    106-124, 128. *)
Inductive step : Type := Prepare | Assemble | Constrain | SolveSystem | Shift.

(** Stretches of code that may throw. *)
Inductive call : Type :=
| Init                (* src/msfem.cc:21-24, src/cgfem.cc:20-23 *)
| Directories         (* src/msfem.cc:29-34 *)
| MakeProblem         (* selector.cc:105-118, random.cc:61-71 *)
| FieldInit           (* random.cc:73 *)
| FieldCreate         (* random.cc:83-84 *)
| CoarseGrid          (* msfem/algorithm.cc:55 *)
| CoarseSpace         (* msfem/algorithm.cc:62-64 *)
| LocalGrids          (* localgridlist.cc:32-74 *)
| Vectors             (* msfem_solver.cc:127-130 *)
| LocalSolves         (* localproblemsolver.cc:125-152 *)
| CoarseAssemble      (* coarse_scale_operator.cc:53-91 *)
| Barrier             (* coarse_scale_operator.cc:102 *)
| CoarseSolve         (* coarse_scale_operator.cc:109-133 *)
| Identify            (* msfem_solver.cc:50-118 *)
| AddCoarse           (* localsolution_proxy.cc:36-49 *)
| Picture             (* msfem/algorithm.cc:71-73, fem/algorithm.cc:36-39 *)
| MakeFem (g : grid)  (* fem_solver.cc:30-42 *)
| Fem (g : grid) (s : step)
| Grids               (* error_calc.cc:142-161 *)
| Prolong             (* error_calc.cc:165-169 *)
| Compare             (* error_calc.cc:175-334 *)
| Gather              (* src/msfem.cc:40-41, src/cgfem.cc:30 *)
| Report.             (* src/msfem.cc:43-44, src/cgfem.cc:32-33 *)

(** What can be thrown: the catch clauses distinguish Dune::Exception
    (error_calc.cc:109, 170, src/msfem.cc:45), std::exception (47) and others. *)
Inductive exn : Type := DuneExc | StdExc | OtherExc.

(** Visible effects: calls of the timing singleton and external calls with their
    outcome.  [Write] is output_per_rank (src/msfem.cc:42, main_init.cc:26, 69,
    77), [StopAll] is stop() without a name (main_init.cc:25), [Ask] is walltime
    (coarse_scale_operator.cc:104, 136). *)
Inductive event : Type :=
| Start (s : section) | Stop (s : section) | StopAll | Ask (s : section) | Write
| Called (c : call) (r : option exn).

(** Statements of the functions modelled here (msfem/algorithm.cc:47-79 and the
    others listed above).  [Scoped] is the rest of a block after the declaration
    of a ScopedTiming, e.g. algorithm.cc:51; [Try] catches Dune::Exception and
    goes on behind the handler, error_calc.cc:107-112, 163-173. *)
Inductive prog : Type :=
| Skip
| Emit (e : event)
| Call (c : call)
| Seq (p q : prog)
| Scoped (s : section) (p : prog)
| Try (p : prog).

(** A list of statements, e.g. msfem/algorithm.cc:51-77. *)
Fixpoint block (ps : list prog) : prog :=
  match ps with [] => Skip | p :: r => Seq p (block r) end.

(** Execution: effects in their order, number of external calls so far, and the
    exception that leaves the statement.  [answer] tells how the n-th external
    call of the run ends.  The destructor of a ScopedTiming stops its section
    however the block is left (e.g. algorithm.cc:51). *)
Fixpoint exec (answer : nat -> option exn) (p : prog) (n : nat)
  : list event * nat * option exn :=
  match p with
  | Skip => ([], n, None)
  | Emit e => ([e], n, None)
  | Call c => ([Called c (answer n)], S n, answer n)
  | Seq p q =>
    match exec answer p n with
    | (t, m, None) => let '(t', m', r) := exec answer q m in (t ++ t', m', r)
    | (t, m, Some e) => (t, m, Some e)
    end
  | Scoped s p => let '(t, m, r) := exec answer p n in (Start s :: t ++ [Stop s], m, r)
  | Try p =>
    let '(t, m, r) := exec answer p n in
    (t, m, match r with Some DuneExc => None | _ => r end)
  end.

(** Settings of a run: problem.name is Random (selector.cc:109), global.vtk_output
    (msfem/algorithm.cc:69), msfem.skip_error (76), msfem.fem_comparison
    (error_calc.cc:105). *)
Record settings := { random : bool; vtk : bool; skip_error : bool; comparison : bool }.

(** One part only under a setting, e.g. msfem/algorithm.cc:69. *)
Definition only (b : bool) (p : prog) : prog := if b then p else Skip.

(** ProblemContainer::ProblemContainer with problem_init, selector.cc:105-118,
    random.cc:45-50, 57-77. *)
Definition make_problem (st : settings) : prog :=
  Seq (Call MakeProblem) (only (random st) (Scoped "msfem.perm_field.init" (Call FieldInit))).
(** prepare_new_evaluation, random.cc:52-55, 79-88, and base.hh:254 for the other
    problems. *)
Definition new_evaluation (st : settings) : prog :=
  only (random st) (Scoped "msfem.perm_field.create" (Call FieldCreate)).

(** Elliptic_FEM_Solver::apply, fem_solver.cc:49-131. *)
Definition fem_apply (g : grid) : prog :=
  block [Emit (Start "fem.apply"); Call (Fem g Prepare);
         Emit (Start "fem.assemble"); Call (Fem g Assemble); Emit (Stop "fem.assemble");
         Emit (Start "fem.constraints"); Call (Fem g Constrain); Emit (Stop "fem.constraints");
         Emit (Start "fem.solve"); Call (Fem g SolveSystem); Emit (Stop "fem.solve");
         Call (Fem g Shift);
         Emit (Stop "fem.apply")].

(** ErrorCalculator::print, error_calc.cc:138-335. *)
Definition print : prog :=
  block [Call Grids; Call (MakeFem Coarse); Try (Seq (fem_apply Coarse) (Call Prolong)); Call Compare].

(** msfem/algorithm.cc:77 with error_calc.cc:97-114: the temporary object lives
    until print has returned. *)
Definition msfem_errors (st : settings) : prog :=
  Scoped "error.msfem"
    (Seq (only (comparison st) (Seq (Call (MakeFem Fine)) (Try (fem_apply Fine)))) print).
(** fem/algorithm.cc:42 with error_calc.cc:86-95. *)
Definition cgfem_errors : prog := Scoped "error.fem+msfem" print.

(** solve_for_all_cells, localproblemsolver.cc:116-162. *)
Definition solve_for_all_cells : prog :=
  block [Emit (Start "msfem.local.solve_for_all_cells"); Call LocalSolves;
         Emit (Stop "msfem.local.solve_for_all_cells")].
(** CoarseScaleOperator::CoarseScaleOperator, coarse_scale_operator.cc:36-92. *)
Definition coarse_operator : prog := Scoped "msfem.coarse.assemble" (Call CoarseAssemble).
(** CoarseScaleOperator::apply_inverse, coarse_scale_operator.cc:99-138. *)
Definition coarse_apply_inverse : prog :=
  block [Call Barrier; Emit (Ask "msfem.coarse.assemble");
         Scoped "msfem.coarse.solve"
           (block [Emit (Start "msfem.coarse.linearSolver"); Call CoarseSolve;
                   Emit (Stop "msfem.coarse.linearSolver"); Emit (Ask "msfem.coarse.linearSolver")])].
(** Elliptic_MsFEM_Solver::apply, msfem_solver.cc:121-145, with
    identify_fine_scale_part (43-119) and LocalsolutionProxy::add
    (localsolution_proxy.cc:33-50). *)
Definition msfem_apply : prog :=
  Scoped "msfem.Elliptic_MsFEM_Solver.apply"
    (block [Call Vectors; solve_for_all_cells; coarse_operator; coarse_apply_inverse;
            Scoped "msfem.idFine" (Call Identify); Scoped "proxy.add" (Call AddCoarse)]).

(** msfem_algorithm, msfem/algorithm.cc:47-79. *)
Definition msfem_algorithm (st : settings) : prog :=
  Scoped "msfem.algorithm"
    (block [Emit (Start "msfem.setup.grid"); make_problem st; Call CoarseGrid; Emit (Stop "msfem.setup.grid");
            Emit (Start "msfem.setup.problem"); new_evaluation st; Emit (Stop "msfem.setup.problem");
            Call CoarseSpace; Scoped "msfem.local_grids" (Call LocalGrids); msfem_apply;
            only (vtk st) (Scoped "msfem.vtk_output" (Call Picture));
            only (negb (skip_error st)) (msfem_errors st)]).
(** cgfem_algorithm, fem/algorithm.cc:25-44. *)
Definition cgfem_algorithm (st : settings) : prog :=
  block [make_problem st; new_evaluation st; Call (MakeFem Fine); fem_apply Fine;
         only (vtk st) (Call Picture); only (negb (skip_error st)) cgfem_errors].

(** The try block of src/msfem.cc:21-44. *)
Definition msfem_body (st : settings) : prog :=
  block [Call Init; Emit (Start "msfem.all"); Call Directories; msfem_algorithm st;
         Emit (Stop "msfem.all"); Call Gather; Emit Write; Call Report].
(** The try block of src/cgfem.cc:20-33. *)
Definition cgfem_body (st : settings) : prog :=
  block [Call Init; Emit (Start "total_cpu"); cgfem_algorithm st;
         Emit (Stop "total_cpu"); Call Gather; Emit Write; Call Report].

(** The two programs, src/msfem.cc:17-51 and src/cgfem.cc:16-40. *)
Inductive program : Type := Msfem | Cgfem.
(** Their try blocks, src/msfem.cc:20-44, src/cgfem.cc:19-33. *)
Definition body (p : program) : settings -> prog :=
  match p with Msfem => msfem_body | Cgfem => cgfem_body end.

(** How a program ends: src/msfem.cc:50, 45-48, or std::terminate. *)
Inductive ending : Type := Returned | Handled | Killed.

(** main, src/msfem.cc:20-50, src/cgfem.cc:19-39: handle_exception writes the
    profile (main_init.cc:69, 77); other exceptions end the process. *)
Definition main (p : program) (st : settings) (answer : nat -> option exn) : list event * ending :=
  match exec answer (body p st) 0 with
  | (t, _, None) => (t, Returned)
  | (t, _, Some OtherExc) => (t, Killed)
  | (t, _, Some _) => (t ++ [Write], Handled)
  end.

(** handle_sigterm, main_init.cc:23-28, after [k] effects of a run. *)
Definition interrupted (k : nat) (t : list event) : list event := firstn k t ++ [StopAll; Write].
