(** What is said about timed sections, in terms of the sequence of visible
    effects alone. *)
From Coq Require Import List String Bool Arith.
From Verif Require Import TimeModel.
Import ListNotations.
Open Scope string_scope.
Open Scope list_scope.

(** The section is running after these effects: it was started, and not stopped
    since. *)
Definition running (t : list event) (s : section) : Prop :=
  exists a b, t = a ++ Start s :: b /\ ~ In (Stop s) b /\ ~ In StopAll b.

(** A section is only stopped while it runs and only asked for after a start. *)
Definition lawful (t : list event) : Prop :=
  (forall a b s, t = a ++ Stop s :: b -> running a s) /\
  (forall a b s, t = a ++ Ask s :: b -> In (Start s) a).

(** Some section is started although it is running. *)
Definition restarts (t : list event) (s : section) : Prop :=
  exists a b, t = a ++ Start s :: b /\ running a s.

(** Sections lie inside each other or one after the other, and none inside
    itself. *)
Inductive nested : list event -> Prop :=
| nested_nil : nested []
| nested_call c r t : nested t -> nested (Called c r :: t)
| nested_ask s t : nested t -> nested (Ask s :: t)
| nested_section s t u :
    nested t -> ~ In (Start s) t -> nested u -> nested (Start s :: t ++ Stop s :: u).

(** How often a section is started. *)
Fixpoint starts (s : section) (t : list event) : nat :=
  match t with
  | [] => 0
  | Start x :: r => if String.eqb x s then S (starts s r) else starts s r
  | _ :: r => starts s r
  end.

(** A reference solve was given up because of a Dune exception. *)
Definition gave_up (g : grid) (t : list event) : Prop := exists st, In (Called (Fem g st) (Some DuneExc)) t.

(** Failures that only cost a comparison: the reference solves of the error
    calculation and the prolongation of the coarse one. *)
Definition tolerated (p : program) (c : call) (e : exn) : Prop :=
  e = DuneExc /\
  (c = Prolong \/ (exists st, c = Fem Coarse st) \/ (p = Msfem /\ exists st, c = Fem Fine st)).

(** The section that is running when a reference solve fails, besides
    fem.apply. *)
Definition stage (st : step) : option section :=
  match st with
  | Prepare | Shift => None
  | Assemble => Some "fem.assemble" | Constrain => Some "fem.constraints" | SolveSystem => Some "fem.solve"
  end.

(** The order of the steps of a reference solve. *)
Definition position (st : step) : nat :=
  match st with Prepare => 0 | Assemble => 1 | Constrain => 2 | SolveSystem => 3 | Shift => 4 end.

(** Number of reference solves of a successful run. *)
Definition solves (p : program) (st : settings) : nat :=
  match p with
  | Msfem => if skip_error st then 0 else if comparison st then 2 else 1
  | Cgfem => if skip_error st then 1 else 2
  end.

(** The sections of the profile of a successful run and how often each was
    measured. *)
Definition one (b : bool) : nat := if b then 1 else 0.
Definition expected (p : program) (st : settings) : list (section * nat) :=
  [("fem.apply", solves p st); ("fem.assemble", solves p st);
   ("fem.constraints", solves p st); ("fem.solve", solves p st);
   ("msfem.perm_field.init", one (random st)); ("msfem.perm_field.create", one (random st))] ++
  match p with
  | Msfem =>
    [("msfem.all", 1); ("msfem.algorithm", 1); ("msfem.setup.grid", 1); ("msfem.setup.problem", 1);
     ("msfem.local_grids", 1); ("msfem.Elliptic_MsFEM_Solver.apply", 1);
     ("msfem.local.solve_for_all_cells", 1); ("msfem.coarse.assemble", 1); ("msfem.coarse.solve", 1);
     ("msfem.coarse.linearSolver", 1); ("msfem.idFine", 1); ("proxy.add", 1);
     ("msfem.vtk_output", one (vtk st)); ("error.msfem", one (negb (skip_error st)))]
  | Cgfem => [("total_cpu", 1); ("error.fem+msfem", one (negb (skip_error st)))]
  end.
Fixpoint times (l : list (section * nat)) (s : section) : nat :=
  match l with [] => 0 | (x, n) :: r => if String.eqb x s then n else times r s end.

(** The section around the whole computation. *)
Definition whole (p : program) : section := match p with Msfem => "msfem.all" | Cgfem => "total_cpu" end.

(** Sections that are started and stopped by separate calls; all others end with
    the block in which they begin. *)
Definition by_hand : list section :=
  ["msfem.all"; "total_cpu"; "msfem.setup.grid"; "msfem.setup.problem";
   "msfem.local.solve_for_all_cells"; "msfem.coarse.linearSolver";
   "fem.apply"; "fem.assemble"; "fem.constraints"; "fem.solve"].

(** The computations of a successful run in their order, each with the innermost
    section it is measured by. *)
Definition reference (g : grid) : list (call * option section) :=
  [(Fem g Prepare, Some "fem.apply"); (Fem g Assemble, Some "fem.assemble"); (Fem g Constrain, Some "fem.constraints");
   (Fem g SolveSystem, Some "fem.solve"); (Fem g Shift, Some "fem.apply")].
Definition when {A} (b : bool) (l : list A) : list A := if b then l else [].
Definition errors (s : section) : list (call * option section) :=
  [(Grids, Some s); (MakeFem Coarse, Some s)] ++ reference Coarse ++ [(Prolong, Some s); (Compare, Some s)].
Definition made (p : program) (st : settings) : list (call * option section) :=
  match p with
  | Msfem =>
    [(Init, None); (Directories, Some "msfem.all"); (MakeProblem, Some "msfem.setup.grid")] ++
    when (random st) [(FieldInit, Some "msfem.perm_field.init")] ++ [(CoarseGrid, Some "msfem.setup.grid")] ++
    when (random st) [(FieldCreate, Some "msfem.perm_field.create")] ++
    [(CoarseSpace, Some "msfem.algorithm"); (LocalGrids, Some "msfem.local_grids");
     (Vectors, Some "msfem.Elliptic_MsFEM_Solver.apply"); (LocalSolves, Some "msfem.local.solve_for_all_cells");
     (CoarseAssemble, Some "msfem.coarse.assemble"); (Barrier, Some "msfem.Elliptic_MsFEM_Solver.apply");
     (CoarseSolve, Some "msfem.coarse.linearSolver"); (Identify, Some "msfem.idFine"); (AddCoarse, Some "proxy.add")] ++
    when (vtk st) [(Picture, Some "msfem.vtk_output")] ++
    when (negb (skip_error st))
      (when (comparison st) ((MakeFem Fine, Some "error.msfem") :: reference Fine) ++ errors "error.msfem")
  | Cgfem =>
    [(Init, None); (MakeProblem, Some "total_cpu")] ++
    when (random st) [(FieldInit, Some "msfem.perm_field.init"); (FieldCreate, Some "msfem.perm_field.create")] ++
    [(MakeFem Fine, Some "total_cpu")] ++ reference Fine ++
    when (vtk st) [(Picture, Some "total_cpu")] ++ when (negb (skip_error st)) (errors "error.fem+msfem")
  end ++ [(Gather, None); (Report, None)].

(** The external calls of a sequence of effects. *)
Fixpoint calls_of (t : list event) : list call :=
  match t with [] => [] | Called c _ :: r => c :: calls_of r | _ :: r => calls_of r end.

(** The innermost running section after these effects: started last among those
    that run. *)
Definition innermost (t : list event) (s : section) : Prop :=
  running t s /\ exists a b, t = a ++ Start s :: b /\ forall x, running t x -> x <> s -> running a x /\ ~ In (Start x) b.
