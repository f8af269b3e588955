(** Choice of the local linear solver.

    /repo/dune/multiscale/msfem/localproblems/localoperator.cc:93-111,164-195.
    External: Dune::UMFPack::apply(x, b, stat) (x: solution, b: right hand
    side) and Stuff::LA::Solver::options(type) and ::apply(rhs, solution,
    options); the order of the arguments of the latter is the one of
    fem_solver.cc:124 and coarse_scale_operator.cc:123.  The options (lines
    180-182) only reach the external solver and are left out. *)
From Coq Require Import List Arith Bool String.
From Verif Require Import Util StorageModel MsfemModel.
Import ListNotations.

Section Solver.
Variable F : Scalar.

(** config().get("msfem.local_solver", "umfpack"), localoperator.cc:104,180. *)
Definition solver_type (conf : option string) : string :=
  match conf with Some t => t | None => "umfpack"%string end.

(** use_umfpack_, localoperator.cc:103-107; [built]: HAVE_UMFPACK. *)
Definition use_umfpack (built : bool) (conf : option string) : bool :=
  built && String.eqb (solver_type conf) "umfpack".

(** The external solvers for one local matrix: localoperator.cc:165-167,178.
    [s_options t]: false if options(t) throws (line 180);
    [s_direct x b]: first argument after local_direct_inverse_->apply (line
    188), [None] is an exception;
    [s_apply t rhs sol]: second argument after local_inverse.apply (line 191),
    [None] is an exception;
    [s_valid]: dofs_valid (lines 174, 193). *)
Record solvers : Type := {
  s_options : string -> bool;
  s_direct : vec F -> vec F -> option (vec F);
  s_apply : string -> vec F -> vec F -> option (vec F);
  s_valid : vec F -> bool
}.

(** apply_inverse, localoperator.cc:171-195: content of current_solution
    afterwards, [None] is an exception. *)
Definition apply_inverse (built : bool) (conf : option string) (l : solvers)
    (current_solution current_rhs : vec F) : option (vec F) :=
  if negb (s_valid l current_rhs) then None                              (* 174-175 *)
  else if negb (s_options l (solver_type conf)) then None                (* 180 *)
  else
    let writable_rhs := current_rhs in                                   (* 185 *)
    let after :=                                                         (* both arguments *)
      if use_umfpack built conf then
        match s_direct l current_solution writable_rhs with              (* 188 *)
        | Some x => Some (x, writable_rhs)
        | None => None
        end
      else
        match s_apply l (solver_type conf) current_solution writable_rhs with (* 191 *)
        | Some y => Some (current_solution, y)
        | None => None
        end in
    match after with
    | None => None
    | Some (solution, _) => if s_valid l solution then Some solution else None (* 193-194 *)
    end.
End Solver.
