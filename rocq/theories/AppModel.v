(** The application around the solvers: problem selection, output paths, memory
    report and exit status.

    /repo/dune/multiscale/problems/selector.cc,
    /repo/dune/multiscale/tools/misc/outputparameter.cc,
    /repo/dune/multiscale/common/main_init.cc, /repo/src/msfem.cc, /repo/src/cgfem.cc. *)
From Coq Require Import ZArith String Ascii List Arith Bool.
From Verif Require Import Util.
Import ListNotations.
Open Scope string_scope.
Open Scope list_scope.

(** ** Problem selection. *)
(** The six maps, selector.cc:81-86. *)
Inductive kind : Type := Data | Source | ExactSolution | Diffusion | DirichletData | NeumannData.

(** Keys inserted by mk_map, selector.cc:38-77, the same for every map. *)
Definition map_keys : list string := ["Synthetic"; "Random"; "SPE10"; "Tarbert"; "ER2007"].

(** An entry maps a name to the constructor of [DMP::name::FunctionName]; the
    created object is named by its problem and kind (selector.cc:41-75). *)
Definition object : Type := (string * kind)%type.
(** selector.cc:98-102: find in the map. *)
Definition find_entry (k : kind) (name : string) : option object :=
  if existsb (String.eqb name) map_keys then Some (name, k) else None.

(** Effects while a container is constructed, selector.cc:105-118. *)
Inductive event : Type :=
| Constructing (o : object)     (* the object's constructor is called *)
| Initialised (o : object)      (* problem_init of the model data *)
| Deleted (o : object).         (* unique_ptr destroyed during unwinding *)

Inductive outcome (A : Type) : Type :=
| Done (a : A)
| InvalidState        (* Dune::InvalidStateException, selector.cc:100 *)
| Thrown (o : object) (* exception out of a constructor *)
| InitThrown.         (* exception out of problem_init *)
Arguments Done {A}. Arguments InvalidState {A}. Arguments Thrown {A}. Arguments InitThrown {A}.

Section Container.
(** Whether the constructor of an object, or problem_init, throws (missing data
    file, wrong dimension, missing library). *)
Variable ctor_throws : object -> bool.
Variable init_throws : string -> bool.

(** make_f, selector.cc:88-103. *)
Definition make_f (k : kind) (name : string) : list event * outcome object :=
  match find_entry k name with
  | None => ([], InvalidState)
  | Some o => ([Constructing o], if ctor_throws o then Thrown o else Done o)
  end.

(** Member initialisers, selector.cc:110-115, in declaration order; when one
    throws the members made so far are destroyed in reverse order. *)
Fixpoint members (ks : list kind) (name : string) (made : list object) : list event * outcome (list object) :=
  match ks with
  | [] => ([], Done (rev made))
  | k :: r =>
      match make_f k name with
      | (ev, Done o) => let '(ev', res) := members r name (o :: made) in (ev ++ ev', res)
      | (ev, InvalidState) => (ev ++ map Deleted made, InvalidState)
      | (ev, Thrown o) => (ev ++ map Deleted made, Thrown o)
      | (ev, InitThrown) => (ev ++ map Deleted made, InitThrown)
      end
  end.
(** The initialiser list, selector.cc:110-115. *)
Definition member_order : list kind := [Data; Source; ExactSolution; Diffusion; DirichletData; NeumannData].

(** config_.get("problem.name", "Synthetic"), selector.cc:109. *)
Definition problem_name (configured : option string) : string :=
  match configured with Some s => s | None => "Synthetic" end.

(** The constructor, selector.cc:105-118. *)
Definition container (configured : option string) : list event * outcome (list object) :=
  let name := problem_name configured in
  match members member_order name [] with
  | (ev, Done os) =>
      if init_throws name then (ev ++ map Deleted (rev os), InitThrown)
      else (ev ++ [Initialised (name, Data)], Done os)
  | other => other
  end.
End Container.

(** Getters, selector.cc:120-159: the member of each kind. *)
Definition getter (os : list object) (k : kind) : option object :=
  match k with
  | Data => nth_error os 0 | Source => nth_error os 1 | ExactSolution => nth_error os 2
  | Diffusion => nth_error os 3 | DirichletData => nth_error os 4 | NeumannData => nth_error os 5
  end.

(** ** Output paths. *)
(** OutputParameters, outputparameter.cc:16-28; [created] are the paths given to
    test_create_directory. *)
Record output := { my_prefix : string; my_path : string; created : list string }.
(** outputparameter.cc:16-21. *)
Definition new_output (path_in : string) : output :=
  {| my_prefix := "solutions"; my_path := path_in; created := [path_in] |}.
(** outputparameter.cc:23-28. *)
Definition set_prefix (o : output) (p : string) : output :=
  {| my_prefix := p; my_path := my_path o; created := created o ++ [p] |}.
(** outputparameter.cc:61-64: "%s/%s_%s". *)
Definition fullpath (o : output) (name : string) : string :=
  (my_path o ++ "/" ++ my_prefix o ++ "_" ++ name)%string.

(** ** Memory report, main_init.cc:90-109. *)
(** [peaks] are the peak consumptions of all processes; result: line of the
    report written by [rank], if any.  [long] is unbounded. *)
Definition mem_usage (peaks : list Z) (rank : nat) : option (Z * Z) :=
  let mx := match peaks with [] => 0%Z | p :: r => fold_left Z.max r p end in   (* 99 *)
  let total := fold_left Z.add peaks 0%Z in                                    (* 100 *)
  let mean := Z.quot total (Z.of_nat (List.length peaks)) in                   (* 101 *)
  if Nat.eqb rank 0 then Some (mx, mean) else None.                            (* 103-108 *)

(** ** Exit status, msfem.cc:17-51, cgfem.cc:16-40, main_init.cc:23-88. *)
(** What leaves the try block. *)
Inductive ending : Type :=
| Finished
| DuneException        (* Dune::Exception and derived *)
| StdException         (* std::exception and derived, including tbb::tbb_exception *)
| OtherException       (* anything else *)
| SigTerm.             (* handle_sigterm, main_init.cc:23-28 *)
(** What the process reports: src/msfem.cc:45-50, src/cgfem.cc. *)
Inductive status : Type := Exit (code : Z) | Terminated.

(** [abort_status]: result of Dune::Stuff::abort_all_mpi_processes, if it
    returns; [report_throws]: whether writing profile and memory report inside
    the handler throws; main_init.cc:66-88. *)
Definition handle_exception (report_throws : bool) (abort_status : Z) : status :=
  if report_throws then Terminated else Exit abort_status.
(** src/msfem.cc:18-51 and src/cgfem.cc: the catch clauses, the result. *)
Definition main (e : ending) (report_throws : bool) (abort_status : Z) : status :=
  match e with
  | Finished => Exit 0
  | DuneException => handle_exception report_throws abort_status
  | StdException => handle_exception report_throws abort_status
  | OtherException => Terminated
  | SigTerm => Exit 5
  end.

(** ** A failure on some processes only. *)
(** A process is described by its remaining collective operations; a failing
    process has those of mem_usage in handle_exception (main_init.cc:70,78 with
    99-100) before it aborts all processes (71,79).  A collective operation is
    completed when all processes take part.  Simplified: kinds of collective
    operations are not compared. *)
Record process := { left : nat; failing : bool }.
(** A process in handle_exception: the two collective calls of mem_usage,
    main_init.cc:99-100, are left. *)
Definition failing_process : process := {| left := 2; failing := true |}.
(** One collective operation (main_init.cc:99-100 in the handler), if every
    process has one left. *)
Definition collective (ps : list process) : option (list process) :=
  if forallb (fun p => Nat.ltb 0 (left p)) ps
  then Some (map (fun p => {| left := left p - 1; failing := failing p |}) ps)
  else None.
(** MPI_Abort (main_init.cc:71, 79, 87) is reached by a failing process with no
    collective left. *)
Definition aborts (ps : list process) : bool := existsb (fun p => failing p && Nat.eqb (left p) 0) ps.
(** Run until abort (main_init.cc:71) or until nobody can continue. *)
Fixpoint progress (fuel : nat) (ps : list process) : bool (* aborted *) :=
  if aborts ps then true
  else match fuel with
       | O => false
       | S f => match collective ps with None => false | Some ps' => progress f ps' end
       end.
