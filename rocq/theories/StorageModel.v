(** Heap machine for the in-memory store of local problem solutions.

    Models (paths relative to /repo/dune/multiscale)
    - common/df_io.hh:89-125   MemoryBackend
    - common/df_io.hh:127-182  DiscreteFunctionIO (single threaded view; the
                               concurrent view is in RegistryModel.v)
    - common/df_io.cc:32-43    clear
    - msfem/localproblems/localsolutionmanager.cc:14-58

    A discrete function is a shared_ptr to a coefficient vector; it is
    modelled by an address into [heap].  Handles
    (LocalproblemSolutionManager objects) and backends hold addresses, so
    aliasing is represented faithfully.  Functions are never freed in the
    model; this is sound because a shared_ptr keeps its target alive.
    Destruction of a backend (its only owner is the registry) is
    represented by [b_alive := false]; using a dead backend is [UB]. *)
From Coq Require Import List Arith Lia Bool.
From Verif Require Import Util.
Import ListNotations.

(** Scalars of coefficient vectors: an arbitrary commutative ring.  In the
    code this is [double] (RangeFieldType, common/traits.hh:86,123); rounding and NaN are not
    modelled. *)
Record Scalar : Type := {
  K :> Type;
  k0 : K; k1 : K;
  kadd : K -> K -> K;
  kmul : K -> K -> K;
  ksub : K -> K -> K;
  kopp : K -> K;
  k_ring : ring_theory k0 k1 kadd kmul ksub kopp (@eq K)
}.

Section Storage.
Variable F : Scalar.

(** Coefficient vector of a discrete function (vector() of
    LocalGridDiscreteFunctionType, df_io.hh:37). *)
Definition vec : Type := list F.

(** [vector() *= c] (localsolutionmanager.cc:49, msfem_solver.cc:66,76). *)
Definition vscale (c : F) (v : vec) : vec := map (kmul F c) v.

(** Fresh function on a space with [n] dofs (make_df_ptr,
    localsolutionmanager.cc:29-30): the zero vector. *)
Definition vzero (n : nat) : vec := repeat (k0 F) n.

(** MemoryBackend, df_io.hh:122-125: the space (only its number of dofs is
    kept) and the list of stored functions. *)
Record backend : Type := {
  b_alive : bool;
  b_len : nat;
  b_funs : list nat
}.

(** LocalproblemSolutionManager, localsolutionmanager.cc:14-31: key of the
    coarse cell, backend reference, numLocalProblems_, localSolutions_. *)
Record manager : Type := {
  m_key : nat;
  m_back : nat;
  m_num : nat;
  m_sols : list nat
}.

(** Whole state: function heap, all backends ever created, the registry
    map memory_ (df_io.hh:178) and all handles ever created. *)
Record state : Type := {
  heap : list vec;
  backs : list backend;
  reg : list (nat * nat);
  mgrs : list manager
}.

(** Program start: DiscreteFunctionIO::instance() with empty maps
    (df_io.hh:135-139). *)
Definition init : state := {| heap := []; backs := []; reg := []; mgrs := [] |}.

(** Client visible operations: localsolutionmanager.cc:14-58, writes through
    getLocalSolutions() (33-36), msfem_solver.cc:113, the end of a ClearGuard
    (df_io.hh:141-147); [Fail]: an exception from elsewhere. *)
Inductive op : Type :=
| New (key num len : nat)
| Write (m i : nat) (v : vec)
| Scale (m i : nat) (c : F)
| Save (m : nat)
| Load (m : nat)
| Drop (m : nat)
| Clear
| Fail.

(** How an operation ends; Throw: df_io.hh:113. *)
Inductive outcome : Type :=
| Ok (s : state)
| Throw (s : state)
| UB.

(** A write to a function (localsolutionmanager.cc:49) leaves the rest alone. *)
Definition with_heap (s : state) (h : list vec) : state :=
  {| heap := h; backs := backs s; reg := reg s; mgrs := mgrs s |}.

(** DiscreteFunctionIO::get, df_io.hh:149-160, sequential: find, otherwise
    create and insert.  Returns the backend id. *)
Definition get_backend (s : state) (key len : nat) : state * nat :=
  match assoc key (reg s) with
  | Some b => (s, b)
  | None =>
    let b := length (backs s) in
    ({| heap := heap s;
        backs := backs s ++ [{| b_alive := true; b_len := len; b_funs := [] |}];
        reg := (key, b) :: reg s;
        mgrs := mgrs s |}, b)
  end.

(** Constructor, localsolutionmanager.cc:14-31: look up the backend, then
    allocate [num] zero functions on the backend's space. *)
Definition do_new (s : state) (key num len : nat) : outcome :=
  let (s1, b) := get_backend s key len in
  match nth_error (backs s1) b with
  | None => UB
  | Some bk =>
    let base := length (heap s1) in
    Ok {| heap := heap s1 ++ repeat (vzero (b_len bk)) num;
          backs := backs s1;
          reg := reg s1;
          mgrs := mgrs s1 ++ [{| m_key := key; m_back := b; m_num := num;
                                 m_sols := seq base num |}] |}
  end.

(** Access to slot [i] of handle [m]: getLocalSolutions()[i],
    localsolutionmanager.cc:33-36; out of range is undefined. *)
Definition slot (s : state) (m i : nat) : option nat :=
  match nth_error (mgrs s) m with
  | None => None
  | Some mg => nth_error (m_sols mg) i
  end.

(** Client writes through a slot (e.g. the local solver,
    localproblemsolver.cc:112, or the scaling msfem_solver.cc:76). *)
Definition do_modify (s : state) (m i : nat) (f : vec -> vec) : outcome :=
  match slot s m i with
  | None => UB
  | Some a => Ok (with_heap s (upd (heap s) a (f (nth a (heap s) []))))
  end.

(** save, localsolutionmanager.cc:54-58 with MemoryBackend::append
    df_io.hh:103-106: push all slot pointers. *)
Definition do_save (s : state) (m : nat) : outcome :=
  match nth_error (mgrs s) m with
  | None => UB
  | Some mg =>
    match nth_error (backs s) (m_back mg) with
    | None => UB
    | Some bk =>
      if b_alive bk then
        Ok {| heap := heap s;
              backs := upd (backs s) (m_back mg)
                         {| b_alive := true; b_len := b_len bk;
                            b_funs := b_funs bk ++ m_sols mg |};
              reg := reg s; mgrs := mgrs s |}
      else UB
    end
  end.

(** How the loop of load ends, localsolutionmanager.cc:46-51. *)
Inductive load_result : Type :=
| LOk (h : list vec) (sols : list nat)
| LThrow (h : list vec) (sols : list nat)
| LUB.

(** Loop of load, localsolutionmanager.cc:46-51: zero the function the slot
    currently points to, then let the slot point to the stored function
    (MemoryBackend::read, df_io.hh:108-115; throws when out of range).
    [n] counts the remaining iterations, [i] is the loop index. *)
Fixpoint load_loop (funs : list nat) (n i : nat) (h : list vec) (sols : list nat)
  : load_result :=
  match n with
  | O => LOk h sols
  | S n' =>
    match nth_error sols i with
    | None => LUB
    | Some a =>
      let h' := upd h a (vscale (k0 F) (nth a h [])) in
      match nth_error funs i with
      | None => LThrow h' sols
      | Some b => load_loop funs n' (S i) h' (upd sols i b)
      end
    end
  end.

(** The slots of one handle are replaced, localsolutionmanager.cc:50. *)
Definition set_sols (s : state) (m : nat) (mg : manager) (h : list vec) (sols : list nat) : state :=
  {| heap := h; backs := backs s; reg := reg s;
     mgrs := upd (mgrs s) m {| m_key := m_key mg; m_back := m_back mg;
                               m_num := m_num mg; m_sols := sols |} |}.

(** load, localsolutionmanager.cc:43-52. *)
Definition do_load (s : state) (m : nat) : outcome :=
  match nth_error (mgrs s) m with
  | None => UB
  | Some mg =>
    match nth_error (backs s) (m_back mg) with
    | None => UB
    | Some bk =>
      if b_alive bk then
        match load_loop (b_funs bk) (m_num mg) 0 (heap s) (m_sols mg) with
        | LOk h sols => Ok (set_sols s m mg h sols)
        | LThrow h sols => Throw (set_sols s m mg h sols)
        | LUB => UB
        end
      else UB
    end
  end.

(** localproblem_solutions.clear(), msfem_solver.cc:113. *)
Definition do_drop (s : state) (m : nat) : outcome :=
  match nth_error (mgrs s) m with
  | None => UB
  | Some mg => Ok (set_sols s m mg (heap s) [])
  end.

(** Destruction of a backend, df_io.cc:41. *)
Definition kill (b : backend) : backend :=
  {| b_alive := false; b_len := b_len b; b_funs := b_funs b |}.

(** clear, df_io.cc:32-43: both maps are emptied, which destroys every
    backend (the registry holds the only shared_ptr, handles hold plain
    references). *)
Definition do_clear (s : state) : state :=
  {| heap := heap s; backs := map kill (backs s); reg := []; mgrs := mgrs s |}.

(** One client operation, localsolutionmanager.cc:14-58.  [Fail] is any exception raised by code that is
    not part of the store (linear solver, assembler, ...). *)
Definition step (s : state) (o : op) : outcome :=
  match o with
  | New key num len => do_new s key num len
  | Write m i v => do_modify s m i (fun _ => v)
  | Scale m i c => do_modify s m i (vscale c)
  | Save m => do_save s m
  | Load m => do_load s m
  | Drop m => do_drop s m
  | Clear => Ok (do_clear s)
  | Fail => Throw s
  end.

(** A client (like localproblemsolver.cc:134-152) that survives exceptions and goes on with its next operation;
    [None] is undefined behaviour. *)
Fixpoint run (s : state) (ops : list op) : option state :=
  match ops with
  | [] => Some s
  | o :: r => match step s o with
              | Ok s' => run s' r
              | Throw s' => run s' r
              | UB => None
              end
  end.

(** A block of operations that is left at the first exception, msfem_solver.cc:121-142. *)
Fixpoint run_block (s : state) (ops : list op) : outcome :=
  match ops with
  | [] => Ok s
  | o :: r => match step s o with
              | Ok s' => run_block s' r
              | Throw s' => Throw s'
              | UB => UB
              end
  end.

(** Elliptic_MsFEM_Solver::apply, msfem_solver.cc:121-142: the body runs
    under a ClearGuard (line 127, df_io.hh:141-147) whose destructor clears
    the store on both normal and exceptional exit. *)
Definition guarded (s : state) (body : list op) : outcome :=
  match run_block s body with
  | Ok s' => Ok (do_clear s')
  | Throw s' => Throw (do_clear s')
  | UB => UB
  end.

(** Observations. *)

(** What a client sees through handle [m]: the vectors of
    getLocalSolutions() in order (localsolutionmanager.cc:33-36). *)
Definition view (s : state) (m : nat) : list vec :=
  match nth_error (mgrs s) m with
  | None => []
  | Some mg => map (fun a => nth a (heap s) []) (m_sols mg)
  end.

(** The vectors held by the registered backend of cell [k] in order (empty
    when the cell is not registered): functions_, df_io.hh:124. *)
Definition stored (s : state) (k : nat) : list vec :=
  match assoc k (reg s) with
  | None => []
  | Some b => match nth_error (backs s) b with
              | None => []
              | Some bk => map (fun a => nth a (heap s) []) (b_funs bk)
              end
  end.

End Storage.
