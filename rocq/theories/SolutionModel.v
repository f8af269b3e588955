(** The function the multiscale solver hands out.

    Paths relative to /repo/dune/multiscale/msfem.
    - localsolution_proxy.cc:11-22   construction of the proxy
    - localsolution_proxy.cc:33-50   add
    - msfem_solver.cc:121-143        apply

    On top of MsfemModel.  External: the Lagrange prolongation (values of the
    coarse function at the nodes of a local grid) and the coarse linear solver;
    both are parameters. *)
From Coq Require Import List Arith Bool.
From Verif Require Import Util StorageModel StorageSpec MsfemModel.
Import ListNotations.

Section Solution.
Variable F : Scalar.
(** vector() of a correction, df_io.hh:37 (StorageModel). *)
Notation vec := (vec F).
(** The store, df_io.hh:127-182 (StorageModel). *)
Notation state := (state F).
(** CorrectionsMapType, msfem_solver.cc:55, 62; localsolution_proxy.cc:37, 47. *)
Notation corrections := (list (nat * vec)).

(** Construction, localsolution_proxy.cc:11-22: [*corrections.begin()] of an
    empty map is undefined (line 14); the assertion of line 21 compares with
    the number of cells of the rank, overlap included. *)
Inductive made : Type :=
| Proxy (cs : corrections)
| Undefined
| AssertFails.
(** The constructor, localsolution_proxy.cc:11-21. *)
Definition make_proxy (debug : bool) (ncells : nat) (cs : corrections) : made :=
  match cs with
  | [] => Undefined
  | _ => if debug && negb (Nat.eqb (length cs) ncells) then AssertFails else Proxy cs
  end.

(** [corrections_[id]], localsolution_proxy.cc:47. *)
Definition get (id : nat) (cs : corrections) : vec :=
  match assoc id cs with Some v => v | None => [] end.
(** correction.vector() += ..., localsolution_proxy.cc:47-48. *)
Fixpoint put (id : nat) (v : vec) (cs : corrections) : corrections :=
  match cs with
  | [] => [(id, v)]
  | (k, w) :: r => if Nat.eqb id k then (k, v) :: r else (k, w) :: put id v r
  end.

(** add, lines 33-50.  [order]: iteration order of [targets], an unordered map
    with the keys of corrections_ (36-39); [prolong id]: the coarse function at
    the nodes of the local grid of cell [id] (43-45). *)
Definition proxy_add (prolong : nat -> vec) (order : list nat) (cs : corrections) : corrections :=
  fold_left (fun cs id => put id (vadd F (get id cs) (prolong id)) cs) order cs.

(** What the coarse solve delivers: the local dofs of every cell
    (msfem_solver.cc:67) and the prolongation. *)
Record coarse_result : Type := { cr_local : nat -> list F; cr_prolong : nat -> vec }.

(** Elliptic_MsFEM_Solver::apply, msfem_solver.cc:121-143: local solves (the
    trace [tr]), assembly of the coarse system (reads of the store), coarse
    solve ([None]: exception), reconstruction on the cells [cs], construction
    of the proxy and addition of the coarse function.  [None]: an exception. *)
Definition msfem_apply (debug cut : bool) (ncells : nat) (s0 : state) (tr : list (nat * instr F))
    (reads : list (nat * nat * nat)) (coarse : option coarse_result) (cs : list (cell F))
    (order : list nat) : option made :=
  match exec F (s0, []) tr with
  | None => None
  | Some (s1, _) =>
    match run_acts F s1 (map (fun t => ReadFresh F (fst (fst t)) (snd (fst t)) (snd t)) reads) with
    | None => None
    | Some s2 =>
      match coarse with
      | None => None
      | Some cr =>
        match identify_all F cut (cr_local cr) s2 cs with
        | None => None
        | Some (_, corr) =>
          match make_proxy debug ncells corr with
          | Proxy p => Some (Proxy (proxy_add (cr_prolong cr) order p))
          | o => Some o
          end
        end
      end
    end
  end.
End Solution.
Arguments Proxy {F}.
Arguments Undefined {F}.
Arguments AssertFails {F}.
