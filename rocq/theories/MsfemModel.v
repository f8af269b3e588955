(** One run of the multiscale solver on top of the store.

    Models (paths relative to /repo/dune/multiscale/msfem)
    - localproblems/localproblemsolver.cc:61-114   solve_all_on_single_cell
    - localproblems/localproblemsolver.cc:134-149  work per coarse cell
    - localproblems/localoperator.cc:44-81,113-169 right hand side slots
    - msfem_solver.cc:43-119                       identify_fine_scale_part

    Not modelled: how right hand sides are integrated and how the local
    systems are solved; both are parameters of a cell ([c_inner], [c_neu],
    [c_dir], [c_constrain], [c_solve]).  Only cube grids (simplex grids throw
    NotImplemented, localoperator.cc:119-120). *)
From Coq Require Import List Arith Lia Bool.
From Verif Require Import Util StorageModel.
Import ListNotations.

Section Msfem.
Variable F : Scalar.
(** LocalGridDiscreteFunctionType::vector(), df_io.hh:37 (StorageModel). *)
Notation vec := (vec F).
(** The store, df_io.hh:127-182 (StorageModel). *)
Notation state := (state F).

(** [a += b], [a -= b] on coefficient vectors of one space
    (msfem_solver.cc:77,103,105). *)
Definition vadd (u v : vec) : vec := map (fun p => kadd F (fst p) (snd p)) (combine u v).
(** msfem_solver.cc:105. *)
Definition vsub (u v : vec) : vec := map (fun p => ksub F (fst p) (snd p)) (combine u v).

(** A coarse cell with everything the code evaluates on it.
    [c_key]: index of the cell (localsolutionmanager.cc:24-26);
    [c_n]: coarse_space.mapper().maxNumDofs() (line 22);
    [c_len]: number of dofs of the local space;
    [c_boundary]: hasBoundaryIntersections() (localproblemsolver.cc:67);
    [c_inner i]: integrated CoarseBasisProduct functional of coarse basis
      function i (localoperator.cc:142-150);
    [c_neu], [c_dir]: integrated Neumann functional and Dirichlet corrector
      functional (localoperator.cc:52,54-55);
    [c_constrain]: dirichletConstraints_.apply on a vector
      (localoperator.cc:162-163);
    [c_solve start rhs]: local linear solver (localoperator.cc:171-195),
      [None] is one of its exceptions;
    [c_mesh]: the local mesh, per element the Lagrange nodes as (global
      dof, lies inside the coarse cell) (msfem_solver.cc:86-97). *)
Record cell : Type := {
  c_key : nat;
  c_n : nat;
  c_len : nat;
  c_boundary : bool;
  c_inner : nat -> vec;
  c_neu : vec;
  c_dir : vec;
  c_constrain : vec -> vec;
  c_solve : vec -> vec -> option vec;
  c_mesh : list (list (nat * bool))
}.

(** numLocalProblems_ on cube grids, localsolutionmanager.cc:21-22. *)
Definition c_num (c : cell) : nat := c_n c + 2.

(** [functional.vector() += v] on slot [i] of allLocalRHS (localoperator.cc:52, 55,
    146-149, assembled at 154); [None]: out of range access. *)
Definition rhs_add (rhs : list vec) (i : nat) (v : vec) : option (list vec) :=
  match nth_error rhs i with
  | None => None
  | Some r => Some (upd rhs i (vadd r v))
  end.

(** Loop localoperator.cc:142-150 with the assembly of line 154: adds the
    functional of basis function i to slot i, [n] iterations left. *)
Fixpoint inner_loop (c : cell) (n i : nat) (rhs : list vec) : option (list vec) :=
  match n with
  | O => Some rhs
  | S n' => match rhs_add rhs i (c_inner c i) with
            | None => None
            | Some rhs' => inner_loop c n' (S i) rhs'
            end
  end.

(** assemble_all_local_rhs, localoperator.cc:113-169.
    numInnerCorrectors = size - 2 (lines 122-123); the BoundaryValueHelper
    binds the Neumann functional to slot numInner (line 52) and the Dirichlet
    functional to slot ++numInner (line 55), only for boundary cells
    (lines 127-131, 152-153); constraints on all slots (lines 162-163). *)
Definition assemble_rhs (c : cell) (rhs : list vec) : option (list vec) :=
  if Nat.ltb (length rhs) 2 then None else
  let num_inner := length rhs - 2 in
  match inner_loop c num_inner 0 rhs with
  | None => None
  | Some rhs1 =>
    let rhs2 :=
      if c_boundary c then
        match rhs_add rhs1 num_inner (c_neu c) with
        | None => None
        | Some r => rhs_add r (S num_inner) (c_dir c)
        end
      else Some rhs1 in
    match rhs2 with
    | None => None
    | Some r => Some (map (c_constrain c) r)
    end
  end.

(** Loop localproblemsolver.cc:89-113 over the slots: zero the boundary
    correctors of interior cells, otherwise solve with the (already zeroed)
    slot as start value. [None]: exception of the local solver. *)
Fixpoint solve_loop (c : cell) (num_inner i : nat) (rhs sols : list vec) : option (list vec) :=
  match rhs, sols with
  | r :: rhs', s :: sols' =>
    let res := if (num_inner <=? i) && negb (c_boundary c)
               then Some (vscale F (k0 F) s)
               else c_solve c s r in
    match res with
    | None => None
    | Some x => match solve_loop c num_inner (S i) rhs' sols' with
                | None => None
                | Some l => Some (x :: l)
                end
    end
  | _, _ => Some []
  end.

(** solve_all_on_single_cell, localproblemsolver.cc:61-114, as a function
    of the slot contents before the call. *)
Definition solve_all_on_single_cell (c : cell) (sols : list vec) : option (list vec) :=
  let sols0 := map (vscale F (k0 F)) sols in
  let rhs0 := repeat (vzero F (c_len c)) (length sols) in
  match assemble_rhs c rhs0 with
  | None => None
  | Some rhs => solve_loop c (length sols - 2) 0 rhs sols0
  end.

(** Functions a new handle of the cell starts with
    (localsolutionmanager.cc:29-30). *)
Definition fresh_slots (c : cell) : list vec := repeat (vzero F (c_len c)) (c_num c).

(** Work of one thread on one cell, localproblemsolver.cc:134-149, cut into
    the operations on the shared store: create the handle (140), zero and
    write the slots (142), save (146). *)
Inductive instr : Type :=
| INew (num len : nat)
| IZero (i : nat)
| IWrite (i : nat) (v : vec)
| ISave.

(** localproblemsolver.cc:89-113: the slots in order. *)
Fixpoint writes (i : nat) (l : list vec) : list instr :=
  match l with [] => [] | v :: r => IWrite i v :: writes (S i) r end.

(** localproblemsolver.cc:134-149; [None]: an exception of the local solver. *)
Definition cell_prog (c : cell) : option (list instr) :=
  match solve_all_on_single_cell c (fresh_slots c) with
  | None => None
  | Some sols => Some (INew (c_num c) (c_len c) :: map IZero (seq 0 (c_num c)) ++
                       writes 0 sols ++ [ISave])
  end.

(** Execution of one instruction of the work on cell [k]; [env] maps cells
    to the handle their work created (localproblemsolver.cc:140). *)
Definition env : Type := list (nat * nat).
(** localproblemsolver.cc:140 (create), 142 (slots), 146 (save). *)
Definition exec1 (st : state * env) (e : nat * instr) : option (state * env) :=
  let s := fst st in
  let on_handle (f : nat -> op F) :=
    match assoc (fst e) (snd st) with
    | None => None
    | Some m => match step F s (f m) with Ok _ s' => Some (s', snd st) | _ => None end
    end in
  match snd e with
  | INew num len =>
      match step F s (New F (fst e) num len) with
      | Ok _ s' => Some (s', (fst e, length (mgrs F s)) :: snd st)
      | _ => None
      end
  | IZero i => on_handle (fun m => Scale F m i (k0 F))
  | IWrite i v => on_handle (fun m => Write F m i v)
  | ISave => on_handle (fun m => Save F m)
  end.

(** Any interleaving of the work on the cells, localproblemsolver.cc:134-152. *)
Fixpoint exec (st : state * env) (tr : list (nat * instr)) : option (state * env) :=
  match tr with
  | [] => Some st
  | e :: r => match exec1 st e with None => None | Some st' => exec st' r end
  end.

(** Cut to the coarse cell, msfem_solver.cc:86-100: for every Lagrange node
    of every element [vec.set(lg_i, covered ? vec.get(lg_i) : 0)]. *)
Definition cut_node (v : vec) (nd : nat * bool) : vec :=
  upd v (fst nd) (if snd nd then nth (fst nd) v (k0 F) else k0 F).
(** msfem_solver.cc:90-99: the nodes of one element. *)
Definition cut_element (v : vec) (e : list (nat * bool)) : vec := fold_left cut_node e v.
(** msfem_solver.cc:86-100: all elements. *)
Definition cut_mesh (mesh : list (list (nat * bool))) (v : vec) : vec :=
  fold_left cut_element mesh v.

(** Number of dofs of the handle's space (localSolutionManager.space(),
    localsolutionmanager.cc:38-41). *)
Definition space_len (s : state) (m : nat) : nat :=
  match nth_error (mgrs F s) m with
  | None => 0
  | Some mg => match nth_error (backs F s) (m_back mg) with
               | None => 0
               | Some bk => b_len bk
               end
  end.

(** Loop msfem_solver.cc:75-78: scale slot [dof] in place by the coarse
    value and add it to the correction. *)
Fixpoint accumulate (s : state) (m : nat) (coarse : list F) (i : nat) (corr : vec)
  : option (state * vec) :=
  match coarse with
  | [] => Some (s, corr)
  | x :: r =>
    match step F s (Scale F m i x) with
    | Ok _ s' =>
      match nth_error (view F s' m) i with
      | None => None
      | Some v => accumulate s' m r (S i) (vadd corr v)
      end
    | _ => None
    end
  end.

(** Body of the loop msfem_solver.cc:57-114 for one cell; [cut] is
    [oversampling_layers > 0] (line 83), [coarse] the local dofs of the
    coarse solution (line 67).  Visualisation (107-112) is left out. *)
Definition identify_cell (cut : bool) (s : state) (c : cell) (coarse : list F)
  : option (state * vec) :=
  match step F s (New F (c_key c) (c_num c) (c_len c)) with
  | Ok _ s1 =>
    let m := length (mgrs F s) in
    match step F s1 (Load F m) with
    | Ok _ s2 =>
      let corr0 := vscale F (k0 F) (vzero F (space_len s2 m)) in
      match accumulate s2 m coarse 0 corr0 with
      | Some (s3, corr1) =>
        let corr2 := if cut then cut_mesh (c_mesh c) corr1 else corr1 in
        match nth_error (view F s3 m) (length coarse + 1),
              nth_error (view F s3 m) (length coarse) with
        | Some d, Some n =>
          match step F s3 (Drop F m) with
          | Ok _ s4 => Some (s4, vsub (vadd corr2 d) n)
          | _ => None
          end
        | _, _ => None
        end
      | None => None
      end
    | _ => None
    end
  | _ => None
  end.

(** identify_fine_scale_part, msfem_solver.cc:43-119: the map
    local_corrections from cell index to correction. *)
Fixpoint identify_all (cut : bool) (coarse_of : nat -> list F) (s : state) (cs : list cell)
  : option (state * list (nat * vec)) :=
  match cs with
  | [] => Some (s, [])
  | c :: r =>
    match identify_cell cut s c (coarse_of (c_key c)) with
    | None => None
    | Some (s', v) =>
      match identify_all cut coarse_of s' r with
      | None => None
      | Some (s'', l) => Some (s'', (c_key c, v) :: l)
      end
    end
  end.

End Msfem.
