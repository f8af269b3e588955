(** The loop over the coarse cells of a process, and the numbers it prints.

    /repo/dune/multiscale/msfem/localproblems/localproblemsolver.cc:61-163.
    Simplified: a cell is its multi-index; what a solve computes is not modelled
    here (see BasisModel, LinModel), only that it is called. *)
From Coq Require Import List Arith ZArith Bool.
Import ListNotations.

(** The part of a process in one direction: [total] cells in all, those from
    [lo] to [hi] (exclusive) are interior to the process (external YaspGrid,
    as used in localproblemsolver.cc:118, 127). *)
Record extent := { total : nat; lo : nat; hi : nat }.

(** All multi-indices of a product of ranges, each given by its first element
    and its length: the cells of a structured grid (external), visited in
    localproblemsolver.cc:127-153. *)
Fixpoint product (rs : list (nat * nat)) : list (list nat) :=
  match rs with
  | [] => [[]]
  | (a, n) :: rs => flat_map (fun i => map (cons i) (product rs)) (seq a n)
  end.

(** leafGridView<InteriorBorder_Partition>, localproblemsolver.cc:127: the cells the walk visits. *)
Definition interior_cells (p : list extent) : list (list nat) := product (map (fun e => (lo e, hi e - lo e)) p).

(** The cells a process stores (external): [o] more layers on each side, as far as there are
    cells; their number is grid.size(0), localproblemsolver.cc:119. *)
Definition stored_cells (o : nat) (p : list extent) : list (list nat) :=
  product (map (fun e => (lo e - o, Nat.min (total e) (hi e + o) - (lo e - o))) p).

(** coarseGridSize, localproblemsolver.cc:119: overlapSize(0) is the number of
    layers [o]. *)
Definition coarse_grid_size (o : nat) (p : list extent) : Z := (Z.of_nat (length (stored_cells o p)) - Z.of_nat o)%Z.

(** hasBoundaryIntersections, localproblemsolver.cc:67 (external): a face of the cell
    lies on the boundary of the domain. *)
Definition has_boundary (p : list extent) (cs : list nat) : bool :=
  existsb (fun ec => Nat.eqb (snd ec) 0 || Nat.eqb (S (snd ec)) (total (fst ec))) (combine p cs).

(** numBoundaryCorrectors, localproblemsolver.cc:68. *)
Definition boundary_correctors (simplex : bool) : nat := if simplex then 1 else 2.

(** The loop of solve_all_on_single_cell, localproblemsolver.cc:90-113: the
    indices for which a system is solved; [size]: number of local solutions. *)
Definition solved (simplex : bool) (size : nat) (boundary : bool) : list nat :=
  filter (fun i => negb (Nat.leb (size - boundary_correctors simplex) i && negb boundary)) (seq 0 size).

(** What solve_for_all_cells does and prints: number in the first message
    (121-122), cells with the indices solved for (133-153), number in the last
    message (157). *)
Record outcome := { announced : Z; handled : list (list nat * list nat); reported : Z }.

(** solve_for_all_cells, localproblemsolver.cc:116-163. *)
Definition solve_for_all_cells (simplex : bool) (size o : nat) (p : list extent) : outcome :=
  {| announced := coarse_grid_size o p;
     handled := map (fun cs => (cs, solved simplex size (has_boundary p cs))) (interior_cells p);
     reported := coarse_grid_size o p |}.

(** The calls of apply_inverse of a run, localproblemsolver.cc:112, 146. *)
Definition systems (r : outcome) : nat := fold_right (fun c n => length (snd c) + n) 0 (handled r).
