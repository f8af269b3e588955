(** The coarse and the reference system on several processes.

    /repo/dune/multiscale/msfem/coarse_scale_operator.cc:36-91,99-138 and
    /repo/dune/multiscale/msfem/fem_solver.cc:49-131 on one of several
    processes, on top of SystemModel, FemModel and LinModel.
    Simplified: the processes use one common numbering of the unknowns and
    agree on the constrained ones; exact real numbers.  External: the
    distribution of the grid (YaspGrid, overlap of
    /repo/dune/multiscale/common/grid_creation.cc:45-46,57-58), and what the parallel
    solver makes of the parts (common/la_backend.hh:31-32, the same class for
    both systems): the parameter [together] of the last two definitions. *)
From Coq Require Import Reals List Arith Bool.
From Verif Require Import Util RSum CoarseModel LinModel SystemModel FemModel.
Import ListNotations.
Open Scope R_scope.

Section Cells.
Variable C : Type.

(** A cell of the distributed grid: the process for which it is an interior
    cell (partition type, /repo/dune/multiscale/common/traits.hh:96-97) and the processes which hold
    it, as interior or overlap cell. *)
Record placed := { pl_owner : nat; pl_held : nat -> bool; pl_cell : C }.

(** leafGridView<InteriorBorderPartition> of process [r]: the grid view of the
    coarse assembler (coarse_scale_operator.cc:41), of its partitioning (54-57)
    and of the functionals (58-70). *)
Definition interior_cells (r : nat) (grid : list placed) : list C :=
  map pl_cell (filter (fun x => Nat.eqb (pl_owner x) r) grid).
(** The grid view of the space on process [r]: all cells (fem_solver.cc:83, the
    assembler is built from the space alone). *)
Definition held_cells (r : nat) (grid : list placed) : list C :=
  map pl_cell (filter (fun x => pl_held x r) grid).
(** One process holds all cells: both views above are the whole grid
    (coarse_scale_operator.cc:54, fem_solver.cc:83). *)
Definition all_cells (grid : list placed) : list C := map pl_cell grid.
End Cells.

Section Par.
Variable d : nat.
Variable P : Type.
Variable diffusion : P -> nat -> nat -> R.
Variable source : P -> R.
Variable neumann : P -> R.
(** When the solver, given matrix and vector of every process, accepts a
    vector as solution (coarse_scale_operator.cc:109-110,123,
    fem_solver.cc:106-107,124). *)
Variable together : (nat -> matrix) -> (nat -> vector) -> vector -> Prop.

(** Constructor of the coarse operator on process [r],
    coarse_scale_operator.cc:72-78: walk over the interior cells. *)
Definition coarse_part (r : nat) (grid : list (placed (coarse_cell P * list (cface P)))) : option (matrix * vector) :=
  walk d P diffusion source neumann (fun _ _ => 0) (fun _ => 0) (interior_cells _ r grid).
(** First walk of the reference solver on process [r], fem_solver.cc:83-88. *)
Definition reference_part (r : nat) (grid : list (placed (fcell P * list (cface P)))) : matrix * vector :=
  fem_walk d P diffusion source neumann (held_cells _ r grid).

(** Coarse system on processes 0 .. np-1: every process subtracts its action on
    the lifting and constrains its system (coarse_scale_operator.cc:79-91); the
    solution gets the lifting back (133). *)
Definition coarse_parallel (np N : nat) (constrained : nat -> bool) (g : nat -> R)
    (grid : list (placed (coarse_cell P * list (cface P)))) (sol : nat -> R) : Prop :=
  let p := project_dirichlet constrained g (fun _ => 0) in
  exists (M : nat -> matrix) (V : nat -> vector) x,
    (forall r, (r < np)%nat -> coarse_part r grid = Some (M r, V r)) /\
    together (fun r => reduced_matrix constrained (M r)) (fun r => reduced_rhs N constrained (M r) (V r) p) x /\
    forall i, (i < N)%nat -> sol i = x i + p i.
(** The same for the reference solver, fem_solver.cc:76,91-101,124,128. *)
Definition reference_parallel (np N : nat) (constrained : nat -> bool) (g start : nat -> R)
    (grid : list (placed (fcell P * list (cface P)))) (sol : nat -> R) : Prop :=
  let p := project_dirichlet constrained g start in
  exists x,
    together (fun r => reduced_matrix constrained (fst (reference_part r grid)))
             (fun r => reduced_rhs N constrained (fst (reference_part r grid)) (snd (reference_part r grid)) p) x /\
    forall i, (i < N)%nat -> sol i = x i + p i.
End Par.
