(** Vocabulary for C139: the multiscale solution and the range of its boundary
    values. *)
From Coq Require Import Reals List Arith Bool.
From Verif Require Import Util RSum LinModel LinSpec QuadModel PatchSpec SolveSpec LayerSpec RaiseSpec.
Import ListNotations.
Open Scope R_scope.

(** Without correctors: energy of the function with values [v] at the corners
    of the coarse cell [a; b], for the mean of the diffusions. *)
Definition plain (h1 h2 : R) (k v : list nat -> R) (cs : list nat) : R :=
  match cs with
  | [a; b] => all_parts k / 4 * (h2 / h1 * (side1 v a b * side1 v a b) + h1 / h2 * (side2 v a b * side2 v a b) +
                                 (h2 / h1 + h1 / h2) * (twist v a b * twist v a b) / 12)
  | _ => 0
  end.

(** Entry of the coarse matrix for two opposite corners of a coarse cell; [d]:
    the two differences of the diffusions of the halves, added for the corners
    that lie lower left and upper right, subtracted for the others. *)
Definition opposite_entry (h1 h2 : R) (k : list nat -> R) (d : R) : R :=
  (h2 / h1 + h1 / h2) * (across k * across k) / (64 * all_parts k)
  + 3 * (d * d) / (64 * (h2 / h1 + h1 / h2) * all_parts k)
  - (h2 / h1 + h1 / h2) * all_parts k / 24.

(** Coarse function of a node. *)
Definition at_corner (c js : list nat) : R := if list_eq_dec Nat.eq_dec js c then 1 else 0.

(** Coarse cells with a face in the boundary. *)
Fixpoint edge_cell (ns cs : list nat) : bool :=
  match ns, cs with
  | n :: ns', c :: cs' => Nat.eqb c 0 || Nat.eqb (S c) n || edge_cell ns' cs'
  | _, _ => false
  end.
(** Right hand sides of the two boundary correctors of every coarse cell if no
    face carries a prescribed flux (localoperator.cc:41-76, 130-135, 151-152):
    zero for the flux; for the values, in cells at the boundary, from the coarse
    function with the prescribed values at the constrained nodes and zero at the
    others; zero in the other cells (localproblemsolver.cc:105-109). *)
Definition boundary_sides (ns : list nat) (hs : list R) (num : list nat -> nat) (con : nat -> bool) (g : nat -> R) (pa : list nat -> patch)
    (diffusion : list R -> nat -> nat -> R) (rhs_order : nat) (extra : list nat -> nat -> nat -> R) : Prop :=
  forall cs, In cs (cells ns) ->
    (forall m, extra cs (length (corners cs)) m = 0) /\
    if edge_cell ns cs then
      exists y, (forall js, node (pa_cells (pa cs)) js ->
        y (pa_num (pa cs) js) = restricted hs (pa cs) (fun js => if con (num js) then g (num js) else 0) cs js) /\
        extra cs (length (corners cs) + 1)%nat =
          local_rhs (length hs) (patch_points (length hs) rhs_order diffusion (pa cs)) (field_of (pa_n (pa cs)) y)
    else forall m, extra cs (length (corners cs) + 1)%nat m = 0.
