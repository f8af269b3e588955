(** Vocabulary for C120: linear systems that are not solved exactly. *)
From Coq Require Import Reals List Arith Bool.
From Verif Require Import Util RSum LinModel LinSpec PatchSpec LayerSpec.
Import ListNotations.
Open Scope R_scope.

(** Sum of the squares of the node values. *)
Definition squares (n : nat) (v : nat -> R) : R := rsum n (fun i => v i * v i).

(** What is missing in the equations that belong to no constrained unknown. *)
Definition residual (n : nat) (constrained : nat -> bool) (A : nat -> nat -> R) (b w : nat -> R) : nat -> R :=
  fun i => if constrained i then 0 else b i - rsum n (fun j => A i j * w j).

(** The smallest diffusion is at least [alpha]. *)
Definition at_least (d : nat) (alpha : R) (A : nat -> nat -> R) : Prop :=
  forall z : nat -> R, alpha * dot d z z <= dot d (mv d A z) z.

(** In the direction [a] all nodes of the layer [e] are constrained. *)
Definition layer_constrained (ns : list nat) (num : list nat -> nat) (con : nat -> bool) (a e : nat) : Prop :=
  (a < length ns)%nat /\ (e <= nth a ns 0)%nat /\ forall js, node ns js -> nth a js 0%nat = e -> con (num js) = true.

(** The constant for a grid of boxes: [alpha] times the volume of a box, over the
    square of the extent in the direction [a] and 6 for every other direction. *)
Definition stiffness_bound (ns : list nat) (hs : list R) (alpha : R) (a : nat) : R :=
  alpha * volume hs / ((INR (nth a ns 0%nat) * nth a hs 0) * (INR (nth a ns 0%nat) * nth a hs 0) * 6 ^ pred (length ns)).

(** [x i]: what the solver of the local problems returned for the corner [i] of
    the coarse cell [cs]: right at the constrained nodes, with the residual
    [r i] elsewhere. *)
Definition nearly_corrected (hs : list R) (num : list nat -> nat) (diffusion : list R -> nat -> nat -> R) (order rhs_order : nat)
    (p : patch) (cs : list nat) (x r : nat -> nat -> R) : Prop :=
  forall i, (i < length (corners cs))%nat ->
    vanishes (pa_n p) (pa_con p) (x i) /\
    exists y, (forall js, node (pa_cells p) js ->
                 y (pa_num p js) = restricted hs p (one_at num (num (nth i (corners cs) []))) cs js) /\
    forall m, (m < pa_n p)%nat -> r i m = residual (pa_n p) (pa_con p) (stiffness (length hs) (patch_points (length hs) order diffusion p))
      (local_rhs (length hs) (patch_points (length hs) rhs_order diffusion p) (field_of (pa_n p) y)) (x i) m.
