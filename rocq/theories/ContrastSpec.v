(** Vocabulary for C136: the coarse matrix and the matrix of the Laplacian. *)
From Coq Require Import Reals List Arith Bool.
From Verif Require Import Util RSum LinModel LinSpec QuadModel PatchSpec LayerSpec.
Import ListNotations.
Open Scope R_scope.

(** The largest diffusion is at most [beta]. *)
Definition at_most (d : nat) (beta : R) (A : nat -> nat -> R) : Prop :=
  forall z : nat -> R, dot d (mv d A z) z <= beta * dot d z z.

(** At all points inside the cells of the local grid. *)
Definition throughout (p : patch) (P : list R -> Prop) : Prop :=
  forall f xs, In f (cells (pa_cells p)) -> length xs = length (pa_cells p) -> Forall (fun x => 0 < x < 1) xs -> P (pa_global p f xs).

(** Integral of the square of the gradient of the coarse function with node
    values [u] over the coarse cell [cs] (two Gauss points per direction are
    exact): its energy for diffusion one. *)
Definition gradient_square (hs : list R) (num : list nat -> nat) (u : nat -> R) (cs : list nat) : R :=
  volume hs * lsum (cube_rule (length hs) 2) (fun q =>
    snd q * dot (length hs) (grad hs (fun js => u (num js)) cs (fst q)) (grad hs (fun js => u (num js)) cs (fst q))).

(** The stored functions vanish at the outer nodes of the local grid. *)
Definition clamped (p : patch) (cs : list nat) (x : nat -> nat -> R) : Prop :=
  forall i js, (i < length (corners cs))%nat -> node (pa_cells p) js -> outer_node (pa_cells p) js = true -> x i (pa_num p js) = 0.

(** Sum of the squares of the inverse edge lengths. *)
Definition inverse_squares (hs : list R) : R := fold_right (fun h s => / (h * h) + s) 0 hs.
