(** Vocabulary for C111: local grids of boxes around the cells of a coarse
    grid of boxes. *)
From Coq Require Import Reals List Arith Bool.
From Verif Require Import Util RSum LinModel LinSpec QuadModel CoarseModel SystemModel PatchSpec SolveSpec.
Import ListNotations.
Open Scope R_scope.

(** A local grid: cells per direction, edge lengths, its lower corner in
    reference coordinates of the coarse cell, numbering of the nodes,
    constrained nodes, fine cells inside the coarse cell, global coordinates. *)
Record patch := {
  pa_cells : list nat;
  pa_edges : list R;
  pa_low : list R;
  pa_num : list nat -> nat;
  pa_n : nat;
  pa_con : nat -> bool;
  pa_inside : list nat -> bool;
  pa_global : list nat -> list R -> list R
}.

(** Reference coordinates in the coarse cell (edges [hs]) of the point with
    reference coordinates [xs] in the fine cell [fs] (edges [gs], lower corner of
    the grid at [os]); a node is a lower corner. *)
Fixpoint place (os gs hs : list R) (fs : list nat) (xs : list R) : list R :=
  match os, gs, hs, fs, xs with
  | o :: os', g :: gs', h :: hs', f :: fs', x :: xs' => o + (INR f + x) * (g / h) :: place os' gs' hs' fs' xs'
  | _, _, _, _, _ => []
  end.
(** Node values on the local grid of the coarse function [v]. *)
Definition restricted (hs : list R) (p : patch) (v : list nat -> R) (cs : list nat) : list nat -> R :=
  fun js => value v cs (place (pa_low p) (pa_edges p) hs js (map (fun _ => 0) js)).

(** A grid of boxes in [d] dimensions. *)
Definition sound (d : nat) (p : patch) : Prop :=
  length (pa_cells p) = d /\ length (pa_edges p) = d /\ length (pa_low p) = d /\
  Forall (fun m => (0 < m)%nat) (pa_cells p) /\ Forall (Rlt 0) (pa_edges p) /\
  numbering (pa_cells p) (pa_num p) (pa_n p).

(** Points of the rule of an order on the local grid. *)
Definition patch_points (d order : nat) (diffusion : list R -> nat -> nat -> R) (p : patch) : list qpoint :=
  grid_points d order (varied_elements (pa_cells p) (pa_edges p) (pa_num p) (fun f x => diffusion (pa_global p f x))).

(** [x i]: exact solutions of the local problems of the coarse cell [cs], one for
    each corner function. *)
Definition corrected (hs : list R) (num : list nat -> nat) (diffusion : list R -> nat -> nat -> R) (order rhs_order : nat)
    (p : patch) (cs : list nat) (x : nat -> nat -> R) : Prop :=
  forall i, (i < length (corners cs))%nat ->
    exists y, (forall js, node (pa_cells p) js ->
                 y (pa_num p js) = restricted hs p (one_at num (num (nth i (corners cs) []))) cs js) /\
    corrector (length hs) (patch_points (length hs) order diffusion p) (patch_points (length hs) rhs_order diffusion p)
      (pa_n p) (pa_con p) (field_of (pa_n p) y) (x i).

(** The local elements as the coarse assembler reads them; [x i]: values of the
    i-th stored function. *)
Definition patch_elements (p : patch) (line : list (R * R)) (rquad : list nat -> list (list R * R))
    (x : nat -> nat -> R) : list (local_cell (list R)) :=
  map (fun fs => {| lc_covered := pa_inside p fs; lc_global := pa_global p fs; lc_factor := fun _ => volume (pa_edges p);
                    lc_grad := fun i xs => grad (pa_edges p) (fun js => x i (pa_num p js)) fs xs;
                    lc_val := fun i xs => value (fun js => x i (pa_num p js)) fs xs;
                    lc_quad := product_rule line (length (pa_cells p)); lc_rquad := rquad fs |}) (cells (pa_cells p)).

(** Every coarse cell with its local functions and its faces. *)
Definition patched (ns : list nat) (hs : list R) (num : list nat -> nat) (pa : list nat -> patch) (line : list (R * R))
    (rquad : list nat -> list nat -> list (list R * R)) (x : list nat -> nat -> nat -> R)
    (fs : list nat -> list (cface (list R))) :=
  map (fun cs => (box_cell hs num cs (patch_elements (pa cs) line (rquad cs) (x cs)), fs cs)) (cells ns).
