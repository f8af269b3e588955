(** Vocabulary for C109. *)
From Coq Require Import Reals List Arith Bool.
From Verif Require Import Util RSum CoarseModel CoarseSpec SystemModel FemModel LinModel ParModel PatchSpec.
Import ListNotations.
Open Scope R_scope.

(** Two ways to read the parts of a distributed system as one system: every
    process [owner a] has the complete row [a]; the parts are to be added. *)
Definition by_rows (N : nat) (owner : nat -> nat) (A : nat -> matrix) (b : nat -> vector) (x : vector) : Prop :=
  forall a, (a < N)%nat -> mv N (A (owner a)) x a = b (owner a) a.
Definition by_sum (N np : nat) (A : nat -> matrix) (b : nat -> vector) (x : vector) : Prop :=
  forall a, (a < N)%nat -> rsum np (fun r => mv N (A r) x a) = rsum np (fun r => b r a).

(** The cell has a basis function with number [a]. *)
Definition touches {P} (c : coarse_cell P) (a : nat) : Prop := exists i, (i < cc_n P c)%nat /\ cc_index P c i = a.
Definition touches_fine {P} (c : fcell P) (a : nat) : Prop := exists i, (i < fc_n P c)%nat /\ fc_index P c i = a.

(** Cells of a box grid at most one apart in every direction. *)
Definition near (cs cs' : list nat) : Prop := Forall2 (fun a b => (a <= S b /\ b <= S a)%nat) cs cs'.

(** A box grid distributed with an overlap of at least one cell: the cell at
    [place x] has its corners as nodes, and a process which owns a cell holds
    all cells near it. *)
Definition overlapping {P} (ns : list nat) (num : list nat -> nat) (n : nat)
    (grid : list (placed (fcell P * list (cface P)))) (place : placed (fcell P * list (cface P)) -> list nat) : Prop :=
  numbering ns num n /\
  (forall x, In x grid -> In (place x) (cells ns) /\
     fc_n P (fst (pl_cell _ x)) = length (corners (place x)) /\
     forall i, (i < length (corners (place x)))%nat -> fc_index P (fst (pl_cell _ x)) i = num (nth i (corners (place x)) [])) /\
  (forall x y, In x grid -> In y grid -> near (place x) (place y) -> pl_held _ y (pl_owner _ x) = true).

(** Energy of the corrected basis function [i] on a cell. *)
Definition own_energy (d : nat) (P : Type) (diffusion : P -> nat -> nat -> R) (c : coarse_cell P) (i : nat) : R :=
  lsum (covered P c) (fun l => energy d P diffusion l (used_grad P c l i) (used_grad P c l i)).
