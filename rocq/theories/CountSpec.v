(** Vocabulary for C122. *)
From Coq Require Import List Arith.
From Verif Require Import CountModel.
Import ListNotations.

(** A part of a grid: in every direction at least one cell and no more than there are. *)
Definition valid (p : list extent) : Prop := Forall (fun e => lo e < hi e /\ hi e <= total e) p.
(** The process holds the whole grid. *)
Definition whole (p : list extent) : Prop := Forall (fun e => lo e = 0 /\ hi e = total e) p.

Definition prod (l : list nat) : nat := fold_right Nat.mul 1 l.

(** Cells of the domain; of the process; of the process away from the boundary of
    the domain. *)
Definition all_cells (p : list extent) : nat := prod (map total p).
Definition own_cells (p : list extent) : nat := prod (map (fun e => hi e - lo e) p).
Definition inner_cells (p : list extent) : nat := prod (map (fun e => Nat.min (hi e) (total e - 1) - Nat.max (lo e) 1) p).
(** Cells of the overlap in one direction. *)
Definition extra (o : nat) (e : extent) : nat := Nat.min o (lo e) + Nat.min o (total e - hi e).
