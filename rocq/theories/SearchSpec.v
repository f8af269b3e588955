(** Vocabulary for C24-C28. *)
From Coq Require Import List Arith Lia Bool.
From Verif Require Import Util SearchModel.
Import ListNotations.

Section Spec.
Variables cell point ent : Type.
Variable inside : cell -> point -> bool.
Variable lookup : nat -> cell -> list point -> list (option ent).
Variable cells : list cell.
Variable wsize : nat.

(** All points are inside the cell. *)
Definition contains (c : cell) (ps : list point) : Prop := forall p, In p ps -> inside c p = true.

(** The per-grid search of a cell that contains all points finds an entity
    for every point. *)
Definition complete : Prop :=
  forall n c ps, In c cells -> contains c ps ->
  exists es, lookup n c ps = map Some es /\ length es = length ps.

(** Answers have one entry per point (no completeness). *)
Definition sized : Prop := forall n c ps, length (lookup n c ps) = length ps.

(** Position is not past the end. *)
Definition in_range (st : sstate cell) : Prop :=
  match s_it st with None => cells <> [] | Some i => i < length cells end.

(** The [k]-th position visited when starting at [i]. *)
Definition cyc (i k : nat) : nat := Nat.modulo (i + k) (length cells).

Definition start (st : sstate cell) : nat := match s_it st with None => 0 | Some i => i end.

(** [c] is the first cell, in cyclic order from the current position, that
    contains all points; [k] cells are visited before it. *)
Definition first_containing (st : sstate cell) (ps : list point) (k : nat) (c : cell) : Prop :=
  k < length cells /\ nth_error cells (cyc (start st) k) = Some c /\ contains c ps /\
  forall k' c', k' < k -> nth_error cells (cyc (start st) k') = Some c' -> ~ contains c' ps.
End Spec.

(** The non-null answers of the cells [cs], asked one after the other from the
    [n]-th per-grid search on. *)
Fixpoint answers {cell point ent} (lookup : nat -> cell -> list point -> list (option ent))
    (n : nat) (cs : list cell) (ps : list point) : list ent :=
  match cs with
  | [] => []
  | c :: r => flat_map (fun o => match o with Some e => [e] | None => [] end) (lookup n c ps)
              ++ answers lookup (S n) r ps
  end.
