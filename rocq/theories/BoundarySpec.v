(** Vocabulary for C77, C78. *)
From Coq Require Import List Arith Bool.
From Verif Require Import Util SpeModel.
Import ListNotations.

(** Side of a [dim]-dimensional box. *)
Definition is_side (dim : nat) (f : face) : Prop := f_axis f < dim.

(** Multi-indices of the nodes of a box grid with [ns] cells per axis. *)
Definition is_node (ns js : list nat) : Prop :=
  length js = length ns /\ forall i, i < length ns -> nth i js 0 <= nth i ns 0.

(** The node lies on the boundary of the box. *)
Definition on_boundary (ns js : list nat) : Prop :=
  exists i, i < length ns /\ (nth i js 0 = 0 \/ nth i js 0 = nth i ns 0).

(** The node lies on the lower ([up = false]) or upper side along axis [i]. *)
Definition on_side (ns js : list nat) (i : nat) (up : bool) : Prop :=
  nth i js 0 = (if up then nth i ns 0 else 0).
