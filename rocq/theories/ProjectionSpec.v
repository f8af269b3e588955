(** Vocabulary for C29-C31. *)
From Coq Require Import List Arith ZArith QArith Lia Bool.
From Verif Require Import Util ProjectionModel.
Import ListNotations.

(** Number of (element, corner) incidences of a node. *)
Definition incidences (leaf : list (list nat)) (i : nat) : nat :=
  count_occ Nat.eq_dec (concat leaf) i.

(** Nodes of an element of the walk. *)
Definition nodes_of (es : list element) : list nat := map fst (concat es).

(** The source has the value [u i] at node [i] whatever element asks. *)
Definition single_valued (u : nat -> Q) (es : list element) : Prop :=
  forall e i x, In e es -> In (i, x) e -> exists y, x = Some y /\ y == u i.

(** [nnodes] nodes, all elements use existing nodes and every node is used. *)
Definition mesh_ok (nnodes : nat) (leaf : list (list nat)) : Prop :=
  (forall e i, In e leaf -> In i e -> (i < nnodes)%nat) /\
  (forall i, (i < nnodes)%nat -> exists e, In e leaf /\ In i e).

(** Equality of vectors of rationals. *)
Definition veq (v w : list Q) : Prop := Forall2 Qeq v w.
