(** Vocabulary for C124. *)
From Coq Require Import Reals List Arith Bool.
From Verif Require Import Util RSum CoarseModel CoarseSpec SmpModel.
Import ListNotations.
Local Open Scope nat_scope.

(** The first [n] threads use different storages. *)
Definition private (n : nat) (slot : nat -> nat) : Prop :=
  forall t u, t < n -> u < n -> slot t = slot u -> t = u.

(** No thread has anything left to do. *)
Definition finished (s : state) : Prop := forall t, s_rest s t = [].

(** As many functions are stored for the cell as the assemblers expect. *)
Definition complete_cell {P} (c : coarse_cell P) : Prop := cc_slots P c = cc_n P c + 2.

(** Every thread makes enough steps. *)
Definition fair (sched : list nat) (s : state) : Prop :=
  forall t, length (s_rest s t) <= count_occ Nat.eq_dec sched t.

(** The cell has a basis function with number [a]; both [a] and [b]. *)
Definition has_node {P} (c : coarse_cell P) (a : nat) : Prop := exists i, i < cc_n P c /\ cc_index P c i = a.
Definition has_pair {P} (c : coarse_cell P) (a b : nat) : Prop := has_node c a /\ has_node c b.
