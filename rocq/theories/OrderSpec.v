(** Vocabulary for C115: the same grid numbered and visited in another order. *)
From Coq Require Import Reals List Arith Bool Permutation.
From Verif Require Import Util RSum LinModel CoarseModel SystemModel FemModel.
Import ListNotations.
Open Scope R_scope.

(** [p] renumbers 0 .. n-1, [r] is its inverse. *)
Definition renumbering (n : nat) (p r : nat -> nat) : Prop :=
  (forall i, (i < n)%nat -> (p i < n)%nat /\ r (p i) = i) /\
  (forall j, (j < n)%nat -> (r j < n)%nat /\ p (r j) = j).

(** Two lists with corresponding entries in any order. *)
Definition matched {A B} (Q : A -> B -> Prop) (l : list A) (l' : list B) : Prop :=
  exists m, Permutation l' m /\ Forall2 Q l m.

(** Quadrature points of a local grid whose nodes are renumbered by [p]. *)
Definition same_point (n : nat) (p : nat -> nat) (q q' : qpoint) : Prop :=
  q_w q' = q_w q /\ (forall i j, q_A q' i j = q_A q i j) /\
  (forall i k, (i < n)%nat -> q_grad q' (p i) k = q_grad q i k).

Section Spec.
Variable P : Type.

Definition same_face (f f' : cface P) : Prop :=
  cf_neumann P f' = cf_neumann P f /\ Permutation (cf_quad P f') (cf_quad P f).

(** Local element whose first [n] functions are in the order [s]; the two
    boundary correctors stay in their places. *)
Definition same_local (n : nat) (s : nat -> nat) (l l' : local_cell P) : Prop :=
  (forall x, lc_global P l' x = lc_global P l x) /\ (forall x, lc_factor P l' x = lc_factor P l x) /\
  (forall i x k, (i < n)%nat -> lc_grad P l' (s i) x k = lc_grad P l i x k) /\
  (forall i x, (i < n)%nat -> lc_val P l' (s i) x = lc_val P l i x) /\
  (forall i x k, (n <= i)%nat -> lc_grad P l' i x k = lc_grad P l i x k) /\
  Permutation (lc_quad P l') (lc_quad P l) /\ Permutation (lc_rquad P l') (lc_rquad P l).

(** Coarse cell with corners in the order [s] and global numbers renumbered by
    [p]; what is not covered by the coarse cell is not compared. *)
Definition same_coarse (p : nat -> nat) (c c' : coarse_cell P * list (cface P)) : Prop :=
  exists s r, renumbering (cc_n P (fst c)) s r /\ cc_n P (fst c') = cc_n P (fst c) /\
  (forall i, (i < cc_n P (fst c))%nat ->
     cc_index P (fst c') (s i) = p (cc_index P (fst c) i) /\
     (forall x k, cc_grad P (fst c') (s i) x k = cc_grad P (fst c) i x k) /\
     (forall x, cc_val P (fst c') (s i) x = cc_val P (fst c) i x)) /\
  matched (same_local (cc_n P (fst c)) s) (filter (lc_covered P) (cc_locals P (fst c))) (filter (lc_covered P) (cc_locals P (fst c'))) /\
  matched same_face (snd c) (snd c').

(** Fine cell, in the same way. *)
Definition same_fine (p : nat -> nat) (c c' : fcell P * list (cface P)) : Prop :=
  exists s r, renumbering (fc_n P (fst c)) s r /\ fc_n P (fst c') = fc_n P (fst c) /\
  (forall i, (i < fc_n P (fst c))%nat ->
     fc_index P (fst c') (s i) = p (fc_index P (fst c) i) /\
     (forall x k, fc_grad P (fst c') (s i) x k = fc_grad P (fst c) i x k) /\
     (forall x, fc_val P (fst c') (s i) x = fc_val P (fst c) i x)) /\
  (forall x, fc_global P (fst c') x = fc_global P (fst c) x) /\ (forall x, fc_factor P (fst c') x = fc_factor P (fst c) x) /\
  Permutation (fc_quad P (fst c')) (fc_quad P (fst c)) /\ Permutation (fc_rquad P (fst c')) (fc_rquad P (fst c)) /\
  matched same_face (snd c) (snd c').
End Spec.
