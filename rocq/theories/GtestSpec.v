(** Vocabulary for C106. *)
From Coq Require Import List Arith ZArith QArith Bool.
From Verif Require Import Util GridModel GridSpec LocalGridModel SearchModel SearchSpec GtestModel.
Import ListNotations.
Open Scope Q_scope.

(** A box with positive widths. *)
Definition solid (b : box) : Prop := Forall (fun iv => fst iv < snd iv) b.

(** A point of a box. *)
Definition lies_in (p : point) (b : box) : Prop := Forall2 (fun x iv => fst iv <= x /\ x <= snd iv) p b.

(** A box with positive widths, divided into positive numbers of cells. *)
Inductive proper : list Q -> list Q -> list Z -> Prop :=
| proper_nil : proper [] [] []
| proper_cons : forall a b n ll ur ns,
    a < b -> (0 < n)%Z -> proper ll ur ns -> proper (a :: ll) (b :: ur) (n :: ns).

(** In every direction the nodes of the grid with [ns] cells are nodes of the
    one with [ks] cells. *)
Inductive refines : list Q -> list Q -> list Z -> list Z -> Prop :=
| refines_nil : refines [] [] [] []
| refines_cons : forall a b n k ll ur ns ks,
    nested a b n k -> refines ll ur ns ks -> refines (a :: ll) (b :: ur) (n :: ns) (k :: ks).

(** The tolerance is smaller than a cell of the fine grid in the coordinates of
    the coarse cell. *)
Definition fine_tolerance (eps : Q) (ks : list Z) : Prop :=
  0 <= eps /\ forall k, In k ks -> eps * inject_Z k < 1.

(** Every local grid answers for the points of its cell, and one entry per
    point. *)
Definition reliable (ent : Type) (eps : Q) (lookup : nat -> box -> list point -> list (option ent))
    (cells : list box) : Prop :=
  complete box point ent (fun c p => reference_inside eps (to_local c p)) lookup cells /\
  sized box point ent lookup.

(** The corners of the cells reach from [lo] to [hi] in direction [i]. *)
Definition reaches (i : nat) (lo hi : Q) (view : list box) : Prop :=
  (forall b p, In b view -> In p (corners b) -> lo <= nth i p 0 /\ nth i p 0 <= hi) /\
  (exists b p, In b view /\ In p (corners b) /\ nth i p 0 == lo) /\
  (exists b p, In b view /\ In p (corners b) /\ nth i p 0 == hi).
