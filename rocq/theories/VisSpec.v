(** Vocabulary for C86: a box divided into coarse cells, each divided into
    fine cells. *)
From Coq Require Import List Arith ZArith QArith Bool.
From Verif Require Import Util GridModel VisModel.
Import ListNotations.
Open Scope Z_scope.

(** One direction: ends of the domain, coarse cells, fine cells per coarse cell. *)
Record direction : Type := { d_lo : Q; d_hi : Q; d_n : Z; d_m : Z }.
Definition direction_ok (d : direction) : Prop := (d_lo d < d_hi d)%Q /\ 0 < d_n d /\ 0 < d_m d.

(** Coarse cell number [c] and fine cell number [j] of a direction. *)
Definition coarse_interval (d : direction) (c : Z) : Q * Q :=
  (node (d_lo d) (d_hi d) (d_n d) c, node (d_lo d) (d_hi d) (d_n d) (c + 1)).
Definition fine_interval (d : direction) (j : Z) : Q * Q :=
  (node (d_lo d) (d_hi d) (d_n d * d_m d) j, node (d_lo d) (d_hi d) (d_n d * d_m d) (j + 1)).
Definition coarse_box (ds : list direction) (cs : list Z) : box :=
  map (fun p => coarse_interval (fst p) (snd p)) (combine ds cs).
Definition fine_box (ds : list direction) (js : list Z) : box :=
  map (fun p => fine_interval (fst p) (snd p)) (combine ds js).

(** The coarse cell a fine cell belongs to. *)
Definition parent (ds : list direction) (js : list Z) : list Z :=
  map (fun p => snd p / d_m (fst p)) (combine ds js).

(** Grid walks: coarse cells with their ids, fine cells numbered by their
    position. *)
Definition coarse_walk (ds : list direction) (cells : list (Z * list Z)) : list coarse_entity :=
  map (fun p => {| ce_id := fst p; ce_box := coarse_box ds (snd p) |}) cells.
Definition fine_walk (ds : list direction) (fines : list (list Z)) : list fine_entity :=
  map (fun p => {| fe_index := fst p; fe_box := fine_box ds (snd p) |})
      (combine (seq 0 (length fines)) fines).
Definition multi_index (ds : list direction) (js : list Z) : Prop := length js = length ds.
