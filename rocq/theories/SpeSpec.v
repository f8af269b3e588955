(** Vocabulary for C50-C52, C54, C71. *)
From Coq Require Import ZArith QArith List Arith.
From Verif Require Import Util SpeModel.
Import ListNotations.
Open Scope nat_scope.

(** Cell [w] of [ne] equal cells of [ll, ur] holds [c]; cells are closed below
    and open above, the last one is closed. *)
Definition in_cell (ne : Z) (ll ur c : Q) (w : Z) : Prop :=
  (0 <= w < ne)%Z /\
  (inject_Z w * (ur - ll) <= inject_Z ne * (c - ll))%Q /\
  ((inject_Z ne * (c - ll) < inject_Z (w + 1) * (ur - ll))%Q \/ (w = ne - 1)%Z /\ (c == ur)%Q).

(** The SPE10 grid has 60 x 220 x 85 cells, numbered with x fastest. *)
Definition spe_cells (dd : nat) : Z := match dd with 0 => 60 | 1 => 220 | _ => 85 end.
Definition tar_cells (dd : nat) : Z := match dd with 0 => 60 | 1 => 220 | _ => 35 end.
Definition number (w : nat -> Z) : Z := (w 0%nat + 60 * (w 1%nat + 220 * w 2%nat))%Z.
(** Entry for diagonal element [k] of cell [w]. *)
Definition entry (k : nat) (w : nat -> Z) : nat := Z.to_nat (Z.of_nat k * 1122000 + number w).

(** The configured boxes: SPE10 in units, Tarbert with cells of 20 x 10 x 2
    feet in metres. *)
Definition spe_box (dd : nat) : Q := match dd with 0 => 2%Q | 1 => 5%Q | _ => 1%Q end.
Definition tar_box (dd : nat) : Q :=
  (inject_Z (tar_cells dd) * match dd with 0%nat => 20 | 1%nat => 10 | _ => 2 end * 0.3048)%Q.

(** The readable numbers at the beginning of a file. *)
Fixpoint leading (ws : list word) : list Q :=
  match ws with Num q :: r => q :: leading r | _ => [] end.

(** The documented range of the permeabilities. *)
Definition file_min : Q := 0.0000000665%Q.
Definition file_max : Q := 20000%Q.

(** The affine map sending the documented range to [mn, mx]. *)
Definition affine (mn mx v : Q) : Q :=
  (mn + (v - file_min) * ((mx - mn) / (file_max - file_min)))%Q.

Definition all_numbers (ws : list word) : Prop := forall w, In w ws -> exists q, w = Num q.

(** What Tarbert's reader stores of the values of a file. *)
Definition kept (vs : list Q) (space : bool) : list Q := if space then vs else removelast vs.
