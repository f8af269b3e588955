(** Vocabulary for C85: what was configured when. *)
From Coq Require Import List Arith ZArith QArith Bool String.
From Verif Require Import Util GridModel LocalGridModel ConfModel.
Import ListNotations.
Open Scope string_scope.

(** Value of a vector key in the global configuration after the operations. *)
Fixpoint last_vec (key : string) (start : option (list Q)) (os : list op) : option (list Q) :=
  match os with
  | [] => start
  | SetVec k v :: r => last_vec key (if String.eqb k key then Some v else start) r
  | _ :: r => last_vec key start r
  end.
Fixpoint last_int (key : string) (start : option Z) (os : list op) : option Z :=
  match os with
  | [] => start
  | SetInt k v :: r => last_int key (if String.eqb k key then Some v else start) r
  | _ :: r => last_int key start r
  end.

(** Number of containers made. *)
Fixpoint made (os : list op) : nat :=
  match os with [] => 0 | NewContainer _ _ :: r => S (made r) | _ :: r => made r end.

(** Width of the cells of a created grid in direction [i]. *)
Definition grid_width (g : grid) (i : nat) : Q :=
  ((nth i (GridModel.g_ur g) 0 - nth i (GridModel.g_ll g) 0) / inject_Z (nth i (g_elements g) 0%Z))%Q.

Definition key_macro := "grids.macro_cells_per_dim".
Definition key_micro := "grids.micro_cells_per_macrocell_dim".
Definition key_layers := "msfem.oversampling_layers".
