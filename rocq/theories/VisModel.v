(** The pictures of the local grids written by the program thread_vis.

    /repo/src/thread_vis.cc:25-42,86-154 and covers_strict,
    /repo/dune/multiscale/msfem/localproblems/localgridlist.hh:73-85.
    Simplified: coordinates are exact rationals, cells are boxes, a piecewise
    constant function maps the number of a fine cell to its value; VTK output
    is external. *)
From Coq Require Import List Arith ZArith QArith Bool Ascii.
From Verif Require Import Util GridModel.
Import ListNotations.

(** Geometry of a cell, localgridlist.hh:73-85. *)
Definition box : Type := list (Q * Q).      (* lower and upper end per direction *)

(** geometry().corner(i), all corners (localgridlist.hh:80). *)
Fixpoint corners (b : box) : list (list Q) :=
  match b with
  | [] => [[]]
  | (lo, hi) :: r => let cs := corners r in map (cons lo) cs ++ map (cons hi) cs
  end.

(** checkInside of the local coordinate (localgridlist.hh:73-85), external; exact. *)
Fixpoint check_inside (cell : box) (x : list Q) : bool :=
  match cell, x with
  | (lo, hi) :: r, y :: ys =>
      let l := ((y - lo) / (hi - lo))%Q in
      Qle_bool 0 l && Qle_bool l 1 && check_inside r ys
  | _, _ => true
  end.

(** covers_strict, localgridlist.hh:73-85. *)
Definition covers_strict (coarse fine : box) : bool := forallb (check_inside coarse) (corners fine).

(** A coarse cell and its id, thread_vis.cc:119-121. *)
Record coarse_entity : Type := { ce_id : Z; ce_box : box }.
(** A fine cell and its index, thread_vis.cc:134-136. *)
Record fine_entity : Type := { fe_index : nat; fe_box : box }.

(** A function on the fine cells (thread_vis.cc:112-113, 127-132); None: never created (null
    pointer). *)
Definition picture : Type := option (nat -> Z).

(** id_to_ulong, thread_vis.cc:86-96: 32 bits. *)
Definition id_to_ulong (id : Z) : Z := Z.modulo id 4294967296.

(** local vector().set for one fine cell, lines 136-139: one value per cell. *)
Definition set_cell (f : nat -> Z) (i : nat) (v : Z) : nat -> Z :=
  fun j => if Nat.eqb j i then v else f j.

(** The loop over the fine cells, lines 134-148. *)
Definition mark (c : coarse_entity) (fines : list fine_entity) : nat -> Z :=
  fold_left (fun f e => if covers_strict (ce_box c) (fe_box e)
                        then set_cell f (fe_index e) (id_to_ulong (ce_id c)) else f)
            fines (fun _ => 0%Z).

(** The loop over the coarse cells, lines 119-150, on the remaining places of
    the two vectors. None: exception "grid element count mismatch", line 124. *)
Fixpoint subgrid_loop (cs : list coarse_entity) (fines : list fine_entity) (places : nat) :
  option (list picture * list picture) :=
  match cs with
  | [] => Some (repeat None places, repeat None places)
  | c :: r =>
    match places with
    | O => None
    | S p =>
      match subgrid_loop r fines p with
      | None => None
      | Some (os, fs) => Some (Some (mark c fines) :: os, Some (fun _ => 0%Z) :: fs)
      end
    end
  end.

(** output_all, lines 25-42: each function is dereferenced (line 35). *)
Fixpoint output_all (l : list picture) : option (list (nat -> Z)) :=
  match l with
  | [] => Some []
  | None :: _ => None                                  (* null pointer: undefined *)
  | Some f :: r => match output_all r with None => None | Some fs => Some (f :: fs) end
  end.

(** How subgrid_vis ends, thread_vis.cc:98-154. *)
Inductive vresult : Type :=
| Shown (oversampled functions : list (nat -> Z))
| Mismatch                                             (* exception, line 124 *)
| NullAccess.                                          (* undefined behaviour *)

(** subgrid_vis, lines 98-154; [size] is the number of local grids. *)
Definition subgrid_vis (size : nat) (cs : list coarse_entity) (fines : list fine_entity) : vresult :=
  match subgrid_loop cs fines size with
  | None => Mismatch
  | Some (os, fs) =>
    match output_all os, output_all fs with
    | Some a, Some b => Shown a b
    | _, _ => NullAccess
    end
  end.
