(** Local grids (oversampling patches) of the coarse cells.

    /repo/dune/multiscale/msfem/localproblems/localgridlist.cc:27-125 and
    /repo/dune/multiscale/common/mygridfactory.hh:28-37, 66-81.
    Coordinates are exact rationals (floating point rounding is not
    modelled). The grid factory makes a tensor grid of equal cells; the
    containment check of the reference element (external) is exact. *)
From Coq Require Import List Arith ZArith QArith Qround Lia Bool.
From Verif Require Import Util.
Import ListNotations.

(** operator<, localgridlist.cc:66-67. *)
Definition Qlt_bool (a b : Q) : bool := negb (Qle_bool b a).
(** std::max, localgridlist.cc:64. *)
Definition qmax (a b : Q) : Q := if Qlt_bool a b then b else a.
(** std::min, localgridlist.cc:65. *)
Definition qmin (a b : Q) : Q := if Qlt_bool b a then b else a.

(** Input of one direction: gridCorners (localgridlist.cc:41-43), limits of the
    coarse entity (60-61), micro_cells_per_macrocell_dim (36-37),
    oversampling_layers (38). *)
Record axis : Type := {
  a_gll : Q; a_gur : Q; a_min : Q; a_max : Q; a_micro : Q; a_layers : Z
}.

(** localgridlist.cc:63 *)
Definition delta (a : axis) : Q := (a_max a - a_min a) / a_micro a.
(** localgridlist.cc:64-65 *)
Definition lower_left (a : axis) : Q := qmax (a_min a - inject_Z (a_layers a) * delta a) (a_gll a).
(** localgridlist.cc:65. *)
Definition upper_right (a : axis) : Q := qmin (a_max a + inject_Z (a_layers a) * delta a) (a_gur a).
(** localgridlist.cc:66-67 *)
Definition exceeds_left (a : axis) : bool :=
  Qlt_bool (a_min a - inject_Z (a_layers a) * delta a) (a_gll a).
(** localgridlist.cc:67. *)
Definition exceeds_right (a : axis) : bool :=
  Qlt_bool (a_gur a) (a_max a + inject_Z (a_layers a) * delta a).
(** int(!b), localgridlist.cc:69. *)
Definition int_not (b : bool) : Z := if b then 0 else 1.
(** localgridlist.cc:68-69; the conversion to unsigned truncates. *)
Definition elements_per_dim (a : axis) : Z :=
  Qfloor (a_micro a +
          inject_Z ((int_not (exceeds_left a) + int_not (exceeds_right a)) * a_layers a)).

(** One direction of the grid made by createLocalGrid (localgridlist.cc:73,
    mygridfactory.hh:28-37, 80): lower end, upper end, number of cells. *)
Record gaxis : Type := { g_lo : Q; g_hi : Q; g_n : Z }.
(** localgridlist.cc:59-70, 73: the data of one direction. *)
Definition local_axis (a : axis) : gaxis :=
  {| g_lo := lower_left a; g_hi := upper_right a; g_n := elements_per_dim a |}.

(** Geometry of the tensor grid created at localgridlist.cc:73 (external): cell width. *)
Definition width (g : gaxis) : Q := (g_hi g - g_lo g) / inject_Z (g_n g).
(** Nodes of the tensor grid (external, created at localgridlist.cc:73). *)
Definition node (g : gaxis) (j : Z) : Q := g_lo g + inject_Z j * width g.
(** geometry().center(), localgridlist.cc:122 (external). *)
Definition centre (g : gaxis) (j : Z) : Q := g_lo g + (inject_Z j + (1 # 2)) * width g.

(** covers, localgridlist.cc:119-125, one direction: the centre of local cell
    [j] mapped to the reference interval of the coarse cell. *)
Definition covers_axis (a : axis) (j : Z) : bool :=
  let x := (centre (local_axis a) j - a_min a) / (a_max a - a_min a) in
  (Qle_bool 0 x && Qle_bool x 1)%bool.
(** All directions, localgridlist.cc:119-125. *)
Definition covers (axes : list axis) (js : list Z) : bool :=
  forallb (fun p => covers_axis (fst p) (snd p)) (combine axes js).

(** covers_strict, localgridlist.hh:73-85: all corners of the local cell inside;
    for a box both end points in every direction. *)
Definition covers_strict_axis (a : axis) (j : Z) : bool :=
  let at_ y := (y - a_min a) / (a_max a - a_min a) in
  let g := local_axis a in
  (Qle_bool 0 (at_ (node g j)) && Qle_bool (at_ (node g j)) 1 &&
   Qle_bool 0 (at_ (node g (j + 1))) && Qle_bool (at_ (node g (j + 1))) 1)%bool.
(** All directions, localgridlist.hh:73-85. *)
Definition covers_strict (axes : list axis) (js : list Z) : bool :=
  forallb (fun p => covers_strict_axis (fst p) (snd p)) (combine axes js).

(** Coarse entity: index in the leaf index set (localgridlist.cc:50), partition
    type (49), directions (54-61). *)
Record entity : Type := { e_index : nat; e_interior : bool; e_axes : list axis }.

(** Outcome of operations guarded by assertions, localgridlist.cc:49, 52, 80, 95. *)
Inductive res (A : Type) : Type := Done (x : A) | AssertFails.
Arguments Done {A} x. Arguments AssertFails {A}.

(** subGridList_, localgridlist.cc:52, 73: coarse index to grid. *)
Definition grid_list : Type := list (nat * list gaxis).

(** localgridlist.cc:46-74 over the entities of the interior-border view. *)
Fixpoint build (es : list entity) (l : grid_list) : res grid_list :=
  match es with
  | [] => Done l
  | e :: r =>
    if e_interior e then                                      (* 49 *)
      match assoc (e_index e) l with                          (* 52 *)
      | Some _ => AssertFails
      | None => build r ((e_index e, map local_axis (e_axes e)) :: l)   (* 73 *)
      end
    else AssertFails
  end.
(** The constructor, localgridlist.cc:27-75, on an empty map. *)
Definition make_list (es : list entity) : res grid_list := build es [].

(** localgridlist.cc:77-91 *)
Definition get_by_index (l : grid_list) (i : nat) : res (list gaxis) :=
  match assoc i l with Some g => Done g | None => AssertFails end.
(** localgridlist.cc:93-105 *)
Definition get_sub_grid (l : grid_list) (e : entity) : res (list gaxis) :=
  if e_interior e then get_by_index l (e_index e) else AssertFails.
(** localgridlist.cc:108-111 *)
Definition list_size (l : grid_list) : nat := length l.
