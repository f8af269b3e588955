(** The test whether points lie in a coarse cell, with rounding.

    /repo/dune/multiscale/msfem/localproblems/localgridlist.cc:119-125,
    localgridlist.hh:73-85, localgridsearch.cc:57-68.
    As in RoundModel floating point numbers are rationals and [rnd] rounds the
    exact result of every operation.  External and taken as usual for grids of
    equal boxes: coordinates of nodes, centre of a cell, map to the reference
    cube, tolerance of the reference element. *)
From Coq Require Import ZArith QArith Qround List Arith Bool.
From Verif Require Import Util LocalGridModel RoundModel.
Import ListNotations.
Open Scope Q_scope.

(** One direction of coarse and fine grid, grid_creation.cc:30-32, 35-39, 43-44, 98-100: corners
    of the domain, coarse cells, fine cells in each of them. *)
Record direction : Type := { d_lo : Q; d_up : Q; d_n : Z; d_m : Z }.

(** Tolerance of checkInside (external), called at localgridlist.cc:124,
    localgridlist.hh:81, localgridsearch.cc:64: 64 times 2^-52. *)
Definition tolerance : Q := 1 # 70368744177664.
(** checkInside of the reference cube, one direction (external), localgridlist.cc:124,
    localgridlist.hh:81, localgridsearch.cc:64. *)
Definition check_inside (x : Q) : bool := Qle_bool (- tolerance) x && Qle_bool x (1 + tolerance).

Section Code.
Variable rnd : Q -> Q.

(** geometry().local, localgridlist.cc:124, localgridsearch.cc:64 (external):
    box from [lo] to [hi]. *)
Definition local_fl (lo hi x : Q) : Q := rnd (rnd (x - lo) / rnd (hi - lo)).
(** Node [k] of a grid of [n] equal cells (external), made at grid_creation.cc:57-58,
    101-102 and localgridlist.cc:73. *)
Definition coord_fl (lo up : Q) (n k : Z) : Q :=
  rnd (lo + rnd (inject_Z k * rnd (rnd (up - lo) / inject_Z n))).
(** geometry().center(), localgridlist.cc:122 (external): mean of the ends. *)
Definition centre_fl (g : gaxis) (j : Z) : Q :=
  rnd ((1 # 2) * rnd (coord_fl (g_lo g) (g_hi g) (g_n g) j + coord_fl (g_lo g) (g_hi g) (g_n g) (j + 1))).

(** covers, localgridlist.cc:119-125, one direction. *)
Definition covers_axis_fl (a : axis) (j : Z) : bool :=
  check_inside (local_fl (a_min a) (a_max a) (centre_fl (local_axis_fl rnd a) j)).

(** localgridsearch.cc:64, one direction: coarse cell [c], coordinate [x]. *)
Definition inside_axis (d : direction) (c : Z) (x : Q) : bool :=
  check_inside (local_fl (coord_fl (d_lo d) (d_up d) (d_n d) c)
                         (coord_fl (d_lo d) (d_up d) (d_n d) (c + 1)) x).
(** localgridsearch.cc:64, all directions. *)
Fixpoint inside (ds : list direction) (c : list Z) (x : list Q) : bool :=
  match ds, c, x with
  | d :: ds', i :: c', y :: x' => inside_axis d i y && inside ds' c' x'
  | _, _, _ => true
  end.

(** Ends of fine cell [f] in one direction (external).  The corners are the points
    of the search, heterogenous.hh:30-37 and heterogenous.cc:29 (mapping a corner
    of the reference cube is taken to give the node), and of localgridlist.hh:80-81. *)
Definition fine_lo (d : direction) (f : Z) : Q := coord_fl (d_lo d) (d_up d) (d_n d * d_m d) f.
(** Corners of fine cell [f] (external), heterogenous.hh:30-37, localgridlist.hh:80-81. *)
Fixpoint corners (ds : list direction) (f : list Z) : list (list Q) :=
  match ds, f with
  | d :: ds', k :: f' =>
      map (cons (fine_lo d k)) (corners ds' f') ++ map (cons (fine_lo d (k + 1))) (corners ds' f')
  | _, _ => [[]]
  end.
(** localgridsearch.cc:57-68 and localgridlist.hh:73-85 for the corners of a
    fine cell. *)
Definition holds_cell (ds : list direction) (c f : list Z) : bool := forallb (inside ds c) (corners ds f).
End Code.
