(** Creation of the coarse and the fine grid.

    /repo/dune/multiscale/common/grid_creation.cc:24-119 and
    /repo/dune/multiscale/common/mygridfactory.hh:59-82.
    Simplified: configuration values and coordinates are exact rationals,
    vectors over the space directions are lists, a grid is the data handed to
    the grid constructor (external class YaspGrid). *)
From Coq Require Import List Arith ZArith QArith Qround Lia Bool.
From Verif Require Import Util.
Import ListNotations.

Open Scope Z_scope.

(** unsigned int, grid_creation.cc:41. *)
Definition two32 : Z := 4294967296.
(** int, grid_creation.cc:64. *)
Definition two31 : Z := 2147483648.

(** Conversion of a floating point number to [unsigned int] (used in lines 44,
    45, 100): truncation, undefined unless the result fits. *)
Definition to_unsigned (q : Q) : option Z :=
  let z := if Qle_bool 0 q then Qfloor q else Qceiling q in
  if (0 <=? z) && (z <? two32) then Some z else None.

(** Conversion of [int] to [unsigned int] (line 46). *)
Definition int_to_unsigned (z : Z) : Z := z mod two32.

(** Conversion of [unsigned int] to [int] (line 64), two's complement. *)
Definition unsigned_to_int (z : Z) : Z := if z <? two31 then z else z - two32.

(** The loops over the directions, grid_creation.cc:43-47, 99-101: undefined if one
    conversion is. *)
Fixpoint all_some {A} (l : list (option A)) : option (list A) :=
  match l with
  | [] => Some []
  | None :: _ => None
  | Some x :: r => match all_some r with None => None | Some r' => Some (x :: r') end
  end.

(** The configuration read in lines 30-39 and 46. *)
Record config := { c_ll : list Q; c_ur : list Q; c_layers : Z;
                   c_coarse : list Q; c_micro : list Q; c_overlap : Z }.

(** What is handed to the grid constructor: grid_creation.cc:57-58, 102-103. *)
Record grid := { g_ll : list Q; g_ur : list Q; g_elements : list Z; g_overlap : Z; g_comm : nat }.

(** Ends of make_coarse_grid and make_fine_grid, grid_creation.cc:51-119. *)
Inductive gresult : Type :=
| Created (g : grid)
| Nonuniform      (* mygridfactory.hh:79 *)
| RankFail        (* grid_creation.cc:65 *)
| Undefined.      (* conversion or access out of range *)

(** setup, lines 24-49: elements, coarse overlap, fine overlap. *)
Definition setup_elements (c : config) : option (list Z) := all_some (map to_unsigned (c_coarse c)).
(** setup, line 45. *)
Definition setup_overlap (c : config) : option (list Z) :=
  all_some (map (fun m => if Qeq_bool m 0 then None
                          else to_unsigned (inject_Z (Qceiling (inject_Z (c_layers c) / m))))
                (c_micro c)).
(** setup, line 46. *)
Definition setup_fine_overlap (c : config) : list Z :=
  map (fun _ => int_to_unsigned (c_overlap c)) (c_coarse c).

(** MyGridFactory<YaspGrid>::createCubeGrid, mygridfactory.hh:66-81. *)
Definition create_cube_grid (ll ur : list Q) (elements overlap : list Z) (comm : nat) : gresult :=
  match overlap with
  | [] => Undefined
  | o :: r =>
    if forallb (Z.eqb o) r
    then Created {| g_ll := ll; g_ur := ur; g_elements := elements; g_overlap := o; g_comm := comm |}
    else Nonuniform
  end.

(** std::accumulate with unsigned multiplication, line 59. *)
Definition expected_elements (l : list Z) : Z := fold_left (fun a x => (a * x) mod two32) l 1.

(** make_coarse_grid, lines 51-67.  [stored] = size(0), the cells stored on
    this rank; [layers] = overlapSize(0), the width of the overlap; [nproc] =
    comm().size(): all answered by the grid. *)
Definition make_coarse_grid (c : config) (comm nproc : nat) (stored layers : Z) : gresult :=
  match setup_elements c, setup_overlap c with
  | Some e, Some o =>
    match create_cube_grid (c_ll c) (c_ur c) e o comm with
    | Created g =>
      if (1 <? Z.of_nat nproc) && (stored - layers =? unsigned_to_int (expected_elements e))
      then RankFail else Created g
    | r => r
    end
  | _, _ => Undefined
  end.

(** make_fine_grid, lines 83-119; the partitioning check (105-117) only logs. *)
Definition make_fine_grid (c : config) (comm : nat) : gresult :=
  match setup_elements c, setup_overlap c,
        all_some (map (fun p => to_unsigned (fst p * snd p)%Q) (combine (c_coarse c) (c_micro c))) with
  | Some _, Some _, Some e => create_cube_grid (c_ll c) (c_ur c) e (setup_fine_overlap c) comm
  | _, _, _ => Undefined
  end.

(** make_grids, lines 69-74: [world] is the default argument of
    make_fine_grid (grid_creation.hh:24), used since line 73 passes no
    communicator. *)
Definition make_grids (c : config) (world comm nproc : nat) (stored layers : Z) : gresult * gresult :=
  (make_coarse_grid c comm nproc stored layers, make_fine_grid c world).

(** Node [i] of [n] equal cells between [a] and [b]: structured grid as created
    in grid_creation.cc:57-58, 102-103 (external). *)
Definition node (a b : Q) (n i : Z) : Q := (a + inject_Z i * ((b - a) / inject_Z n))%Q.
