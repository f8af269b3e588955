(** The grid test.

    /repo/dune/multiscale/test/grid_creation.cc:15-179, on top of GridModel,
    LocalGridModel and SearchModel.
    Simplified: coordinates are exact rationals, elements are axis parallel
    boxes, comparisons of floating point numbers (EXPECT_DOUBLE_EQ,
    FloatCmp::ne) are exact, the product of type long (118-123) does not
    overflow.  A check is [true] if none of its expectations fails and nothing
    is thrown.  Not modelled: check_lagrange_points (42-55), which compares two
    external functions.  External: geometries, DSG::dimensions, the tolerance
    of checkInside ([eps]), the cells a process stores. *)
From Coq Require Import List Arith ZArith QArith Qround Qminmax Bool.
From Verif Require Import Util GridModel LocalGridModel SearchModel.
Import ListNotations.
Open Scope Q_scope.

(** Geometry of an element: grid_creation.cc:48, 62, 154. *)
Definition box : Type := list (Q * Q).
(** GlobalCoordinate, grid_creation.cc:16. *)
Definition point : Type := list Q.

(** corners, grid_creation.cc:15-24 (with geo.corner, external). *)
Definition corners (b : box) : list point :=
  fold_right (fun iv acc => map (cons (fst iv)) acc ++ map (cons (snd iv)) acc) [[]] b.

(** geometry().local, grid_creation.cc:67, 158 (external). *)
Definition to_local (b : box) (p : point) : point :=
  map (fun t => (snd t - fst (fst t)) / (snd (fst t) - fst (fst t))) (combine b p).

(** reference_element(...).checkInside, grid_creation.cc:67, 158 (external): all
    elements are cubes. *)
Definition reference_inside (eps : Q) (x : point) : bool :=
  forallb (fun t => Qle_bool (- eps) t && Qle_bool t (1 + eps))%bool x.

(** check_fine_lp_in_coarse, grid_creation.cc:57-72: the point is mapped by the
    geometry of the fine element itself (line 67). *)
Definition check_fine_lp_in_coarse (eps : Q) (coarse fine : list box) : bool :=
  forallb (fun ent => forallb (fun lg =>
    existsb (fun coarse_ent => reference_inside eps (to_local ent lg)) coarse)
    (corners ent)) fine.

(** check_inside, grid_creation.cc:152-163. *)
Definition check_inside (eps : Q) (coarse fine : list box) : bool :=
  forallb (fun ent => forallb (fun corner =>
    existsb (fun coarse_ent => reference_inside eps (to_local coarse_ent corner)) coarse)
    (corners ent)) fine.

(** Whether two points agree, grid_creation.cc:140-144. *)
Definition same_point (p q : point) : bool :=
  (Nat.eqb (length p) (length q) && forallb (fun t => Qeq_bool (fst t) (snd t)) (combine p q))%bool.

(** check_unique_corners, grid_creation.cc:128-150, of one grid in [d] dimensions. *)
Definition check_unique_corners (d : nat) (view : list box) : bool :=
  forallb (fun ent =>
    let cor := corners ent in
    (Nat.eqb (length cor) (2 ^ d) &&
     forallb (fun i => forallb (fun j =>
       Bool.eqb (same_point (nth i cor []) (nth j cor [])) (Nat.eqb i j))
       (seq 0 (length cor))) (seq 0 (length cor)))%bool) view.

(** MinMaxAvg of DSG::dimensions, grid_creation.cc:98-100 (external): nothing
    for a process without elements. *)
Definition extent (pick : Q -> Q -> Q) (l : list Q) : option Q :=
  match l with [] => None | x :: r => Some (fold_left pick r x) end.
(** coord_limits, grid_creation.cc:100: the coordinates of all corners. *)
Definition coordinates (i : nat) (view : list box) : list Q :=
  map (fun p => nth i p 0) (flat_map corners view).
(** entity_volume, grid_creation.cc:105-107. *)
Definition volume (b : box) : Q := fold_right (fun iv v => (snd iv - fst iv) * v) 1 b.
(** EXPECT_DOUBLE_EQ, grid_creation.cc:102-103. *)
Definition agree (x y : option Q) : bool :=
  match x, y with Some a, Some b => Qeq_bool a b | _, _ => false end.
(** EXPECT_GT, grid_creation.cc:105-107. *)
Definition greater (x y : option Q) : bool :=
  match x, y with Some a, Some b => negb (Qle_bool a b) | _, _ => false end.
(** Products of type long with factors of type double, grid_creation.cc:118-123:
    truncated after every factor. *)
Definition times_truncated (z : Z) (l : list Q) : Z :=
  fold_left (fun a q => let p := inject_Z a * q in if Qle_bool 0 p then Qfloor p else Qceiling p) l z.

(** check_dimensions, grid_creation.cc:96-126; [macro], [micro]: the values of
    macro_cells_per_dim and micro_cells_per_macrocell_dim (109-113). *)
Definition check_dimensions (d : nat) (macro micro : list Q) (coarse fine : list box) : bool :=
  (forallb (fun i =>
     agree (extent Qmin (coordinates i coarse)) (extent Qmin (coordinates i fine)) &&
     agree (extent Qmax (coordinates i coarse)) (extent Qmax (coordinates i fine))) (seq 0 d) &&
   greater (extent Qmax (map volume coarse)) (extent Qmax (map volume fine)) &&
   greater (extent Qmin (map volume coarse)) (extent Qmax (map volume fine)) &&
   forallb (fun c => negb (Qle_bool c 0)) macro &&
   forallb (fun c => negb (Qle_bool c 0)) micro &&
   Z.eqb (Z.of_nat (length coarse)) (times_truncated 1 macro) &&
   Z.eqb (Z.of_nat (length fine)) (times_truncated (times_truncated 1 macro) micro))%bool.

(** The test GridMatch, grid_creation.cc:166-171. *)
Definition match_test (eps : Q) (d : nat) (macro micro : list Q) (coarse fine : list box) : bool :=
  (check_dimensions d macro micro coarse fine &&
   check_unique_corners d coarse && check_unique_corners d fine &&
   check_inside eps coarse fine)%bool.

(** check_local_grids, grid_creation.cc:86-90; [interior]: the elements the
    list is made for, [stored] = size(0). *)
Definition check_local_grids (interior : list entity) (stored : nat) : bool :=
  match make_list interior with Done l => Nat.eqb (list_size l) stored | AssertFails => false end.

Section SearchCheck.
Variable ent : Type.
Variable lookup : nat -> box -> list point -> list (option ent).
(** check_search, grid_creation.cc:74-84: one search object for all elements;
    [interior]: the coarse elements it looks at, [stored] = size(0). *)
Fixpoint search_all (eps : Q) (interior : list box) (stored : nat) (st : sstate box) (fine : list box) : bool :=
  match fine with
  | [] => true
  | e :: r =>
    match search box point ent (fun c p => reference_inside eps (to_local c p)) lookup interior stored st (corners e) with
    | Found ret st' _ => (Nat.leb (length (corners e)) (length ret) && search_all eps interior stored st' r)%bool
    | _ => false
    end
  end.
(** check_search with the new objects of grid_creation.cc:76-77. *)
Definition check_search (eps : Q) (interior : list box) (stored : nat) (fine : list box) : bool :=
  search_all eps interior stored fresh fine.

(** The test PointsAndStuff, grid_creation.cc:173-179, without
    check_lagrange_points; [entities]: the interior coarse elements as the list of
    local grids sees them. *)
Definition lp_test (eps : Q) (coarse interior : list box) (entities : list entity) (stored : nat) (fine : list box) : bool :=
  (check_fine_lp_in_coarse eps coarse fine && check_local_grids entities stored &&
   check_search eps interior stored fine)%bool.
End SearchCheck.

(** The cells of a grid between [a] and [b] in one direction, as created in
    common/grid_creation.cc:57-58, 102-103 (external class YaspGrid). *)
Definition axis_cells (a b : Q) (n : Z) : list (Q * Q) :=
  map (fun i => (GridModel.node a b n (Z.of_nat i), GridModel.node a b n (Z.of_nat i + 1))) (seq 0 (Z.to_nat n)).
(** All cells of a grid, common/grid_creation.cc:57-58, 102-103 (external). *)
Fixpoint structured (ll ur : list Q) (ns : list Z) : list box :=
  match ll, ur, ns with
  | a :: ll', b :: ur', n :: ns' =>
      flat_map (fun iv => map (cons iv) (structured ll' ur' ns')) (axis_cells a b n)
  | _, _, _ => [[]]
  end.
(** What one process stores if it is the only one, common/grid_creation.cc:57-58, 102-103. *)
Definition all_cells (g : grid) : list box := structured (g_ll g) (g_ur g) (g_elements g).
