(** The integer computations of the random permeability field with the range of
    the type [int].

    /repo/dune/multiscale/problems/random_permeability.hh:101-197 (init),
    241-256 (setRange), 259-292 (redistribute), 327-368 (evaluation).
    Simplified: [int] has 32 bits and [ptrdiff_t] is large enough; an operation
    whose result is no [int] is undefined behaviour ([None]); the rows per
    process ([_n0], given by the Fourier transform library) are a parameter. *)
From Coq Require Import ZArith List Bool.
From Verif Require Import RandModel.
Import ListNotations.
Open Scope Z_scope.

(** Result of an operation on [int], random_permeability.hh:108,122,154,187. *)
Definition int (z : Z) : option Z :=
  if (-2147483648 <=? z) && (z <=? 2147483647) then Some z else None.
(** [1 << k] for [int], random_permeability.hh:108. *)
Definition shift_left (k : Z) : option Z := if (0 <=? k) && (k <=? 30) then Some (2 ^ k) else None.
(** Sequence of operations, e.g. random_permeability.hh:248-253. *)
Definition andthen {A B} (a : option A) (f : A -> option B) : option B :=
  match a with None => None | Some x => f x end.

(** The loop of setRange, random_permeability.hh:248-254: processes and position
    in each direction; the accumulated size. *)
Fixpoint ranges_int (N overlap : Z) (grid : list (Z * Z)) (size : Z) : option (list (Z * Z) * Z) :=
  match grid with
  | [] => Some ([], size)
  | (proc, pos) :: r =>
      let len := N / proc in                                          (* 249 *)
      andthen (int (len * pos)) (fun a =>
      andthen (int (a - overlap)) (fun b =>
      let lo := Z.max 0 b in                                          (* 250 *)
      andthen (int (pos + 1)) (fun c =>
      andthen (int (len * c)) (fun e =>
      andthen (int (e + overlap)) (fun f =>
      let hi := Z.min N f in                                          (* 251 *)
      andthen (int (hi - lo)) (fun g =>
      andthen (int (g + 1)) (fun s =>                                 (* 252 *)
      andthen (int (size * s)) (fun size' =>                          (* 253 *)
      andthen (ranges_int N overlap r size') (fun rs =>
      Some ((lo, hi) :: fst rs, snd rs))))))))))
  end.

(** init, random_permeability.hh:101-197, for dimensions 2 and 3: number of
    segments, ranges, size of the local array and number of all nodes (the
    divisor of [factor]).  The loop counters [p] and [i] reach the number of
    nodes of the process. *)
Definition init_int (dim : nat) (log2Seg overlap : Z) (grid : list (Z * Z)) (n0 : Z) :
    option (Z * (list (Z * Z) * Z) * Z) :=
  andthen (shift_left log2Seg) (fun N =>                              (* 108 *)
  andthen (int (2 * N)) (fun N2 =>                                    (* 122 *)
  andthen (ranges_int N overlap grid 1) (fun rs =>                    (* 127 *)
  match dim with
  | 2%nat =>
      andthen (int (n0 * N2)) (fun _ =>                               (* 143-151, 155 *)
      andthen (int (N2 * N2)) (fun all => Some (N, rs, all)))         (* 154 *)
  | 3%nat =>
      andthen (int (n0 * N2 * N2)) (fun _ =>                          (* 173-184, 188 *)
      andthen (int (N2 * N2)) (fun a =>
      andthen (int (a * N2)) (fun all => Some (N, rs, all))))         (* 187 *)
  | _ => None                                                         (* 194 *)
  end))).

(** Displacement of one get of redistribute in two dimensions,
    random_permeability.hh:268,271. *)
Definition source2_int (N n0 lo1 i : Z) : option Z :=
  andthen (int (2 * N)) (fun step => int ((i mod n0) * step + lo1)).
(** ... and in three dimensions, 277-285: the [j]-th get of row [i] and the
    increment after it. *)
Definition source3_int (N n0 lo1 lo2 i j : Z) : option Z :=
  andthen (int (4 * N)) (fun a =>
  andthen (int (a * N)) (fun step =>
  andthen (int (2 * N)) (fun b =>
  andthen (int (b * lo1)) (fun c =>
  andthen (int ((i mod n0) * step + c + lo2 + j * b)) (fun source =>
  andthen (int (source + b)) (fun _ => Some source)))))).

(** The cell number of the evaluation, random_permeability.hh:339: sizes and
    local indices in each direction. *)
Fixpoint cell_int (l : list (Z * Z)) (cell : Z) : option Z :=
  match l with
  | [] => Some cell
  | (s, j) :: r =>
      andthen (int (s * cell)) (fun a => andthen (int (a + j)) (fun c => cell_int r c))
  end.
(** The indices [c00], [c01], [c10], [c11], random_permeability.hh:342-345. *)
Definition corner2_int (s1 cell : Z) : option (list Z) :=
  andthen (int (cell + 1)) (fun c01 =>
  andthen (int (cell + s1)) (fun c10 =>
  andthen (int (c10 + 1)) (fun c11 => Some [cell; c01; c10; c11]))).
(** [c000] to [c111], random_permeability.hh:349-356. *)
Definition corner3_int (s1 s2 cell : Z) : option (list Z) :=
  andthen (int (cell + 1)) (fun c001 =>
  andthen (int (cell + s2)) (fun c010 =>
  andthen (int (c010 + 1)) (fun c011 =>
  andthen (int (s1 * s2)) (fun a =>
  andthen (int (cell + a)) (fun c100 =>
  andthen (int (c100 + 1)) (fun c101 =>
  andthen (int (c100 + s2)) (fun c110 =>
  andthen (int (c110 + 1)) (fun c111 => Some [cell; c001; c010; c011; c100; c101; c110; c111])))))))).
