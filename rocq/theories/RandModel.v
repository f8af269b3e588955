(** The random permeability field: process partition, index ranges,
    redistribution of the generated layers, evaluation and creation.

    /repo/dune/multiscale/problems/random_permeability.hh and random.cc.

    Simplified: exact arithmetic instead of int and double (no overflow, see
    IntModel; [log2] exact); the Fourier transforms and the normal distribution are parameters;
    MPI windows are lists of complex numbers per rank. *)
From Coq Require Import ZArith QArith Qround Qminmax List Arith Bool.
From Verif Require Import Util.
Import ListNotations.
Open Scope nat_scope.

(** partition, random_permeability.hh:209-220; [None] is the return value
    false, which leaves [procPerDim] as it was. *)
Definition partition (dim nProc : nat) : option (list nat) :=
  let log2P := Nat.log2 nProc in                                      (* 211-212 *)
  if Nat.eqb (2 ^ log2P) nProc then                                   (* 213-214 *)
    let nAll := log2P / dim in                                        (* 215 *)
    let nMore := log2P - nAll * dim in                                (* 216 *)
    Some (map (fun i => 2 ^ (nAll + if Nat.ltb i nMore then 1 else 0)) (seq 0 dim)) (* 217-218 *)
  else None.

(** [off], random_permeability.hh:229-233. *)
Fixpoint off (procPerDim : list nat) (i : nat) : nat :=
  match i with O => 1 | S j => off procPerDim j * nth j procPerDim 0 end.
(** gridPosition, random_permeability.hh:227-238: the loop 234-237 runs from the
    last dimension to the first. *)
Fixpoint position_loop (procPerDim : list nat) (i iProc : nat) : list nat :=
  match i with
  | O => []
  | S j => let pos := iProc / off procPerDim j in
           position_loop procPerDim j (iProc - pos * off procPerDim j) ++ [pos]
  end.
(** gridPosition, random_permeability.hh:227-238. *)
Definition grid_position (iProc : nat) (procPerDim : list nat) : list nat :=
  position_loop procPerDim (length procPerDim) iProc.

(** setRange for one dimension, random_permeability.hh:249-252; subtraction is
    cut off at zero like [std::max(0, ...)]. *)
Definition i_min (N proc pos overlap : nat) : nat := (N / proc) * pos - overlap.
(** random_permeability.hh:251. *)
Definition i_max (N proc pos overlap : nat) : nat := Nat.min N ((N / proc) * (pos + 1) + overlap).
(** _iMin and _iMax in one dimension, and _size (252). *)
Definition range : Type := (nat * nat)%type.
(** _size, random_permeability.hh:252. *)
Definition size (r : range) : nat := snd r - fst r + 1.

(** setRange, random_permeability.hh:241-256.  The result of [partition] is not
    checked: for other process numbers [procPerDim] is read uninitialised,
    modelled as [None]. *)
Definition set_range (dim N nProc iProc overlap : nat) : option (list range) :=
  match partition dim nProc with
  | None => None
  | Some pp =>
      Some (map (fun i => let proc := nth i pp 0 in
                          let pos := nth i (grid_position iProc pp) 0 in
                          (i_min N proc pos overlap, i_max N proc pos overlap)) (seq 0 dim))
  end.

(** A complex number: real and imaginary part, random_permeability.hh:46. *)
Definition complex : Type := (Q * Q)%type.

(** MPI_Get, random_permeability.hh:272, 282: [count] numbers at displacement [disp] of the window of [rank];
    [None] if it leaves the window or the rank does not exist. *)
Definition mpi_get (windows : list (list complex)) (rank disp count : nat) : option (list complex) :=
  match nth_error windows rank with
  | None => None
  | Some w => if Nat.leb (disp + count) (length w) then Some (firstn count (skipn disp w)) else None
  end.

(** Appends the results of a loop of gets to [dest], random_permeability.hh:269-274,
    278-286. *)
Fixpoint gets {A} (f : A -> option (list complex)) (l : list A) : option (list complex) :=
  match l with
  | [] => Some []
  | a :: r => match f a, gets f r with Some x, Some y => Some (x ++ y) | _, _ => None end
  end.

(** redistribute in two dimensions, random_permeability.hh:266-275; [None] also
    for a division by zero if [n0] is zero. *)
Definition redistribute2 (N n0 : nat) (windows : list (list complex)) (r0 r1 : range)
    : option (list complex) :=
  if Nat.eqb n0 0 then None
  else gets (fun i => mpi_get windows (i / n0) ((i mod n0) * (2 * N) + fst r1) (size r1))
            (seq (fst r0) (size r0)).
(** ... and in three dimensions, 276-287. *)
Definition redistribute3 (N n0 : nat) (windows : list (list complex)) (r0 r1 r2 : range)
    : option (list complex) :=
  if Nat.eqb n0 0 then None
  else gets (fun i =>
         gets (fun j => mpi_get windows (i / n0)
                          ((i mod n0) * (4 * N * N) + 2 * N * fst r1 + fst r2 + j * (2 * N)) (size r2))
              (seq 0 (size r1)))
       (seq (fst r0) (size r0)).

(** Result of evaluating the field, random_permeability.hh:327-368. *)
Inductive presult : Type :=
| Value (k : Q)
| RangeError        (* Dune::RangeError, 335 *)
| OutOfBounds.      (* access past the end of _perm *)

(** The loop random_permeability.hh:332-340: cell number and local coordinates. *)
Fixpoint locate (N : nat) (ranges : list range) (x : list Q) (cell : nat) : option (nat * list Q) :=
  match ranges, x with
  | r :: rs, x0 :: xs =>
      let p := (x0 * inject_Z (Z.of_nat N))%Q in
      if Qle_bool (inject_Z (Z.of_nat (fst r))) p && Qle_bool p (inject_Z (Z.of_nat (snd r))) then
        let p' := (p - inject_Z (Z.of_nat (fst r)))%Q in
        let j := Qfloor p' in
        match locate N rs xs (size r * cell + Z.to_nat j) with
        | None => None
        | Some (c, ts) => Some (c, (p' - inject_Z j)%Q :: ts)
        end
      else None
  | _, _ => Some (cell, [])
  end.

(** [_perm[c][_part]], random_permeability.hh:346-362. *)
Definition perm_at (perm : list complex) (part c : nat) : option Q :=
  option_map (if Nat.eqb part 0 then fst else snd) (nth_error perm c).

(** operator(), random_permeability.hh:327-368, for dimensions 2 and 3. *)
Definition evaluate (N : nat) (ranges : list range) (perm : list complex) (part : nat) (minimal : Q)
    (x : list Q) : presult :=
  match locate N ranges x 0 with
  | None => RangeError
  | Some (cell, [t0; t1]) =>                                          (* 341-347 *)
      let s1 := size (nth 1 ranges (0, 0)) in
      match perm_at perm part cell, perm_at perm part (cell + 1),
            perm_at perm part (cell + s1), perm_at perm part (cell + s1 + 1) with
      | Some k00, Some k01, Some k10, Some k11 =>
          Value (Qmax (((1 - t1) * k00 + t1 * k01) * (1 - t0) + ((1 - t1) * k10 + t1 * k11) * t0) minimal)
      | _, _, _, _ => OutOfBounds
      end
  | Some (cell, [t0; t1; t2]) =>                                      (* 348-363 *)
      let s1 := size (nth 1 ranges (0, 0)) in
      let s2 := size (nth 2 ranges (0, 0)) in
      let c100 := cell + s1 * s2 in
      match perm_at perm part cell, perm_at perm part (cell + 1),
            perm_at perm part (cell + s2), perm_at perm part (cell + s2 + 1) with
      | Some k000, Some k001, Some k010, Some k011 =>
        match perm_at perm part c100, perm_at perm part (c100 + 1),
              perm_at perm part (c100 + s2), perm_at perm part (c100 + s2 + 1) with
        | Some k100, Some k101, Some k110, Some k111 =>
          Value (Qmax ((((1 - t2) * k000 + t2 * k001) * (1 - t1) + ((1 - t2) * k010 + t2 * k011) * t1) * (1 - t0)
                       + (((1 - t2) * k100 + t2 * k101) * (1 - t1) + ((1 - t2) * k110 + t2 * k111) * t1) * t0) minimal)
        | _, _, _, _ => OutOfBounds
        end
      | _, _, _, _ => OutOfBounds
      end
  | Some _ => OutOfBounds
  end.

(** ** Creation, random_permeability.hh:296-322. *)
Section Create.
Variable n : nat.                                 (* entries of the layer, 305 *)
Variable base : nat -> Q.                         (* _base[i][0], computed by init *)
Variable normal : nat -> Q.                       (* i-th number drawn from _normal(_rand) *)
Variable transform : list complex -> list complex. (* inverse transform and exp, 312-318 *)
Variable distribute : list complex -> list complex. (* redistribute, 321 *)

(** Members changed by create (random_permeability.hh:300, 309-310, 321): _part,
    numbers drawn so far, _layer, _perm; and the number of computations, for the
    statements. *)
Record field := { part : nat; drawn : nat; layer : list complex; perm : list complex; computed : nat }.

(** After init (113, 138, 255): _part is 1, _perm is zero. *)
Definition init (sz : nat) : field :=
  {| part := 1; drawn := 0; layer := []; perm := repeat (0, 0)%Q sz; computed := 0 |}.

(** Coefficients times random numbers, 308-311. *)
Definition sample (first : nat) : list complex :=
  map (fun i => (normal (first + 2 * i) * base i, normal (first + 2 * i + 1) * base i)%Q) (seq 0 n).

(** create, random_permeability.hh:296-322. *)
Definition create (f : field) : field :=
  let p := 1 - part f in                                              (* 300 *)
  if Nat.eqb p 1
  then {| part := p; drawn := drawn f; layer := layer f; perm := perm f; computed := computed f |} (* 301-303 *)
  else let l := transform (sample (drawn f)) in
       {| part := p; drawn := drawn f + 2 * n; layer := l; perm := distribute l; computed := computed f + 1 |}.
End Create.

(** Number of segments per direction: random.cc:63 and random_permeability.hh:108. *)
Definition segments (cells_per_dim : nat) : nat := 2 ^ Nat.log2 cells_per_dim.

(** ** The data functions of the random problem, random.cc:132-170. *)
(** Diffusion::evaluate, 132-143. *)
Definition rand_tensor (scalar : Q) : nat -> nat -> Q := fun i j => if Nat.eqb i j then scalar else 0%Q.
(** Diffusion::diffusiveFlux, 145-155. *)
Definition rand_flux (scalar : Q) (direction : nat -> Q) : nat -> Q :=
  fun i => (rand_tensor scalar i i * direction i)%Q.
(** DirichletData 162-165, NeumannData 167-170. *)
Definition rand_dirichlet (x : nat -> Q) : Q := (1 - x 0%nat)%Q.
(** NeumannData::evaluate, random.cc:167-170. *)
Definition rand_neumann (x : nat -> Q) : Q := 0%Q.
