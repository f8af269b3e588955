(** Generation of the random field: covariance array, its transform, and the
    multiplication with random numbers.

    /repo/dune/multiscale/problems/random_permeability.hh:102-196, 296-319 and
    random.hh:48-84.

    Simplified: exact real arithmetic; arrays are functions of their index,
    windows of the processes are functions of rank and index; FFTW is modelled
    by its documented result (unnormalised transform of the whole array,
    distributed by rows, first two directions exchanged in the transformed
    array); the random engine of each process is a sequence of numbers. *)
From Coq Require Import Reals List Arith Bool.
From Verif Require Import RSum.
Import ListNotations.
Open Scope R_scope.

(** Correlation, random.hh:72-79: the point is a list of coordinates. *)
Definition correlation (corrLen sigma : R) (d : list R) : R :=
  let sumX2 := fold_left (fun s x => s + x * x) d 0 in                (* 74-77 *)
  sigma * sigma * exp (- sqrt sumX2 / corrLen).                       (* 60, 78 *)

(** Index per direction of position [p] in an array with [M] entries per
    direction: the loop counters of random_permeability.hh:143-151, 173-184
    when the running counter is [p]. *)
Fixpoint index (dim M p : nat) : list nat :=
  match dim with
  | O => []
  | S d => (p / M ^ d)%nat :: index d M (p mod M ^ d)
  end.
(** Position of an index, random_permeability.hh:143-151, 173-184. *)
Fixpoint flat (M : nat) (l : list nat) : nat :=
  match l with
  | [] => O
  | i :: r => (i * M ^ length r + flat M r)%nat
  end.

(** Coordinate of the loops, random_permeability.hh:145, 147, 175, 177, 179. *)
Definition coordinate (N i : nat) : R :=
  if Nat.ltb N i then INR (2 * N - i) * (1 / INR N) else INR i * (1 / INR N).

(** Exchanges the first two directions (FFTW_MPI_TRANSPOSED_OUT and
    FFTW_MPI_TRANSPOSED_IN, random_permeability.hh:140-142, 169-172). *)
Definition transposed (dim M q : nat) : nat :=
  match index dim M q with
  | a :: b :: r => flat M (b :: a :: r)
  | l => flat M l
  end.

(** Arrays distributed by rows, [W] entries per process: fftw_mpi_local_size_2d,
    _3d, random_permeability.hh:134, 163. *)
Definition whole {A} (W : nat) (w : nat -> nat -> A) (q : nat) : A := w (q / W)%nat (q mod W)%nat.
(** The part of process [r], random_permeability.hh:134-139, 163-168. *)
Definition window {A} (W : nat) (g : nat -> A) (r p : nat) : A := g (r * W + p)%nat.

(** Angle of the transform (FFTW): 2 pi (k . x) / M. *)
Fixpoint product_of (k x : list nat) : nat :=
  match k, x with
  | a :: k', b :: x' => (a * b + product_of k' x')%nat
  | _, _ => O
  end.
(** FFTW, random_permeability.hh:140-142, 169-172: exponent without sign. *)
Definition angle (dim M q p : nat) : R :=
  2 * PI * INR (product_of (index dim M q) (index dim M p)) / INR M.
(** Unnormalised transform; [sign] is -1 for FFTW_FORWARD, 1 for FFTW_BACKWARD
    (random_permeability.hh:140-142, 169-172). *)
Definition dft (dim M : nat) (sign : R) (a : nat -> R * R) (q : nat) : R * R :=
  (rsum (M ^ dim) (fun p => fst (a p) * cos (sign * angle dim M q p) - snd (a p) * sin (sign * angle dim M q p)),
   rsum (M ^ dim) (fun p => fst (a p) * sin (sign * angle dim M q p) + snd (a p) * cos (sign * angle dim M q p))).

Section Sample.
Variable dim : nat.                       (* DIM *)
Variable N : nat.                         (* _N, random_permeability.hh:108 *)
Variable nProc : nat.                     (* _nProc *)
Variable corr : list R -> R.              (* _corr *)

(** _2N, random_permeability.hh:122. *)
Definition nodes : nat := (2 * N)%nat.
(** _n0, as asserted in random_permeability.hh:135, 164. *)
Definition rows : nat := (nodes / nProc)%nat.
(** Entries of a process that are used: random_permeability.hh:155, 188, 305. *)
Definition entries : nat := (rows * nodes ^ (dim - 1))%nat.

(** The loops filling base, random_permeability.hh:143-151, 173-184, on process
    [r], where _start is [r * rows]. *)
Definition fill (r p : nat) : R * R :=
  match index dim nodes p with
  | i :: rest => (corr (coordinate N (r * rows + i) :: map (coordinate N) rest), 0)
  | [] => (0, 0)
  end.

(** fftw_execute(_fft), random_permeability.hh:152, 185. *)
Definition transform (r p : nat) : R * R :=
  window entries (fun q => dft dim nodes (-1) (whole entries fill) (transposed dim nodes q)) r p.

(** _base[i][0] after init, random_permeability.hh:154-159, 187-192. *)
Definition base (r p : nat) : R :=
  sqrt (1 / INR (nodes ^ dim) * Rabs (fst (transform r p))).

(** Numbers drawn by process [r]: [normal r i] is the i-th. *)
Variable normal : nat -> nat -> R.

(** The loop random_permeability.hh:308-311 of the [t]-th computation. *)
Definition noise (t r p : nat) : R * R :=
  (normal r (t * (2 * entries) + 2 * p)%nat * base r p,
   normal r (t * (2 * entries) + (2 * p + 1))%nat * base r p).

(** fftw_execute(_ifft) and exp, random_permeability.hh:312-318. *)
Definition layer (t r p : nat) : R * R :=
  let z := window entries (dft dim nodes 1 (fun k => whole entries (noise t) (transposed dim nodes k))) r p in
  (exp (fst z), exp (snd z)).

(** Value at a node of the unit cube that redistribute fetches: rank and position
    of random_permeability.hh:270-271, 279-280. *)
Definition node_value (t part : nat) (x : list nat) : R :=
  match x with
  | i :: rest =>
      let z := layer t (i / rows)%nat ((i mod rows) * nodes ^ length rest + flat nodes rest)%nat in
      if Nat.eqb part 0 then fst z else snd z
  | [] => 0
  end.
End Sample.
