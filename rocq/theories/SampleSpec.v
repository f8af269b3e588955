(** Vocabulary for C100, C101. *)
From Coq Require Import Reals List Arith.
From Verif Require Import RSum.
Import ListNotations.
Open Scope R_scope.

(** Expected values: [E] is linear and the first [K] numbers of each of [P]
    processes have mean zero, variance one and are uncorrelated, within a process
    and across processes. *)
Record white_noise {Omega : Type} (P K : nat) (E : (Omega -> R) -> R) (n : nat -> nat -> Omega -> R) : Prop := {
  wn_ext : forall f g, (forall w, f w = g w) -> E f = E g;
  wn_plus : forall f g, E (fun w => f w + g w) = E f + E g;
  wn_scale : forall c f, E (fun w => c * f w) = c * E f;
  wn_mean : forall r i, (r < P)%nat -> (i < K)%nat -> E (n r i) = 0;
  wn_cov : forall r i s j, (r < P)%nat -> (i < K)%nat -> (s < P)%nat -> (j < K)%nat ->
    E (fun w => n r i w * n s j w) = if Nat.eqb r s then if Nat.eqb i j then 1 else 0 else 0 }.
(** Numbers a process draws for [T] computations. *)
Definition draws (dim N nProc T : nat) : nat := (T * (2 * ((2 * N) ^ dim / nProc)))%nat.

(** Nodes of the unit cube with [N] segments per direction. *)
Definition node (dim N : nat) (x : list nat) : Prop := length x = dim /\ Forall (fun i => (i <= N)%nat) x.
(** Difference of two nodes, in every direction without sign. *)
Definition difference (N : nat) (x y : list nat) : list R :=
  map (fun p => Rabs (INR (fst p) - INR (snd p)) / INR N) (combine x y).

(** All index tuples with entries below [M]. *)
Fixpoint tuples (dim M : nat) : list (list nat) :=
  match dim with
  | O => [[]]
  | S d => flat_map (fun i => map (cons i) (tuples d M)) (seq 0 M)
  end.
(** Inner product of tuples. *)
Definition inner (k x : list nat) : R := lsum (combine k x) (fun p => INR (fst p) * INR (snd p)).
(** Distance from zero on a circle with [2N] points, in units of [1/N]. *)
Definition circle (N i : nat) : R := INR (Nat.min i (2 * N - i)) / INR N.
(** Correlations of the points of a torus twice as long as the unit cube, and
    their cosine sums (eigenvalues). *)
Definition eigenvalue (dim N : nat) (corr : list R -> R) (k : list nat) : R :=
  lsum (tuples dim (2 * N)) (fun x => corr (map (circle N) x) * cos (2 * PI * inner k x / INR (2 * N))).
