(** Vocabulary for C43-C45: reference values as plain sums. *)
From Coq Require Import Reals List Arith Bool.
From Verif Require Import Util RSum CoarseModel.
Import ListNotations.
Open Scope R_scope.

Section Spec.
Variable d : nat.
Variable P : Type.
Variable diffusion : P -> nat -> nat -> R.
Variable source : P -> R.

Notation ccell := (coarse_cell P).
Notation lcell := (local_cell P).

(** Diffusion is symmetric / positive semidefinite everywhere. *)
Definition sym (A : nat -> nat -> R) : Prop := forall i j, (i < d)%nat -> (j < d)%nat -> A i j = A j i.
Definition psd (A : nat -> nat -> R) : Prop := forall u, 0 <= dot d (mv d A u) u.

(** Non-negative weights of a cell's quadratures. *)
Definition weights_ok (c : ccell) : Prop :=
  forall l q, In l (cc_locals P c) -> In q (lc_quad P l) -> 0 <= lc_factor P l (fst q) * snd q.

(** Energy product of two gradient fields over one local element, as a
    quadrature: sum of weight * A u . v . *)
Definition energy (l : lcell) (u v : P -> nat -> R) : R :=
  lsum (lc_quad P l) (fun q =>
    lc_factor P l (fst q) * snd q *
    dot d (mv d (diffusion (lc_global P l (fst q))) (u (fst q))) (v (fst q))).

(** The same with the quadrature of the right hand side. *)
Definition rhs_energy (l : lcell) (u v : P -> nat -> R) : R :=
  lsum (lc_rquad P l) (fun q =>
    lc_factor P l (fst q) * snd q *
    dot d (mv d (diffusion (lc_global P l (fst q))) (u (fst q))) (v (fst q))).

(** Load of a function over one local element, quadrature of the right hand
    side. *)
Definition load (l : lcell) (v : P -> R) : R :=
  lsum (lc_rquad P l) (fun q =>
    lc_factor P l (fst q) * snd q * (source (lc_global P l (fst q)) * v (fst q))).

(** Gradient of the corrected basis function: coarse gradient at the point of
    the coarse reference cell that the quadrature point maps to. [to_coarse]
    maps global points to coarse reference coordinates. *)
Definition corrected_grad (to_coarse : P -> P) (c : ccell) (l : lcell) (i : nat) : P -> nat -> R :=
  fun x k => cc_grad P c i (to_coarse (lc_global P l x)) k + lc_grad P l i x k.

(** What the code uses: coarse gradient at the local reference coordinate. *)
Definition used_grad (c : ccell) (l : lcell) (i : nat) : P -> nat -> R :=
  fun x k => cc_grad P c i x k + lc_grad P l i x k.
Definition used_val (c : ccell) (l : lcell) (i : nat) : P -> R :=
  fun x => cc_val P c i x + lc_val P l i x.

(** Local elements inside the coarse cell. *)
Definition covered (c : ccell) : list lcell := filter (lc_covered P) (cc_locals P c).

(** Indicator that local index i of cell c has global index a. *)
Definition hit (c : ccell) (i a : nat) : R := if Nat.eqb (cc_index P c i) a then 1 else 0.

(** Quadratic form of a global matrix on n unknowns. *)
Definition qform (n : nat) (M : nat -> nat -> R) (x : nat -> R) : R :=
  rsum n (fun a => rsum n (fun b => M a b * x a * x b)).
End Spec.
