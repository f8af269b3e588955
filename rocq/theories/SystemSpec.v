(** Vocabulary for C90, C91. *)
From Coq Require Import Reals List Arith Bool.
From Verif Require Import Util RSum CoarseModel CoarseSpec SystemModel.
Import ListNotations.
Open Scope R_scope.

Section Spec.
Variable d : nat.
Variable P : Type.
Variable diffusion : P -> nat -> nat -> R.
Variable neumann : P -> R.

(** Gradient of the multiscale function with coarse values [u] on a local
    element: coarse basis functions with their correctors, plus the Dirichlet
    corrector, minus the Neumann corrector. *)
Definition ms_grad (u : nat -> R) (c : coarse_cell P) (l : local_cell P) : P -> nat -> R :=
  fun x k => rsum (cc_n P c) (fun j => u (cc_index P c j) * used_grad P c l j x k)
             + (lc_grad P l (cc_n P c + 1) x k - lc_grad P l (cc_n P c) x k).

(** Corrected coarse function with values [v], without boundary correctors:
    gradient and value on a local element, and uncorrected value. *)
Definition test_grad (v : nat -> R) (c : coarse_cell P) (l : local_cell P) : P -> nat -> R :=
  fun x k => rsum (cc_n P c) (fun i => v (cc_index P c i) * used_grad P c l i x k).
Definition test_val (v : nat -> R) (c : coarse_cell P) (l : local_cell P) : P -> R :=
  fun x => rsum (cc_n P c) (fun i => v (cc_index P c i) * used_val P c l i x).
Definition test_coarse (v : nat -> R) (c : coarse_cell P) : P -> R :=
  fun x => rsum (cc_n P c) (fun i => v (cc_index P c i) * cc_val P c i x).

(** Gradient of the boundary correctors: Dirichlet minus Neumann. *)
Definition boundary_grad (c : coarse_cell P) (l : local_cell P) : P -> nat -> R :=
  fun x k => lc_grad P l (cc_n P c + 1) x k - lc_grad P l (cc_n P c) x k.

(** Energy product of the multiscale function with coarse values [u] and a
    gradient field: the corrected coarse functions integrated with the
    quadrature of the matrix, the boundary correctors with that of the right
    hand side. *)
Definition ms_energy (u : nat -> R) (c : coarse_cell P) (l : local_cell P) (w : P -> nat -> R) : R :=
  energy d P diffusion l (test_grad u c l) w + rhs_energy d P diffusion l (boundary_grad c l) w.

(** Both quadratures give the same products of boundary correctors and
    corrected basis functions. *)
Definition rules_agree (cells : list (coarse_cell P * list (cface P))) : Prop :=
  forall c fs l i, In (c, fs) cells -> In l (covered P c) -> (i < cc_n P c)%nat ->
    energy d P diffusion l (boundary_grad c l) (used_grad P c l i) =
    rhs_energy d P diffusion l (boundary_grad c l) (used_grad P c l i).

(** Boundary integral of the prescribed flux times a function, over the
    Neumann part of the boundary of a cell. *)
Definition boundary_load (fs : list (cface P)) (v : P -> R) : R :=
  lsum (filter (cf_neumann P) fs) (fun f => lsum (cf_quad P f) (fun q =>
    snd q * (neumann (snd (fst q)) * v (fst (fst q))))).
End Spec.
