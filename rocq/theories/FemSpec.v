(** Vocabulary for C93, C94. *)
From Coq Require Import Reals List Arith Bool Permutation.
From Verif Require Import Util RSum CoarseModel CoarseSpec SystemModel SystemSpec FemModel.
Import ListNotations.
Open Scope R_scope.

Section Spec.
Variable d : nat.
Variable P : Type.
Variable diffusion : P -> nat -> nat -> R.
Variable source : P -> R.

(** The fine function with nodal values [u] on an element. *)
Definition fine_grad (u : nat -> R) (c : fcell P) : P -> nat -> R :=
  fun x k => rsum (fc_n P c) (fun j => u (fc_index P c j) * fc_grad P c j x k).
Definition fine_val (u : nat -> R) (c : fcell P) : P -> R :=
  fun x => rsum (fc_n P c) (fun j => u (fc_index P c j) * fc_val P c j x).

(** Energy product of two gradient fields and load of a function. *)
Definition fine_energy (c : fcell P) (u v : P -> nat -> R) : R :=
  lsum (fc_quad P c) (fun q => fc_factor P c (fst q) * snd q *
    dot d (mv d (diffusion (fc_global P c (fst q))) (u (fst q))) (v (fst q))).
Definition fine_load (c : fcell P) (v : P -> R) : R :=
  lsum (fc_rquad P c) (fun q => fc_factor P c (fst q) * snd q * (source (fc_global P c (fst q)) * v (fst q))).

(** The elements of the fine grid are the covered local elements, and the
    quadratures of the reference solver and of the coarse matrix give the same
    energy products of fine functions. *)
Definition resolves (fine_of : coarse_cell P -> local_cell P -> fcell P)
    (cells : list (coarse_cell P * list (cface P))) (fines : list (fcell P * list (cface P))) : Prop :=
  Permutation (map fst fines) (flat_map (fun cf => map (fine_of (fst cf)) (covered P (fst cf))) cells) /\
  forall c fs l, In (c, fs) cells -> In l (covered P c) ->
    forall u v, fine_energy (fine_of c l) (fine_grad u (fine_of c l)) (fine_grad v (fine_of c l)) =
      energy d P diffusion l (fine_grad u (fine_of c l)) (fine_grad v (fine_of c l)).

(** Distance in energy between the fine function [uh] and a function given by
    its gradient on the local elements. *)
Definition distance (fine_of : coarse_cell P -> local_cell P -> fcell P)
    (cells : list (coarse_cell P * list (cface P))) (uh : nat -> R)
    (G : coarse_cell P -> local_cell P -> P -> nat -> R) : R :=
  lsum cells (fun cf => lsum (covered P (fst cf)) (fun l =>
    let e := fun x k => fine_grad uh (fine_of (fst cf) l) x k - G (fst cf) l x k in
    energy d P diffusion l e e)).

(** Gradient of the multiscale function with coarse values [w], coarse
    gradients taken at the right place (compare [ms_grad]). *)
Definition true_grad (to_coarse : P -> P) (w : nat -> R) (c : coarse_cell P) (l : local_cell P) : P -> nat -> R :=
  fun x k => rsum (cc_n P c) (fun j => w (cc_index P c j) * corrected_grad P to_coarse c l j x k)
             + (lc_grad P l (cc_n P c + 1) x k - lc_grad P l (cc_n P c) x k).
End Spec.

Section Contains.
Variable d : nat.
Variable P : Type.
Variable source : P -> R.
Variable neumann : P -> R.

(** Corrected coarse functions vanishing at the constrained coarse indices are
    functions of the fine space vanishing at the constrained fine indices: same
    gradient, same load, same boundary load. *)
Definition contains (fine_of : coarse_cell P -> local_cell P -> fcell P)
    (cells : list (coarse_cell P * list (cface P))) (fines : list (fcell P * list (cface P)))
    (N : nat) (constrained : nat -> bool) (Nf : nat) (constrainedf : nat -> bool) : Prop :=
  forall v, (forall i, (i < N)%nat -> constrained i = true -> v i = 0) ->
  exists V, (forall i, (i < Nf)%nat -> constrainedf i = true -> V i = 0) /\
    (forall c fs l q k, In (c, fs) cells -> In l (covered P c) -> In q (lc_quad P l) -> (k < d)%nat ->
       fine_grad P V (fine_of c l) (fst q) k = test_grad P v c l (fst q) k) /\
    lsum fines (fun cf => fine_load P source (fst cf) (fine_val P V (fst cf)) + boundary_load P neumann (snd cf) (fine_val P V (fst cf))) =
    lsum cells (fun cf => lsum (covered P (fst cf)) (fun l => load P source l (test_val P v (fst cf) l))
       + boundary_load P neumann (snd cf) (test_coarse P v (fst cf))).
End Contains.
