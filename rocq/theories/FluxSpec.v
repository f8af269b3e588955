(** Vocabulary for C96. *)
From Coq Require Import Reals List Arith Bool QArith.
From Verif Require Import Util RSum CoarseModel SystemModel FemModel FemSpec.
Import ListNotations.
Open Scope R_scope.

Section Spec.
Variable P : Type.
Variable neumann : P -> R.

(** The elements of the local grid with one of their intersections each. *)
Definition sides (cells : list (fcell P * list (cface P))) : list (fcell P * cface P) :=
  flat_map (fun cf => map (pair (fst cf)) (snd cf)) cells.

(** Integral over a side of boundary value times the function with nodal
    values [w]. *)
Definition side_load (w : nat -> R) (s : fcell P * cface P) : R :=
  lsum (cf_quad P (snd s)) (fun q => snd q * (neumann (snd (fst q)) * fine_val P w (fst s) (fst (fst q)))).

(** Integral over a side of the function alone, restricted to the points
    chosen by [here]. *)
Definition side_integral (here : P -> bool) (w : nat -> R) (s : fcell P * cface P) : R :=
  lsum (filter (fun q => here (snd (fst q))) (cf_quad P (snd s)))
       (fun q => snd q * fine_val P w (fst s) (fst (fst q))).

(** Two sides of the same inner intersection: same points and weights, same
    values of every function. *)
Definition same_place (s t : fcell P * cface P) : Prop :=
  Forall2 (fun q r => snd (fst q) = snd (fst r) /\ snd q = snd r /\
      forall w, fine_val P w (fst s) (fst (fst q)) = fine_val P w (fst t) (fst (fst r)))
    (cf_quad P (snd s)) (cf_quad P (snd t)).

(** No quadrature point of the side is chosen by [here]. *)
Definition off (here : P -> bool) (s : fcell P * cface P) : Prop :=
  forall q, In q (cf_quad P (snd s)) -> here (snd (fst q)) = false.
End Spec.
