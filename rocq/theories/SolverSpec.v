(** Vocabulary for C102. *)
From Coq Require Import Reals List Arith Bool String.
From Verif Require Import Util StorageModel MsfemModel SolverModel RSum CoarseModel SystemModel.
Import ListNotations.

(** Another solver than the direct one: not available or not chosen. *)
Definition other_solver (built : bool) (conf : option string) : Prop :=
  built = false \/ exists t, conf = Some t /\ t <> "umfpack"%string.

(** The local problems of the cell are solved with this choice of solver. *)
Definition solved_with (F : Scalar) (built : bool) (conf : option string) (c : cell F) : Prop :=
  exists l, forall s r, c_solve F c s r = apply_inverse F built conf l s r.

Section Spec.
Variable P : Type.

(** A coarse cell whose local functions are those with coefficients [w i j]
    (function i, node j) in a local basis with [n] functions. *)
Definition local_functions (n : nat) (w : nat -> nat -> R) (c : coarse_cell P) : Prop :=
  forall l, In l (cc_locals P c) ->
    exists (value : nat -> P -> R) (gradient : nat -> P -> nat -> R),
      (forall i x, lc_val P l i x = rsum n (fun j => w i j * value j x)%R) /\
      (forall i x k, lc_grad P l i x k = rsum n (fun j => w i j * gradient j x k)%R).

(** The same cell without any local functions: standard finite elements on the
    coarse grid, integrated with the quadratures of the local grid. *)
Definition without_correctors (c : coarse_cell P) : coarse_cell P :=
  {| cc_n := cc_n P c; cc_grad := cc_grad P c; cc_val := cc_val P c; cc_index := cc_index P c;
     cc_slots := cc_slots P c;
     cc_locals := map (fun l => {| lc_covered := lc_covered P l; lc_global := lc_global P l;
       lc_factor := lc_factor P l; lc_grad := fun _ _ _ => 0%R; lc_val := fun _ _ => 0%R;
       lc_quad := lc_quad P l; lc_rquad := lc_rquad P l |}) (cc_locals P c) |}.
End Spec.
