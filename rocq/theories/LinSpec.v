(** Vocabulary for C18, C40-C42. *)
From Coq Require Import Reals List Arith Bool QArith.
From Verif Require Import Util RSum LinModel.
Import ListNotations.
Open Scope R_scope.

(** [u] takes the prescribed values on the constrained unknowns and satisfies
    all other equations of the original system. *)
Definition solves_bvp (n : nat) (constrained : nat -> bool) (A : nat -> nat -> R) (b g u : nat -> R) : Prop :=
  forall i, (i < n)%nat ->
    if constrained i then u i = g i
    else rsum n (fun j => A i j * u j) = b i.

(** Only the zero vector vanishes on the constrained unknowns and satisfies
    the other homogeneous equations. *)
Definition unique (n : nat) (constrained : nat -> bool) (A : nat -> nat -> R) : Prop :=
  forall u, solves_bvp n constrained A (fun _ => 0) (fun _ => 0) u ->
    forall i, (i < n)%nat -> u i = 0.

(** Gradient field of the local function with coefficients [x]. *)
Definition field_of (n : nat) (x : nat -> R) : qpoint -> nat -> R :=
  fun q k => rsum n (fun j => x j * q_grad q j k).

(** Energy product of gradient fields over the local grid. *)
Definition energy (d : nat) (qs : list qpoint) (u v : qpoint -> nat -> R) : R :=
  lsum qs (fun q => q_w q * dot d (mv d (q_A q) (u q)) (v q)).

Definition plus (u v : qpoint -> nat -> R) : qpoint -> nat -> R := fun q k => u q k + v q k.

(** Local function vanishing on the constrained unknowns. *)
Definition vanishes (n : nat) (constrained : nat -> bool) (x : nat -> R) : Prop :=
  forall i, (i < n)%nat -> constrained i = true -> x i = 0.

(** Two quadratures give the same energy products of a field with the local
    functions vanishing on the constrained unknowns. *)
Definition same_products (d : nat) (qs rs : list qpoint) (n : nat) (constrained : nat -> bool)
  (field : qpoint -> nat -> R) : Prop :=
  forall y, vanishes n constrained y -> energy d qs field (field_of n y) = energy d rs field (field_of n y).

Definition all_finite (v : list num) : Prop := forall x, In x v -> exists q, x = Some q.

(** [x] is the entrywise sum of [a] and [b]; a sum is a finite number exactly
    if both terms are. *)
Definition added (a b x : list num) : Prop :=
  length x = Nat.min (length a) (length b) /\
  forall i p r, nth_error a i = Some p -> nth_error b i = Some r ->
    exists w, nth_error x i = Some w /\
      match p, r with
      | Some u, Some v => exists y, w = Some y /\ (y == u + v)%Q
      | _, _ => w = None
      end.
