(** Vocabulary for C107: polynomials on the cube and their integrals. *)
From Coq Require Import Reals List Arith Bool.
From Verif Require Import Util RSum CoarseModel QuadModel.
Import ListNotations.
Open Scope R_scope.

(** [v] is the integral of [f] over the cube [0,1]^d: integrate over the other
    coordinates first, then over the first one by an antiderivative. *)
Fixpoint is_integral (d : nat) (f : list R -> R) (v : R) : Prop :=
  match d with
  | O => v = f []
  | S d' => exists g F, (forall x, is_integral d' (fun ys => f (x :: ys)) (g x)) /\
              (forall x, derivable_pt_lim F x (g x)) /\ v = F 1 - F 0
  end.

(** Product of powers of the coordinates. *)
Fixpoint monomial (es : list nat) (xs : list R) : R :=
  match es, xs with
  | e :: es', x :: xs' => x ^ e * monomial es' xs'
  | _, _ => 1
  end.

(** [f] is a polynomial of [d] variables whose degree in each single variable
    is at most [m]. *)
Definition poly (d m : nat) (f : list R -> R) : Prop :=
  exists ts : list (R * list nat),
    (forall t, In t ts -> length (snd t) = d /\ forall e, In e (snd t) -> (e <= m)%nat) /\
    forall x, length x = d -> f x = lsum ts (fun t => fst t * monomial (snd t) x).

(** Sum of weights times values. *)
Definition apply_rule (r : list (list R * R)) (f : list R -> R) : R := lsum r (fun q => snd q * f (fst q)).

(** Bilinear form integrated over an element of the coarse assembly: constant
    integration element, polynomial diffusion of degree [k] in each variable. *)
Definition poly_cell (d k : nat) (diffusion : list R -> nat -> nat -> R) (l : local_cell (list R)) : Prop :=
  poly d 0 (lc_factor _ l) /\
  forall i j, (i < d)%nat -> (j < d)%nat -> poly d k (fun x => diffusion (lc_global _ l x) i j).
Definition poly_field (d m : nat) (u : list R -> nat -> R) : Prop :=
  forall i, (i < d)%nat -> poly d m (fun x => u x i).
(** The integrand of the energy product. *)
Definition energy_density (d : nat) (diffusion : list R -> nat -> nat -> R) (l : local_cell (list R))
  (u v : list R -> nat -> R) : list R -> R :=
  fun x => lc_factor _ l x * dot d (mv d (diffusion (lc_global _ l x)) (u x)) (v x).

(** The same for an element of a local grid. *)
Definition poly_element (d k n : nat) (e : element) : Prop :=
  poly d 0 (el_factor e) /\
  (forall i j, (i < d)%nat -> (j < d)%nat -> poly d k (fun x => el_A e x i j)) /\
  forall i, (i < n)%nat -> poly_field d 1 (el_grad e i).
