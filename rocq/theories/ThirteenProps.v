(** C118: data of the problem Thirteen. *)
From Coq Require Import Reals Arith Bool Lra Lia ZArith.
From Verif Require Import ExactModel ThirteenModel ThirteenSpec.
Open Scope R_scope.

Lemma le_dec : forall a b, (a <= b /\ le_test a b = true) \/ (b < a /\ le_test a b = false).
Proof. intros a b. unfold le_test. destruct (Rle_dec a b); [left|right]; split; auto; lra. Qed.
Ltac tests := repeat (match goal with |- context [le_test ?a ?b] => destruct (le_dec a b) as [(? & ->)|(? & ->)] end; cbn [andb orb negb]).
Lemma floor_is : forall a, is_floor (Int_part a) a.
Proof. intros a. unfold is_floor. pose proof (base_Int_part a). lra. Qed.
Lemma floor_one : forall n m a, is_floor n a -> is_floor m a -> n = m.
Proof.
  intros n m a (A & B) (C & D). apply Z.le_antisymm; apply Z.lt_succ_r; apply lt_IZR; rewrite succ_IZR; lra.
Qed.

(** The coefficient by region. *)
Lemma coefficient_cases : forall eps s x,
  (conductor (x 0%nat) (x 1%nat) -> coefficient13 eps s x = s) /\
  (isolator (x 0%nat) (x 1%nat) -> coefficient13 eps s x = 1/100) /\
  (~ conductor (x 0%nat) (x 1%nat) -> ~ isolator (x 0%nat) (x 1%nat) ->
   forall a b c d, is_floor a (x 0%nat + x 1%nat) -> is_floor b (x 1%nat - x 0%nat) -> is_floor c (x 0%nat / eps) -> is_floor d (x 1%nat / eps) ->
   coefficient13 eps s x = 6/5 + 1/2 * sin (IZR (a + c + d)) + 1/2 * cos (IZR (b + c + d))).
Proof.
  intros eps s x. unfold conductor, isolator, strip_height. split; [|split].
  - intros H. unfold coefficient13. tests; try reflexivity; exfalso; lra.
  - intros H. unfold coefficient13. tests; try lra.
  - intros C I a b c d A B C' D'. rewrite (floor_one _ _ _ A (floor_is _)), (floor_one _ _ _ B (floor_is _)), (floor_one _ _ _ C' (floor_is _)), (floor_one _ _ _ D' (floor_is _)).
    rewrite !plus_IZR. unfold coefficient13, floor.
    set (f := Int_part _). set (g := Int_part (x 1%nat - x 0%nat)). set (h := Int_part (x 0%nat / eps)). set (k := Int_part (x 1%nat / eps)).
    tests; try lra; exfalso; first [apply C; lra | apply I; lra].
Qed.

(** Conductors and isolator have no point in common. *)
Lemma regions_apart : forall x y, conductor x y -> isolator x y -> False.
Proof. unfold conductor, isolator, strip_height. intros. lra. Qed.

(** The flux is a multiple of the direction: 20 in the conductors, 1/100 in the
    isolator, otherwise a number between 1/5 and 11/5 that depends on rounded
    coordinates only.  Components beyond the second keep what the caller passed
    in. *)
Theorem C118_flux : forall eps x, exists c,
  (forall v flux, diffusive_flux eps x v flux 0 = c * v 0%nat /\ diffusive_flux eps x v flux 1 = c * v 1%nat /\
     forall k, (2 <= k)%nat -> diffusive_flux eps x v flux k = flux k) /\
  (conductor (x 0%nat) (x 1%nat) -> c = 20) /\
  (isolator (x 0%nat) (x 1%nat) -> c = 1/100) /\
  (~ conductor (x 0%nat) (x 1%nat) -> ~ isolator (x 0%nat) (x 1%nat) ->
   1/5 <= c <= 11/5 /\
   forall a b c' d, is_floor a (x 0%nat + x 1%nat) -> is_floor b (x 1%nat - x 0%nat) -> is_floor c' (x 0%nat / eps) -> is_floor d (x 1%nat / eps) ->
   c = 6/5 + 1/2 * sin (IZR (a + c' + d)) + 1/2 * cos (IZR (b + c' + d))).
Proof.
  intros eps x. exists (coefficient13 eps 20 x). destruct (coefficient_cases eps 20 x) as (A & B & C). split; [|split; [|split]]; auto.
  - intros v flux. unfold diffusive_flux, write_flux, set1. cbn. split; [|split]; try ring.
    intros [|[|k]] L; try lia. reflexivity.
  - intros D E. split; [|now apply C].
    rewrite (C D E _ _ _ _ (floor_is _) (floor_is _) (floor_is _) (floor_is _)).
    match goal with |- context [sin ?a] => pose proof (SIN_bound a) end. match goal with |- context [cos ?a] => pose proof (COS_bound a) end. lra.
Qed.
Print Assumptions C118_flux.

(** Uniform ellipticity in two dimensions, with constants that are attained. *)
Theorem C118_elliptic :
  (forall eps x v flux, let F := diffusive_flux eps x v flux in
     1/100 * (v 0%nat * v 0%nat + v 1%nat * v 1%nat) <= F 0%nat * v 0%nat + F 1%nat * v 1%nat <= 20 * (v 0%nat * v 0%nat + v 1%nat * v 1%nat)) /\
  forall lo hi, (forall eps x v flux, let F := diffusive_flux eps x v flux in
     lo * (v 0%nat * v 0%nat + v 1%nat * v 1%nat) <= F 0%nat * v 0%nat + F 1%nat * v 1%nat <= hi * (v 0%nat * v 0%nat + v 1%nat * v 1%nat)) ->
    lo <= 1/100 /\ 20 <= hi.
Proof.
  split.
  - intros eps x v flux F. destruct (C118_flux eps x) as (c & V & A & B & C). destruct (V v flux) as (V0 & V1 & _). unfold F. rewrite V0, V1.
    assert (R : 1/100 <= c <= 20).
    { assert (Dc : conductor (x 0%nat) (x 1%nat) \/ ~ conductor (x 0%nat) (x 1%nat)).
      { unfold conductor, strip_height. destruct (Rle_dec 0 (x 0%nat)), (Rle_dec (x 0%nat) (4/5)), (Rle_dec (1/5) (x 1%nat)), (Rle_dec (x 1%nat) (1/4)), (Rle_dec (3/4) (x 1%nat)), (Rle_dec (x 1%nat) (4/5)); (left; lra) || (right; lra). }
      assert (Di : isolator (x 0%nat) (x 1%nat) \/ ~ isolator (x 0%nat) (x 1%nat)).
      { unfold isolator. destruct (Rle_dec (19/40) (x 0%nat)), (Rle_dec (x 0%nat) (21/40)), (Rle_dec (7/20) (x 1%nat)), (Rle_dec (x 1%nat) (13/20)); (left; lra) || (right; lra). }
      destruct Dc as [D|D]; [rewrite (A D); lra|]. destruct Di as [E|E]; [rewrite (B E); lra|]. destruct (C D E); lra. }
    pose proof (Rle_0_sqr (v 0%nat)). pose proof (Rle_0_sqr (v 1%nat)). unfold Rsqr in *. nra.
  - intros lo hi H. split.
    + destruct (H 1 (fun _ => 1/2) (fun k => match k with O => 1 | _ => 0 end) (fun _ => 0)) as (L & _). cbn beta zeta in L.
      destruct (C118_flux 1 (fun _ => 1/2)) as (c & V & _ & B & _).
      destruct (V (fun k => match k with O => 1 | _ => 0 end) (fun _ => 0)) as (V0 & V1 & _). rewrite V0, V1, B in L by (unfold isolator; lra). lra.
    + destruct (H 1 (fun _ => 1/4) (fun k => match k with O => 1 | _ => 0 end) (fun _ => 0)) as (_ & U). cbn beta zeta in U.
      destruct (C118_flux 1 (fun _ => 1/4)) as (c & V & A & _).
      destruct (V (fun k => match k with O => 1 | _ => 0 end) (fun _ => 0)) as (V0 & V1 & _). rewrite V0, V1, A in U by (unfold conductor, strip_height; lra). lra.
Qed.
Print Assumptions C118_elliptic.

(** The flux is linear in the direction, so it is its own derivative; what the
    code offers as derivative is right exactly outside of the conductors.  There
    it is five times too large. *)
Theorem C118_derivative : forall eps x p v flux,
  (~ conductor (x 0%nat) (x 1%nat) -> forall k, jacobian_diffusive_flux eps x p v flux k = diffusive_flux eps x v flux k) /\
  (conductor (x 0%nat) (x 1%nat) -> forall k, (k < 2)%nat -> jacobian_diffusive_flux eps x p v flux k = 5 * diffusive_flux eps x v flux k).
Proof.
  intros eps x p v flux. destruct (coefficient_cases eps 20 x) as (A & B & C). destruct (coefficient_cases eps 100 x) as (A' & B' & C').
  split; intros D.
  - assert (E : coefficient13 eps 100 x = coefficient13 eps 20 x).
    { assert (Di : isolator (x 0%nat) (x 1%nat) \/ ~ isolator (x 0%nat) (x 1%nat)).
      { unfold isolator. destruct (Rle_dec (19/40) (x 0%nat)), (Rle_dec (x 0%nat) (21/40)), (Rle_dec (7/20) (x 1%nat)), (Rle_dec (x 1%nat) (13/20)); (left; lra) || (right; lra). }
      destruct Di as [I|I]; [now rewrite B, B'|].
      now rewrite (C D I _ _ _ _ (floor_is _) (floor_is _) (floor_is _) (floor_is _)), (C' D I _ _ _ _ (floor_is _) (floor_is _) (floor_is _) (floor_is _)). }
    intros k. unfold jacobian_diffusive_flux, diffusive_flux. now rewrite E.
  - intros k L. unfold jacobian_diffusive_flux, diffusive_flux. rewrite A, A' by auto. unfold write_flux, set1.
    destruct k as [|[|k]]; [cbn; ring|cbn; ring|lia].
Qed.
Print Assumptions C118_derivative.

(** The prescribed flux is 2 at the heights of the conductors and 0 elsewhere;
    there is no source. *)
Theorem C118_inflow : forall x,
  (strip_height (x 1%nat) -> neumann13 x = 2) /\ (~ strip_height (x 1%nat) -> neumann13 x = 0) /\ first_source x = 0 /\
  (0 <= x 0%nat <= 4/5 -> (conductor (x 0%nat) (x 1%nat) <-> neumann13 x = 2)).
Proof.
  intros x. unfold conductor, strip_height, neumann13. split; [|split; [|split; [reflexivity|]]].
  - intros H. tests; lra.
  - intros H. tests; try reflexivity; exfalso; apply H; lra.
  - intros X. split; intros H.
    + tests; lra.
    + split; auto. revert H. tests; intros; lra.
Qed.
Print Assumptions C118_inflow.

(** * Concrete cases: a point of the lower conductor, one of the isolator, one
    of neither. *)
Definition at_point (a b : R) : point := fun k => match k with O => a | _ => b end.
Definition both (a b : R) : nat -> R := fun k => match k with O => a | 1%nat => b | _ => 0 end.
Example C118_case :
  diffusive_flux (1/20) (at_point (1/3) (11/50)) (both 1 2) (fun _ => 7) 1 = 40 /\
  jacobian_diffusive_flux (1/20) (at_point (1/3) (11/50)) (both 0 0) (both 1 2) (fun _ => 7) 1 = 200 /\
  diffusive_flux (1/20) (at_point (1/2) (1/2)) (both 1 2) (fun _ => 7) 0 = 1/100 /\
  diffusive_flux 1 (at_point (1/10) (1/2)) (both 1 2) (fun _ => 7) 0 = 17/10 /\
  diffusive_flux 1 (at_point (1/10) (1/2)) (both 1 2) (fun _ => 7) 2 = 7 /\
  neumann13 (at_point 0 (4/5)) = 2 /\ neumann13 (at_point 0 (1/2)) = 0.
Proof.
  pose proof (proj1 (C118_inflow (at_point 0 (4/5)))) as N. pose proof (proj1 (proj2 (C118_inflow (at_point 0 (1/2))))) as N'.
  assert (F : forall n a, is_floor n a -> Int_part a = n) by (intros n a H; now apply (floor_one _ _ a (floor_is a))).
  repeat split.
  - destruct (C118_flux (1/20) (at_point (1/3) (11/50))) as (c & V & A & _). destruct (V (both 1 2) (fun _ => 7)) as (_ & -> & _).
    rewrite A by (unfold conductor, strip_height; cbn; lra). cbn. ring.
  - rewrite (proj2 (C118_derivative (1/20) (at_point (1/3) (11/50)) (both 0 0) (both 1 2) (fun _ => 7))) by (try lia; unfold conductor, strip_height; cbn; lra).
    destruct (C118_flux (1/20) (at_point (1/3) (11/50))) as (c & V & A & _). destruct (V (both 1 2) (fun _ => 7)) as (_ & -> & _).
    rewrite A by (unfold conductor, strip_height; cbn; lra). cbn. ring.
  - destruct (C118_flux (1/20) (at_point (1/2) (1/2))) as (c & V & _ & B & _). destruct (V (both 1 2) (fun _ => 7)) as (-> & _).
    rewrite B by (unfold isolator; cbn; lra). cbn. ring.
  - destruct (C118_flux 1 (at_point (1/10) (1/2))) as (c & V & _ & _ & C). destruct (V (both 1 2) (fun _ => 7)) as (-> & _).
    destruct C as (_ & C); [unfold conductor, strip_height; cbn; lra|unfold isolator; cbn; lra|].
    rewrite (C 0%Z 0%Z 0%Z 0%Z) by (unfold is_floor; cbn; lra). cbn. rewrite sin_0, cos_0. lra.
  - apply N. unfold strip_height. cbn. lra.
  - apply N'. unfold strip_height. cbn. lra.
Qed.
