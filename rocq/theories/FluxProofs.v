From Coq Require Import Reals List Arith Bool Lia Lra Permutation.
From Verif Require Import Util RSum CoarseModel CoarseSpec CoarseProofs SystemModel SystemProofs FemModel FemSpec FemProofs
  FluxModel FluxSpec.
Import ListNotations.
Open Scope R_scope.

Section S.
Variable P : Type.
Variable neumann : P -> R.
Notation cells_t := (list (fcell P * list (cface P))).
Notation load_on := (side_load P neumann).

Definition spot (c : fcell P) (i a : nat) : R := if Nat.eqb (fc_index P c i) a then 1 else 0.

Lemma flux_face_val : forall c V f a,
  flux_face P neumann c V f a = V a + rsum (fc_n P c) (fun i => spot c i a *
    lsum (cf_quad P f) (fun q => snd q * (neumann (snd (fst q)) * fc_val P c i (fst (fst q))))).
Proof.
  intros c V f a. unfold flux_face.
  rewrite (fold_sum1 _ _ (fun i a => spot c i a *
    lsum (cf_quad P f) (fun q => snd q * (neumann (snd (fst q)) * fc_val P c i (fst (fst q)))))).
  - rewrite lsum_seq. reflexivity.
  - intros W i b. rewrite vadd_val. unfold spot, ind. rewrite Nat.eqb_sym. reflexivity.
Qed.

Lemma local_flux_val : forall (cells : cells_t) a,
  local_flux P neumann cells a = lsum (sides P cells) (fun s => rsum (fc_n P (fst s)) (fun i => spot (fst s) i a *
    lsum (cf_quad P (snd s)) (fun q => snd q * (neumann (snd (fst q)) * fc_val P (fst s) i (fst (fst q)))))).
Proof.
  intros cells a. unfold local_flux, sides. rewrite lsum_flat_map.
  rewrite (fold_sum1 _ _ (fun cf a => lsum (snd cf) (fun f => rsum (fc_n P (fst cf)) (fun i => spot (fst cf) i a *
    lsum (cf_quad P f) (fun q => snd q * (neumann (snd (fst q)) * fc_val P (fst cf) i (fst (fst q)))))))).
  - rewrite Rplus_0_l. apply lsum_ext. intros cf _. rewrite lsum_map. reflexivity.
  - intros V cf b. rewrite (fold_sum1 _ _ (fun f b => rsum (fc_n P (fst cf)) (fun i => spot (fst cf) i b *
      lsum (cf_quad P f) (fun q => snd q * (neumann (snd (fst q)) * fc_val P (fst cf) i (fst (fst q))))))).
    + reflexivity.
    + intros W f b'. apply flux_face_val.
Qed.

Lemma flux_total : forall N (cells : cells_t) w,
  (forall c fs i, In (c, fs) cells -> (i < fc_n P c)%nat -> (fc_index P c i < N)%nat) ->
  rsum N (fun a => w a * local_flux P neumann cells a) = lsum (sides P cells) (load_on w).
Proof.
  intros N cells w L.
  rewrite (rsum_ext N _ (fun a => lsum (sides P cells) (fun s => w a * rsum (fc_n P (fst s)) (fun i => spot (fst s) i a *
    lsum (cf_quad P (snd s)) (fun q => snd q * (neumann (snd (fst q)) * fc_val P (fst s) i (fst (fst q)))))))).
  2:{ intros a _. rewrite local_flux_val. now rewrite lsum_scale. }
  rewrite <- lsum_rsum. apply lsum_ext. intros (c, f) I. cbn [fst snd].
  unfold sides in I. apply in_flat_map in I. destruct I as ((c', fs) & I & J). apply in_map_iff in J.
  destruct J as (f' & E & J). cbn [fst snd] in *. injection E as -> ->.
  unfold side_load, fine_val. cbn [fst snd].
  rewrite (rsum_ext N _ (fun a => rsum (fc_n P c) (fun i => (w a * spot c i a) *
    lsum (cf_quad P f) (fun q => snd q * (neumann (snd (fst q)) * fc_val P c i (fst (fst q))))))).
  2:{ intros a _. rewrite <- rsum_scale. apply rsum_ext. intros. ring. }
  rewrite rsum_swap.
  rewrite (rsum_ext (fc_n P c) _ (fun i => lsum (cf_quad P f) (fun q =>
     snd q * (neumann (snd (fst q)) * (w (fc_index P c i) * fc_val P c i (fst (fst q))))))).
  - rewrite <- lsum_rsum. apply lsum_ext. intros q _. rewrite !rsum_scale. reflexivity.
  - intros i Li. rewrite rsum_scale_r.
    rewrite (rsum_single N (fc_index P c i)); [|now apply (L c fs)|].
    + unfold spot. rewrite Nat.eqb_refl, Rmult_1_r, <- lsum_scale. apply lsum_ext. intros. ring.
    + intros a _ NE. unfold spot. destruct (Nat.eqb_spec (fc_index P c i) a); [congruence|ring].
Qed.

Lemma same_load : forall w s t, same_place P s t -> load_on w s = load_on w t.
Proof.
  intros w s t H. unfold side_load. unfold same_place in H. induction H as [|q r l m (E1 & E2 & E3) H IH]; [reflexivity|].
  cbn [lsum]. rewrite IH, E1, E2, E3. reflexivity.
Qed.

Lemma flux_split : forall N (cells : cells_t) outer inner w,
  (forall c fs i, In (c, fs) cells -> (i < fc_n P c)%nat -> (fc_index P c i < N)%nat) ->
  Permutation (sides P cells) (outer ++ flat_map (fun p => [fst p; snd p]) inner) ->
  (forall p, In p inner -> same_place P (fst p) (snd p)) ->
  rsum N (fun a => w a * local_flux P neumann cells a) =
  lsum outer (load_on w) + 2 * lsum inner (fun p => load_on w (fst p)).
Proof.
  intros N cells outer inner w L Pm S. rewrite (flux_total N cells w L).
  rewrite (lsum_perm _ _ _ _ Pm), lsum_app. f_equal. rewrite lsum_flat_map, <- lsum_scale.
  apply lsum_ext. intros p I. cbn [lsum]. rewrite (same_load w _ _ (S p I)). ring.
Qed.

Lemma flux_restricted : forall N (cells : cells_t) outer inner w here x,
  (forall c fs i, In (c, fs) cells -> (i < fc_n P c)%nat -> (fc_index P c i < N)%nat) ->
  Permutation (sides P cells) (outer ++ inner) ->
  (forall s, In s inner -> off P here s) ->
  (forall y, neumann y = if here y then x else 0) ->
  rsum N (fun a => w a * local_flux P neumann cells a) = x * lsum outer (side_integral P here w).
Proof.
  intros N cells outer inner w here x L Pm O E. rewrite (flux_total N cells w L).
  rewrite (lsum_perm _ _ _ _ Pm), lsum_app, (lsum_0 _ inner), Rplus_0_r.
  - rewrite <- lsum_scale. apply lsum_ext. intros s _. unfold side_load, side_integral.
    induction (cf_quad P (snd s)) as [|q l IH]; simpl; [ring|]. rewrite IH, E.
    destruct (here (snd (fst q))); cbn [lsum]; ring.
  - intros s I. unfold side_load. apply lsum_0. intros q J. rewrite E, (O s I q J). ring.
Qed.
End S.
