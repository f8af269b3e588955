(** Proofs for C93, C94. *)
From Coq Require Import Reals List Arith Bool Lra Lia Permutation.
From Verif Require Import Util RSum CoarseModel CoarseSpec CoarseProofs LinModel LinSpec LinProofs.
From Verif Require Import SystemModel SystemSpec SystemProofs FemModel FemSpec.
Import ListNotations.
Open Scope R_scope.

Section S.
Variable d : nat.
Variable P : Type.
Variable diffusion : P -> nat -> nat -> R.
Variable source : P -> R.
Variable neumann : P -> R.

(** A fine element as a coarse cell without correctors; used in proofs only. *)
Definition bare_local (c : fcell P) : local_cell P :=
  {| lc_covered := true; lc_global := fc_global P c; lc_factor := fc_factor P c;
     lc_grad := fun _ _ _ => 0; lc_val := fun _ _ => 0; lc_quad := fc_quad P c; lc_rquad := fc_rquad P c |}.
Definition bare (c : fcell P) : coarse_cell P :=
  {| cc_n := fc_n P c; cc_grad := fc_grad P c; cc_val := fc_val P c; cc_index := fc_index P c;
     cc_slots := fc_n P c + 2; cc_locals := [bare_local c] |}.
Definition bares (cells : list (fcell P * list (cface P))) : list (coarse_cell P * list (cface P)) :=
  map (fun cf => (bare (fst cf), snd cf)) cells.

Lemma energy_ext : forall l u u' v v',
  (forall q k, In q (lc_quad P l) -> (k < d)%nat -> u (fst q) k = u' (fst q) k) ->
  (forall q k, In q (lc_quad P l) -> (k < d)%nat -> v (fst q) k = v' (fst q) k) ->
  CoarseSpec.energy d P diffusion l u v = CoarseSpec.energy d P diffusion l u' v'.
Proof.
  intros l u u' v v' A B. unfold CoarseSpec.energy. apply lsum_ext. intros q I. f_equal.
  apply dot_ext; auto. intros i L. apply mv_ext. auto.
Qed.

Lemma bare_energy : forall c u v, CoarseSpec.energy d P diffusion (bare_local c) u v = fine_energy d P diffusion c u v.
Proof. reflexivity. Qed.
Lemma bare_load : forall c v, load P source (bare_local c) v = fine_load P source c v.
Proof. reflexivity. Qed.

Lemma fem_matrix_val : forall c M a b,
  fem_matrix_cell d P diffusion c M a b = M a b + cell_part d P diffusion (bare c) a b.
Proof.
  intros c M a b. unfold fem_matrix_cell.
  rewrite (fold_sum2 _ _ (fun ii a b => rsum (fc_n P c) (fun jj => hit P (bare c) ii a * hit P (bare c) jj b *
    fine_energy d P diffusion c (fc_grad P c jj) (fc_grad P c ii)))).
  - rewrite lsum_seq. f_equal. unfold cell_part. apply rsum_ext. intros i Li. cbn [bare cc_n]. rewrite Nat.add_0_l.
    apply rsum_ext. intros j Lj. f_equal. unfold covered. cbn. rewrite Rplus_0_r.
    unfold fine_energy. apply lsum_ext. intros q _.
    f_equal. apply dot_ext; [|intros k Lk; unfold used_grad; cbn; ring].
    intros k Lk. apply mv_ext. intros m Lm. unfold used_grad. cbn. ring.
  - intros M' ii a' b'. rewrite (fold_sum2 _ _ (fun jj a b => hit P (bare c) ii a * hit P (bare c) jj b *
      fine_energy d P diffusion c (fc_grad P c jj) (fc_grad P c ii))).
    + rewrite lsum_seq. f_equal.
    + intros M'' jj a'' b''. rewrite madd_val, ind_and. unfold hit, ind. cbn [bare cc_index].
      rewrite (Nat.eqb_sym (fc_index P c ii)), (Nat.eqb_sym (fc_index P c jj)). unfold fine_energy. f_equal.
Qed.

Lemma fem_force_val : forall c V a,
  fem_force_cell P source c V a = V a + rsum (fc_n P c) (fun i => hit P (bare c) i a * fine_load P source c (fc_val P c i)).
Proof.
  intros c V a. unfold fem_force_cell.
  rewrite (fold_sum1 _ _ (fun i a => hit P (bare c) i a * fine_load P source c (fc_val P c i))).
  - rewrite lsum_seq. reflexivity.
  - intros W i b. rewrite vadd_val. unfold hit, ind. cbn [bare cc_index]. rewrite Nat.eqb_sym. reflexivity.
Qed.

Lemma fem_faces_val : forall c fs V a,
  fold_left (fem_face P neumann c) fs V a = fold_left (add_face P neumann (bare c)) fs V a.
Proof.
  intros c fs. induction fs as [|f fs IH]; intros V a; cbn [fold_left]; [reflexivity|apply IH].
Qed.

Lemma fem_walk_val : forall cells,
  (forall a b, fst (fem_walk d P diffusion source neumann cells) a b = lsum (bares cells) (fun cf => cell_part d P diffusion (fst cf) a b)) /\
  (forall a, snd (fem_walk d P diffusion source neumann cells) a = lsum (bares cells) (fun cf => rhs_part d P diffusion source neumann cf a)).
Proof.
  intros cells. unfold fem_walk.
  assert (G : forall MV,
    (forall a b, fst (fold_left (fun MV cf =>
      (fem_matrix_cell d P diffusion (fst cf) (fst MV),
       fold_left (fem_face P neumann (fst cf)) (snd cf) (fem_force_cell P source (fst cf) (snd MV)))) cells MV) a b =
      fst MV a b + lsum (bares cells) (fun cf => cell_part d P diffusion (fst cf) a b)) /\
    (forall a, snd (fold_left (fun MV cf =>
      (fem_matrix_cell d P diffusion (fst cf) (fst MV),
       fold_left (fem_face P neumann (fst cf)) (snd cf) (fem_force_cell P source (fst cf) (snd MV)))) cells MV) a =
      snd MV a + lsum (bares cells) (fun cf => rhs_part d P diffusion source neumann cf a))).
  { induction cells as [|(c, fs) r IH]; intros (M, V); cbn [fold_left bares map lsum fst snd].
    - split; intros; ring.
    - destruct (IH (fem_matrix_cell d P diffusion c M, fold_left (fem_face P neumann c) fs (fem_force_cell P source c V))) as (A & B).
      cbn [fst snd] in A, B. split.
      + intros a b. rewrite A, fem_matrix_val. unfold bares. ring.
      + intros a. rewrite B, fem_faces_val, add_faces_val, fem_force_val. unfold bares.
        unfold rhs_part at 2. cbn [fst snd]. rewrite Rplus_assoc, Rplus_assoc. f_equal. rewrite <- Rplus_assoc. f_equal.
        rewrite <- rsum_plus. apply rsum_ext. intros i Li. rewrite <- Rmult_plus_distr_l. f_equal. f_equal.
        unfold covered. cbn [bare cc_locals filter lc_covered bare_local lsum].
        rewrite bare_load.
        replace (rhs_energy _ _ _ _ _ _) with 0.
        * unfold Rminus. rewrite Ropp_0, !Rplus_0_r. unfold fine_load. apply lsum_ext. intros q _. do 2 f_equal.
          unfold used_val. cbn. ring.
        * symmetry. unfold rhs_energy. apply lsum_0. intros q _.
          unfold dot. rewrite rsum_0; [ring|]. intros k Lk. unfold mv. rewrite rsum_0; [ring|]. intros m Lm.
          cbn. ring. }
  specialize (G (fun _ _ => 0, fun _ => 0)). destruct G as (A & B). split; intros.
  - rewrite A. cbn [fst]. ring.
  - rewrite B. cbn [snd]. ring.
Qed.

Lemma bares_in : forall cells c fs, In (c, fs) (bares cells) -> exists c', In (c', fs) cells /\ c = bare c'.
Proof. intros cells c fs I. apply in_map_iff in I. destruct I as ((c' & fs') & E & I). injection E as <- <-. eauto. Qed.
Lemma lsum_bares : forall cells f, lsum (bares cells) f = lsum cells (fun cf => f (bare (fst cf), snd cf)).
Proof. intros cells f. induction cells as [|cf r IH]; simpl; auto. now rewrite IH. Qed.

(** The reference system is the coarse system of elements without correctors. *)
Lemma fem_as_coarse : forall cells N constrained g start u,
  fem_solution d P diffusion source neumann N constrained g start cells u <->
  coarse_solution d P diffusion source neumann N constrained g (bares cells) u.
Proof.
  intros cells N constrained g start u. unfold fem_solution. rewrite fem_bvp.
  destruct (fem_walk_val cells) as (A & B).
  assert (W : exists r, walk d P diffusion source neumann (fun _ _ => 0) (fun _ => 0) (bares cells) = Some r).
  { apply walk_some. intros c fs I. apply bares_in in I. destruct I as (c' & _ & ->). reflexivity. }
  destruct W as ((M, V) & W). destruct (walk_val _ _ _ _ _ _ _ _ _ _ W) as (A' & B').
  assert (T : solves_bvp N constrained (fst (fem_walk d P diffusion source neumann cells)) (snd (fem_walk d P diffusion source neumann cells)) g u <->
              solves_bvp N constrained M V g u).
  { assert (EA : forall a b, fst (fem_walk d P diffusion source neumann cells) a b = M a b) by (intros; rewrite A, A'; ring).
    assert (EB : forall a, snd (fem_walk d P diffusion source neumann cells) a = V a) by (intros; rewrite B, B'; ring).
    unfold solves_bvp. split; intros H i Li; specialize (H i Li); destruct (constrained i); auto.
    - rewrite <- EB, <- H. apply rsum_ext. intros. now rewrite EA.
    - rewrite EB, <- H. apply rsum_ext. intros. now rewrite EA. }
  rewrite T. split.
  - intros H. exists M, V. split; auto. now apply coarse_bvp.
  - intros (M' & V' & E & H). rewrite W in E. injection E as <- <-. now apply coarse_bvp in H.
Qed.

Lemma fem_weak_form : forall cells N constrained g start u,
  (forall c fs i, In (c, fs) cells -> (i < fc_n P c)%nat -> (fc_index P c i < N)%nat) ->
  (fem_solution d P diffusion source neumann N constrained g start cells u <->
   (forall i, (i < N)%nat -> constrained i = true -> u i = g i) /\
   (forall v, (forall i, (i < N)%nat -> constrained i = true -> v i = 0) ->
     lsum cells (fun cf => fine_energy d P diffusion (fst cf) (fine_grad P u (fst cf)) (fine_grad P v (fst cf))) =
     lsum cells (fun cf => fine_load P source (fst cf) (fine_val P v (fst cf))
       + boundary_load P neumann (snd cf) (fine_val P v (fst cf))))).
Proof.
  intros cells N constrained g start u L. rewrite fem_as_coarse, weak_form.
  - assert (E1 : forall u v, lsum (bares cells) (fun cf => lsum (covered P (fst cf)) (fun l =>
        ms_energy d P diffusion u (fst cf) l (test_grad P v (fst cf) l))) =
      lsum cells (fun cf => fine_energy d P diffusion (fst cf) (fine_grad P u (fst cf)) (fine_grad P v (fst cf)))).
    { intros a b. rewrite lsum_bares. apply lsum_ext. intros (c, fs) _. unfold covered.
      cbn [bare fst cc_locals filter lc_covered bare_local lsum]. rewrite Rplus_0_r, <- bare_energy.
      unfold ms_energy.
      assert (Z : rhs_energy d P diffusion (bare_local c) (boundary_grad P (bare c) (bare_local c))
                    (test_grad P b (bare c) (bare_local c)) = 0).
      { unfold rhs_energy. apply lsum_0. intros q _. unfold dot. rewrite rsum_0; [ring|]. intros k Lk.
        unfold mv. rewrite rsum_0; [ring|]. intros m Lm. unfold boundary_grad. cbn. ring. }
      rewrite Z, Rplus_0_r. apply energy_ext; intros q k Iq Lk.
      - unfold test_grad, fine_grad. cbn [bare cc_n cc_index bare_local lc_grad].
        apply rsum_ext. intros. unfold used_grad. cbn. ring.
      - unfold test_grad, fine_grad. cbn [bare cc_n cc_index]. apply rsum_ext. intros. unfold used_grad. cbn. ring. }
    assert (E2 : forall v, lsum (bares cells) (fun cf => lsum (covered P (fst cf)) (fun l => load P source l (test_val P v (fst cf) l))
       + boundary_load P neumann (snd cf) (test_coarse P v (fst cf))) =
      lsum cells (fun cf => fine_load P source (fst cf) (fine_val P v (fst cf)) + boundary_load P neumann (snd cf) (fine_val P v (fst cf)))).
    { intros v. rewrite lsum_bares. apply lsum_ext. intros (c, fs) _. unfold covered.
      cbn [bare fst snd cc_locals filter lc_covered bare_local lsum]. rewrite Rplus_0_r. f_equal.
      change (load P source (bare_local c) (test_val P v (bare c) (bare_local c)) = fine_load P source c (fine_val P v c)).
      rewrite bare_load. unfold fine_load. apply lsum_ext. intros q _. do 2 f_equal.
      unfold test_val, fine_val. apply rsum_ext. intros. unfold used_val. cbn. ring. }
    split; intros (A & B); (split; [exact A|]); intros v Z; specialize (B v Z).
    + now rewrite <- E1, <- E2.
    + now rewrite E1, E2.
  - intros c fs i I. apply bares_in in I. destruct I as (c' & I & ->). apply (L c' fs i I).
  - apply walk_some. intros c fs I. apply bares_in in I. destruct I as (c' & _ & ->). reflexivity.
Qed.
End S.

Lemma lsum_map : forall A B (h : A -> B) l f, lsum (map h l) f = lsum l (fun a => f (h a)).
Proof. intros A B h l f. induction l as [|a l IH]; simpl; auto. now rewrite IH. Qed.
Lemma lsum_flat_map : forall A B (h : A -> list B) l f, lsum (flat_map h l) f = lsum l (fun a => lsum (h a) f).
Proof. intros A B h l f. induction l as [|a l IH]; simpl; auto. now rewrite lsum_app, IH. Qed.

Section Best.
Variable d : nat.
Variable P : Type.
Variable diffusion : P -> nat -> nat -> R.
Variable source : P -> R.
Variable neumann : P -> R.
Variable fine_of : coarse_cell P -> local_cell P -> fcell P.
Variable cells : list (coarse_cell P * list (cface P)).
Variable fines : list (fcell P * list (cface P)).
Notation en := (CoarseSpec.energy d P diffusion).

Lemma resolved_energy : forall uh V (G : coarse_cell P -> local_cell P -> P -> nat -> R),
  resolves d P diffusion fine_of cells fines ->
  (forall c fs l q k, In (c, fs) cells -> In l (covered P c) -> In q (lc_quad P l) -> (k < d)%nat ->
     fine_grad P V (fine_of c l) (fst q) k = G c l (fst q) k) ->
  lsum fines (fun cf => fine_energy d P diffusion (fst cf) (fine_grad P uh (fst cf)) (fine_grad P V (fst cf))) =
  lsum cells (fun cf => lsum (covered P (fst cf)) (fun l => en l (fine_grad P uh (fine_of (fst cf) l)) (G (fst cf) l))).
Proof.
  intros uh V G (Pm & Geo) GV.
  transitivity (lsum (map fst fines) (fun c => fine_energy d P diffusion c (fine_grad P uh c) (fine_grad P V c))).
  { now rewrite lsum_map. }
  rewrite (lsum_perm _ _ _ (fun c => fine_energy d P diffusion c (fine_grad P uh c) (fine_grad P V c)) Pm), lsum_flat_map.
  apply lsum_ext. intros (c, fs) Ic. rewrite lsum_map. apply lsum_ext. intros l Il. cbn [fst] in *.
  rewrite (Geo c fs l Ic Il). apply energy_ext; auto. intros q k Iq Lk. apply (GV c fs l q k); auto.
Qed.

Lemma ms_grad_diff : forall u w c l x k,
  ms_grad P w c l x k = ms_grad P u c l x k - test_grad P (fun i => u i - w i) c l x k.
Proof.
  intros u w c l x k. unfold ms_grad, test_grad.
  rewrite (rsum_ext _ (fun i => (u (cc_index P c i) - w (cc_index P c i)) * used_grad P c l i x k)
      (fun i => u (cc_index P c i) * used_grad P c l i x k - (w (cc_index P c i) * used_grad P c l i x k)))
      by (intros; ring).
  rewrite rsum_minus. ring.
Qed.

Lemma energy_plus_r : forall l u v w, en l w (fun x k => u x k + v x k) = en l w u + en l w v.
Proof.
  intros l u v w. unfold CoarseSpec.energy. rewrite <- lsum_plus. apply lsum_ext. intros q _.
  unfold dot. rewrite <- Rmult_plus_distr_l, <- rsum_plus. f_equal. apply rsum_ext. intros. ring.
Qed.
Lemma energy_minus_l : forall l u v w, en l (fun x k => u x k - v x k) w = en l u w - en l v w.
Proof.
  intros l u v w. assert (E : en l u w = en l (fun x k => (u x k - v x k) + v x k) w)
    by (apply energy_ext; intros; ring).
  rewrite E, energy_plus_l. ring.
Qed.
End Best.
