(** Proofs for C136. *)
From Coq Require Import Reals List Arith Bool Lra Lia Psatz.
From Verif Require Import Util RSum CoarseModel CoarseSpec CoarseProofs LinModel LinSpec LinProofs.
From Verif Require Import SystemModel SystemSpec SystemProofs FemModel EnergySpec EnergyProofs QuadModel QuadSpec QuadProofs.
From Verif Require Import PatchSpec PatchProofs SolveSpec SolveProofs LayerSpec LayerProofs MaxSpec MaxProofs BoundsSpec BoundsProofs.
From Verif Require Import InexactSpec InexactProofs ContrastSpec.
From Verif Require StrataSpec StrataProofs SampleProofs CompareProofs.
Import ListNotations.
Open Scope R_scope.

(** * Composite rules *)
(** Squares of linear functions, summed over [m] cells dividing the unit
    interval. *)
Lemma line_sum : forall m x r A B C,
  rsum m (fun c => A + (INR c + x) * r * B + (INR c + x) * r * ((INR c + x) * r) * C) =
  INR m * A + r * B * (INR m * (INR m - 1) / 2 + INR m * x) +
  r * r * C * (INR m * (INR m - 1) * (2 * INR m - 1) / 6 + x * INR m * (INR m - 1) + INR m * (x * x)).
Proof.
  induction m as [|m IH]; intros x r A B C; [cbn; field|]. cbn [rsum]. rewrite IH, S_INR. field.
Qed.
Lemma composite_line : forall line m r A B C, moments line -> INR m * r = 1 ->
  lsum line (fun p => snd p * rsum m (fun c => A + (INR c + fst p) * r * B + (INR c + fst p) * r * ((INR c + fst p) * r) * C)) =
  INR m * (A + B / 2 + C / 3).
Proof.
  intros line m r A B C (M0 & M2 & M1) E.
  rewrite (lsum_ext _ line _ (fun p =>
    (INR m * A + r * B * (INR m * (INR m - 1) / 2) + r * r * C * (INR m * (INR m - 1) * (2 * INR m - 1) / 6)) * snd p
    + (r * B * INR m + r * r * C * (INR m * (INR m - 1))) * (snd p * fst p) + r * r * C * INR m * (snd p * (fst p * fst p)))).
  - rewrite !lsum_plus, !lsum_scale, M0, M1, M2. rewrite Rmult_1_r.
    set (n := INR m) in *. assert (N : n <> 0) by (intros Z; rewrite Z in E; lra).
    replace r with (/ n) by (field_simplify_eq; auto; lra). field. auto.
  - intros p _. rewrite line_sum. field.
Qed.

Lemma bsum8 : forall ns line a1 a2 a3 a4 a5 a6 a7 a8 f1 f2 f3 f4 f5 f6 f7 f8,
  bsum ns line (fun c x => a1 * f1 c x + a2 * f2 c x + a3 * f3 c x + a4 * f4 c x + a5 * f5 c x + a6 * f6 c x + a7 * f7 c x + a8 * f8 c x) =
  a1 * bsum ns line f1 + a2 * bsum ns line f2 + a3 * bsum ns line f3 + a4 * bsum ns line f4
  + a5 * bsum ns line f5 + a6 * bsum ns line f6 + a7 * bsum ns line f7 + a8 * bsum ns line f8.
Proof.
  intros. unfold bsum. rewrite <- !lsum_scale, <- !lsum_plus. apply lsum_ext. intros c _.
  rewrite <- !lsum_scale, <- !lsum_plus. apply lsum_ext. intros q _. ring.
Qed.

Definition placed (line : list (R * R)) (ms : list nat) (gs os hs : list R) (a : nat -> R) (cs : list nat) (s : R) (v w : list nat -> R) : R :=
  bsum ms line (fun f xs =>
    rsum (length cs) (fun k => a k * (grad hs v cs (place os gs hs f xs) k * grad hs w cs (place os gs hs f xs) k)) +
    s * (value v cs (place os gs hs f xs) * value w cs (place os gs hs f xs))).

(** The rule in all cells of the divided coarse cell gives the same as the rule
    in the coarse cell. *)
Lemma placed_all : forall line, moments line -> forall cs ms gs os hs a s v w,
  length ms = length cs -> length gs = length cs -> length os = length cs -> length hs = length cs -> Forall (Rlt 0) hs ->
  (forall k, (k < length hs)%nat -> nth k os 0 = 0 /\ INR (nth k ms 0%nat) * nth k gs 0 = nth k hs 0) ->
  volume gs * placed line ms gs os hs a cs s v w = volume hs * pairing line hs a cs s v w.
Proof.
  intros line Mo. induction cs as [|c cs IH]; intros ms gs os hs a s v w L1 L2 L3 L4 Fh Fi;
    destruct ms as [|m ms], gs as [|g gs], os as [|o0 os], hs as [|h hs]; try discriminate.
  { unfold placed, pairing, bsum. cbn. ring. }
  injection L1 as L1. injection L2 as L2. injection L3 as L3. injection L4 as L4.
  apply Forall_cons_iff in Fh. destruct Fh as (Hh & Fh).
  destruct (Fi 0%nat ltac:(cbn; lia)) as (F0 & F1). cbn [nth] in F0, F1. subst o0.
  assert (Fi' : forall k, (k < length hs)%nat -> nth k os 0 = 0 /\ INR (nth k ms 0%nat) * nth k gs 0 = nth k hs 0)
    by (intros k Lk; apply (Fi (S k)); cbn; lia).
  set (v0 := fun js => v (c :: js)). set (v1 := fun js => v (S c :: js)).
  set (w0 := fun js => w (c :: js)). set (w1 := fun js => w (S c :: js)).
  set (a' := fun k => a (S k)). set (o := a 0%nat / (h * h)).
  assert (I1 : forall x y, volume gs * placed line ms gs os hs a' cs s x y = volume hs * pairing line hs a' cs s x y) by (intros; now apply IH).
  assert (I2 : forall x y, volume gs * placed line ms gs os hs (fun _ => 0) cs 1 x y = volume hs * pairing line hs (fun _ => 0) cs 1 x y)
    by (intros; now apply IH).
  rewrite pairing_cons by (auto; lra). fold v0 v1 w0 w1 a' o. unfold Rminus. rewrite !pairing_mass.
  set (B := placed line ms gs os hs a' cs s) in *. set (C := placed line ms gs os hs (fun _ => 0) cs 1) in *.
  set (P := pairing line hs a' cs s) in *. set (Q := pairing line hs (fun _ => 0) cs 1) in *.
  assert (E : placed line (m :: ms) (g :: gs) (0 :: os) (h :: hs) a (c :: cs) s v w =
    lsum line (fun p => snd p * rsum m (fun e =>
      (B v0 w0 + o * (C v0 w0 + C v1 w1 - C v0 w1 - C v1 w0))
      + (INR e + fst p) * (g / h) * (B v0 w1 + B v1 w0 - 2 * B v0 w0)
      + (INR e + fst p) * (g / h) * ((INR e + fst p) * (g / h)) * (B v0 w0 + B v1 w1 - B v0 w1 - B v1 w0)))).
  { unfold placed at 1. rewrite bsum_cons. apply lsum_ext. intros p _. f_equal. apply rsum_ext. intros e _.
    set (t := (INR e + fst p) * (g / h)).
    transitivity ((1 - t) * (1 - t) * B v0 w0 + t * (1 - t) * (B v0 w1 + B v1 w0) + t * t * B v1 w1
      + o * (C v0 w0 + C v1 w1 - C v0 w1 - C v1 w0)); [|ring].
    unfold B, C, placed.
    set (den := fun (b : nat -> R) (r : R) (y z : list nat -> R) (f : list nat) (xs : list R) =>
      rsum (length cs) (fun k => b k * (grad hs y cs (place os gs hs f xs) k * grad hs z cs (place os gs hs f xs) k)) +
      r * (value y cs (place os gs hs f xs) * value z cs (place os gs hs f xs))).
    transitivity (bsum ms line (fun f xs => let X := place os gs hs f xs in
      (rsum (length cs) (fun k => a' k * (((1 - t) * grad hs v0 cs X k + t * grad hs v1 cs X k) *
         ((1 - t) * grad hs w0 cs X k + t * grad hs w1 cs X k)))
       + s * (((1 - t) * value v0 cs X + t * value v1 cs X) * ((1 - t) * value w0 cs X + t * value w1 cs X))
       + o * ((value v1 cs X - value v0 cs X) * (value w1 cs X - value w0 cs X))))).
    { apply bsum_ext. intros f xs _ _. cbn [place length]. rewrite rsum_first. cbn [grad value].
      replace (0 + (INR e + fst p) * (g / h)) with t by (unfold t; ring). unfold v0, v1, w0, w1, a', o. cbv zeta. field. lra. }
    rewrite (bsum_ext ms line _ (fun f xs =>
      (1 - t) * (1 - t) * den a' s v0 w0 f xs + t * (1 - t) * den a' s v0 w1 f xs + t * (1 - t) * den a' s v1 w0 f xs + t * t * den a' s v1 w1 f xs
      + o * den (fun _ => 0) 1 v0 w0 f xs + o * den (fun _ => 0) 1 v1 w1 f xs + (- o) * den (fun _ => 0) 1 v0 w1 f xs + (- o) * den (fun _ => 0) 1 v1 w0 f xs)).
    - rewrite bsum8. unfold den. ring.
    - intros f xs _ _. cbv zeta. unfold den. set (X := place os gs hs f xs).
      rewrite !(rsum_0 (length cs) (fun k => 0 * _)) by (intros; ring).
      assert (Rs : rsum (length cs) (fun k => a' k * (((1 - t) * grad hs v0 cs X k + t * grad hs v1 cs X k) *
         ((1 - t) * grad hs w0 cs X k + t * grad hs w1 cs X k))) =
         (1 - t) * (1 - t) * rsum (length cs) (fun k => a' k * (grad hs v0 cs X k * grad hs w0 cs X k))
         + t * (1 - t) * rsum (length cs) (fun k => a' k * (grad hs v0 cs X k * grad hs w1 cs X k))
         + t * (1 - t) * rsum (length cs) (fun k => a' k * (grad hs v1 cs X k * grad hs w0 cs X k))
         + t * t * rsum (length cs) (fun k => a' k * (grad hs v1 cs X k * grad hs w1 cs X k))).
      { rewrite <- !rsum_scale, <- !rsum_plus. apply rsum_ext. intros. ring. }
      rewrite Rs. ring. }
  assert (R1 : INR m * (g / h) = 1) by (unfold Rdiv; rewrite <- Rmult_assoc, F1; apply Rinv_r; lra).
  rewrite E, composite_line by auto.
  cbn [volume fold_right]. fold (volume gs) (volume hs).
  transitivity (INR m * g * (volume gs * B v0 w0 + o * (volume gs * C v0 w0 + volume gs * C v1 w1 - volume gs * C v0 w1 - volume gs * C v1 w0)
    + (volume gs * B v0 w1 + volume gs * B v1 w0 - 2 * (volume gs * B v0 w0)) / 2
    + (volume gs * B v0 w0 + volume gs * B v1 w1 - volume gs * B v0 w1 - volume gs * B v1 w0) / 3)); [field|].
  rewrite F1, !I1, !I2. field.
Qed.

(** * One coarse cell *)
Lemma bsum_le_inside : forall ns line f g, Forall (fun p => 0 < snd p) line -> Forall (fun p => 0 < fst p < 1) line ->
  (forall cs xs, In cs (cells ns) -> length xs = length ns -> Forall (fun x => 0 < x < 1) xs -> f cs xs <= g cs xs) ->
  bsum ns line f <= bsum ns line g.
Proof.
  intros ns line f g F F' H. unfold bsum. apply lsum_le. intros cs I. apply lsum_le. intros q J.
  pose proof (rule_positive _ _ _ F J). apply Rmult_le_compat_l; [lra|]. apply H; auto.
  - apply (rule_length _ _ _ J).
  - apply (rule_inside line F' _ _ J).
Qed.

(** Energy of the field [G] plus the gradient of the function [X] of the local
    grid. *)
Definition whole (d o : nat) (diffusion : list R -> nat -> nat -> R) (G : list nat -> list R -> nat -> R) (p : patch) (X : list nat -> R) : R :=
  volume (pa_edges p) * bsum (pa_cells p) (line_rule (gauss_points o)) (fun f xs =>
    dot d (mv d (diffusion (pa_global p f xs)) (fun k => G f xs k + grad (pa_edges p) X f xs k))
      (fun k => G f xs k + grad (pa_edges p) X f xs k)).

Lemma dot_nonneg : forall d z, 0 <= dot d z z.
Proof. intros. unfold dot. apply rsum_nonneg. intros. apply Rle_0_sqr. Qed.

Lemma gradient_pairing : forall hs num u cs line, length hs = length cs -> Forall (Rlt 0) hs -> moments line ->
  gradient_square hs num u cs = volume hs * pairing line hs (fun _ => 1) cs 0 (nodal num u) (nodal num u).
Proof.
  intros hs num u cs line L Fh Mo. unfold gradient_square. f_equal.
  rewrite (pairing_rule line (line_rule 2)) by (auto; apply gauss_moments; lia).
  unfold pairing, cube_rule. rewrite L. change (gauss_points 2) with 2%nat. apply lsum_ext. intros q _.
  unfold dot. rewrite Rmult_0_l, Rplus_0_r. f_equal. apply rsum_ext. intros. unfold nodal. ring.
Qed.

(** The gradient at the reference coordinates of the fine cells. *)
Lemma same_points : forall hs num u cs p line, length hs = length cs -> Forall (Rlt 0) hs -> moments line -> sound (length hs) p -> fills hs p ->
  volume (pa_edges p) * bsum (pa_cells p) line (fun _ xs => dot (length hs) (grad hs (nodal num u) cs xs) (grad hs (nodal num u) cs xs)) =
  gradient_square hs num u cs.
Proof.
  intros hs num u cs p line L Fh Mo So Fi. rewrite (gradient_pairing hs num u cs line) by auto.
  rewrite <- (fills_volume hs p So Fi). destruct So as (Lc & _). unfold bsum, pairing. rewrite Lc, <- L.
  set (S := lsum (product_rule line (length hs)) (fun q => snd q * dot (length hs) (grad hs (nodal num u) cs (fst q)) (grad hs (nodal num u) cs (fst q)))).
  assert (E : S = lsum (product_rule line (length hs)) (fun q => snd q * (rsum (length hs) (fun k => 1 * (grad hs (nodal num u) cs (fst q) k *
     grad hs (nodal num u) cs (fst q) k)) + 0 * (value (nodal num u) cs (fst q) * value (nodal num u) cs (fst q))))).
  { apply lsum_ext. intros q _. f_equal. unfold dot. rewrite Rmult_0_l, Rplus_0_r. apply rsum_ext. intros. ring. }
  rewrite <- E. assert (C : forall l : list (list nat), lsum l (fun _ => S) = INR (length l) * S).
  { induction l as [|a l IH]; [cbn; ring|]. cbn [lsum length]. rewrite IH, S_INR. ring. }
  rewrite C. ring.
Qed.

(** The gradient at the right places. *)
Lemma right_points : forall hs num u cs p line, length hs = length cs -> Forall (Rlt 0) hs -> moments line -> sound (length hs) p -> fills hs p ->
  volume (pa_edges p) * bsum (pa_cells p) line (fun f xs =>
    dot (length hs) (grad hs (nodal num u) cs (place (pa_low p) (pa_edges p) hs f xs)) (grad hs (nodal num u) cs (place (pa_low p) (pa_edges p) hs f xs))) =
  gradient_square hs num u cs.
Proof.
  intros hs num u cs p line L Fh Mo (Lc & Le & Ll & _) Fi. rewrite (gradient_pairing hs num u cs line) by auto.
  rewrite <- (placed_all line Mo cs (pa_cells p) (pa_edges p) (pa_low p)) by (auto; congruence). f_equal. unfold placed.
  apply bsum_ext. intros f xs _ _. unfold dot. rewrite L, Rmult_0_l, Rplus_0_r. apply rsum_ext. intros. ring.
Qed.

Lemma whole_lower : forall hs num u cs p o diffusion alpha X, length hs = length cs -> Forall (Rlt 0) hs -> (2 <= gauss_points o <= 3)%nat ->
  sound (length hs) p -> fills hs p -> 0 <= alpha -> throughout p (fun y => at_least (length hs) alpha (diffusion y)) ->
  vanishing (pa_cells p) X ->
  alpha * gradient_square hs num u cs <= whole (length hs) o diffusion (fun _ xs => grad hs (nodal num u) cs xs) p X.
Proof.
  intros hs num u cs p o diffusion alpha X L Fh Oo So Fi Pa Al V. set (line := line_rule (gauss_points o)).
  assert (Mo : moments line) by now apply gauss_moments.
  rewrite <- (same_points hs num u cs p line L Fh Mo So Fi). unfold whole. fold line.
  set (G := fun (f : list nat) xs => grad hs (nodal num u) cs xs).
  pose proof So as (Lc & Le & Ll & Fc & Fe & Nu).
  assert (Z : bsum (pa_cells p) line (fun f xs => dot (length hs) (G f xs) (grad (pa_edges p) X f xs)) = 0).
  { unfold dot. rewrite bsum_rsum. apply rsum_0. intros k _.
    apply (StrataProofs.column (pa_cells p) (pa_edges p) line k X (fun f xs => G f xs k)); auto. }
  replace (alpha * (volume (pa_edges p) * bsum (pa_cells p) line (fun _ xs => dot (length hs) (grad hs (nodal num u) cs xs) (grad hs (nodal num u) cs xs))))
    with (volume (pa_edges p) * (alpha * bsum (pa_cells p) line (fun f xs => dot (length hs) (G f xs) (G f xs))
      + 2 * alpha * bsum (pa_cells p) line (fun f xs => dot (length hs) (G f xs) (grad (pa_edges p) X f xs)))) by (rewrite Z; unfold G; ring).
  apply Rmult_le_compat_l; [apply Rlt_le; now apply volume_pos|]. rewrite <- bsum_lin.
  apply bsum_le_inside; [now apply gauss_positive|apply gauss_inside|]. intros f xs If Lx Fx.
  eapply Rle_trans; [|apply (Al f xs If Lx Fx)].
  change (fun k => grad hs (nodal num u) cs xs k + grad (pa_edges p) X f xs k) with (fun k => G f xs k + grad (pa_edges p) X f xs k).
  set (g := grad (pa_edges p) X f xs). 
  assert (E : dot (length hs) (fun k => G f xs k + g k) (fun k => G f xs k + g k) =
    dot (length hs) (G f xs) (G f xs) + 2 * dot (length hs) (G f xs) g + dot (length hs) g g).
  { unfold dot. rewrite <- rsum_scale, <- !rsum_plus. apply rsum_ext. intros. ring. }
  rewrite E. pose proof (dot_nonneg (length hs) g). pose proof (Rmult_le_pos alpha (dot (length hs) g g)). lra.
Qed.

Lemma density_twice : forall d A v w, symmetric_nonnegative d A ->
  dot d (mv d A (fun k => v k + w k)) (fun k => v k + w k) <= 2 * dot d (mv d A v) v + 2 * dot d (mv d A w) w.
Proof.
  intros d A v w (Sy & P). pose proof (P (fun k => v k - w k)) as H.
  assert (M : forall k, mv d A (fun k => v k - w k) k = mv d A v k - mv d A w k)
    by (intros; unfold mv; rewrite <- rsum_minus; apply rsum_ext; intros; ring).
  assert (M' : forall k, mv d A (fun k => v k + w k) k = mv d A v k + mv d A w k)
    by (intros; unfold mv; rewrite <- rsum_plus; apply rsum_ext; intros; ring).
  assert (E : dot d (mv d A (fun k => v k - w k)) (fun k => v k - w k) =
    dot d (mv d A v) v - dot d (mv d A v) w - dot d (mv d A w) v + dot d (mv d A w) w).
  { unfold dot. rewrite <- !rsum_minus, <- rsum_plus. apply rsum_ext. intros k _. rewrite M. ring. }
  assert (E' : dot d (mv d A (fun k => v k + w k)) (fun k => v k + w k) =
    dot d (mv d A v) v + dot d (mv d A v) w + dot d (mv d A w) v + dot d (mv d A w) w).
  { unfold dot. rewrite <- !rsum_plus. apply rsum_ext. intros k _. rewrite M'. ring. }
  lra.
Qed.

Section Upper.
Variables (ns : list nat) (hs : list R) (num : list nat -> nat) (n : nat).
Variable diffusion : list R -> nat -> nat -> R.
Variables order rhs_order o : nat.
Variable p : patch.
Variable cs : list nat.
Variable x : nat -> nat -> R.
Variable u : nat -> R.
Variable beta : R.
Hypothesis Lh : length hs = length ns.
Hypothesis Fh : Forall (Rlt 0) hs.
Hypothesis Num : numbering ns num n.
Hypothesis Ic : In cs (cells ns).
Hypothesis So : sound (length hs) p.
Hypothesis Fi : fills hs p.
Hypothesis Og : (2 <= gauss_points order <= 3)%nat.
Hypothesis Oo : (2 <= gauss_points o <= 3)%nat.
Hypothesis Sn : forall y, symmetric_nonnegative (length hs) (diffusion y).
Hypothesis Be : throughout p (fun y => at_most (length hs) beta (diffusion y)).
Hypothesis Se : same_energies (length hs) [order; rhs_order; o] diffusion p.
Hypothesis Co : corrected hs num diffusion order rhs_order p cs x.
Let d := length hs.
Let added := added_part num p cs x u.

Lemma Lcs : length hs = length cs.
Proof. rewrite Lh. symmetry. now apply cells_length. Qed.

(** The correction has no more energy than the coarse function itself. *)
Lemma correction_energy : whole d o diffusion (fun _ _ _ => 0) p added <= beta * gradient_square hs num u cs.
Proof.
  pose proof So as (Lc & Le & Ll & Fc & Fe & Nu). pose proof Lcs as Lcs.
  destruct (choose (length (corners cs)) (fun i y => (forall js, node (pa_cells p) js ->
      y (pa_num p js) = restricted hs p (one_at num (num (nth i (corners cs) []))) cs js) /\
      corrector d (patch_points d order diffusion p) (patch_points d rhs_order diffusion p)
        (pa_n p) (pa_con p) (field_of (pa_n p) y) (x i))) as (y & Y).
  { intros i Li. apply (Co i Li). }
  set (w := fun i => u (num (nth i (corners cs) []))).
  set (t := fun m => rsum (length (corners cs)) (fun i => w i * y i m)).
  set (r := fun m => rsum (length (corners cs)) (fun i => w i * x i m)).
  assert (Ct : corrector d (patch_points d order diffusion p) (patch_points d rhs_order diffusion p) (pa_n p) (pa_con p)
    (field_of (pa_n p) t) r).
  { apply corrector_field with (f := fun q k => rsum (length (corners cs)) (fun i => w i * field_of (pa_n p) (y i) q k)).
    - intros q k _ _. unfold field_of, t. rewrite (rsum_ext (pa_n p) (fun j => _ * q_grad q j k)
        (fun j => rsum (length (corners cs)) (fun i => w i * (y i j * q_grad q j k)))).
      + rewrite rsum_swap. apply rsum_ext. intros i _. now rewrite rsum_scale.
      + intros j _. rewrite <- rsum_scale_r. apply rsum_ext. intros. ring.
    - apply corrector_sum. intros i Li. apply (Y i Li). }
  assert (Tn : forall js, node (pa_cells p) js -> t (pa_num p js) = restricted hs p (nodal num u) cs js).
  { intros js Nj. rewrite <- (restricted_total ns hs num n p cs Lh Num Ic ltac:(now rewrite <- Lh) u js Nj). unfold t.
    apply rsum_ext. intros i Li. now rewrite (proj1 (Y i Li)). }
  set (qs := patch_points d order diffusion p) in *.
  assert (Sy : forall q, In q qs -> forall i j, (i < d)%nat -> (j < d)%nat -> q_A q i j = q_A q j i).
  { intros q I. unfold qs, patch_points, grid_points, varied_elements in I. apply in_flat_map in I. destruct I as (e & Ie & I).
    apply in_map_iff in Ie. destruct Ie as (f & <- & _). apply in_map_iff in I. destruct I as (s & <- & _). cbn [q_A el_A]. apply Sn. }
  assert (Po : forall q, In q qs -> 0 <= q_w q /\ forall v, 0 <= dot d (mv d (q_A q) v) v).
  { intros q I. unfold qs, patch_points, grid_points, varied_elements in I. apply in_flat_map in I. destruct I as (e & Ie & I).
    apply in_map_iff in Ie. destruct Ie as (f & <- & _). apply in_map_iff in I. destruct I as (s & <- & Ir). cbn [q_w q_A el_factor el_A].
    split; [|apply Sn]. pose proof (rule_positive _ _ _ (gauss_positive _ Og) Ir). pose proof (volume_pos _ Fe). apply Rmult_le_pos; lra. }
  apply corrector_orthogonal_same in Ct; [|intros m Vm; apply Se; cbn; auto]. destruct Ct as (Vr & Or_).
  set (T := field_of (pa_n p) t) in *. set (Rr := field_of (pa_n p) r) in *.
  assert (Le1 : LinSpec.energy d qs Rr Rr <= LinSpec.energy d qs T T).
  { pose proof (Or_ r Vr) as Z. fold Rr in Z. rewrite LinProofs.energy_plus_l in Z.
    pose proof (energy_pos_f d qs (plus T Rr) Po) as P. rewrite LinProofs.energy_plus_l in P.
    rewrite (energy_sym_f d qs T (plus T Rr) Sy), (energy_sym_f d qs Rr (plus T Rr) Sy) in P. rewrite !LinProofs.energy_plus_l in P.
    rewrite (energy_sym_f d qs Rr T Sy) in P. lra. }
  assert (E1 : whole d o diffusion (fun _ _ _ => 0) p added = LinSpec.energy d qs Rr Rr).
  { unfold qs, Rr. rewrite (Se order o) by (cbn; auto). rewrite patch_energy by exact So. unfold whole. f_equal.
    apply bsum_ext. intros f xs If Lx.
    apply dot_ext; [intros k _; apply mv_ext; intros m _|intros m _]; rewrite Rplus_0_l; reflexivity. }
  assert (E2 : LinSpec.energy d qs T T <= beta * gradient_square hs num u cs).
  { unfold qs, T. rewrite (Se order o) by (cbn; auto). rewrite patch_energy by exact So.
    set (line := line_rule (gauss_points o)). assert (Mo : moments line) by now apply gauss_moments.
    rewrite <- (right_points hs num u cs p line Lcs Fh Mo So Fi).
    rewrite <- Rmult_assoc, (Rmult_comm beta), Rmult_assoc. apply Rmult_le_compat_l; [apply Rlt_le; now apply volume_pos|].
    rewrite <- bsum_scale. apply bsum_le_inside; [now apply gauss_positive|apply gauss_inside|]. intros f xs If Lx Fx.
    pose proof (cells_length _ _ If) as Lf.
    assert (G : forall k, grad (pa_edges p) (nodal (pa_num p) t) f xs k = grad hs (nodal num u) cs (place (pa_low p) (pa_edges p) hs f xs) k).
    { intros k. rewrite (grad_ext (pa_edges p) f xs k _ (restricted hs p (nodal num u) cs));
        [|lia|intros js J; apply Tn; now apply (corner_node (pa_cells p) f)].
      unfold restricted. apply (grad_affine (pa_low p) (pa_edges p) hs (nodal num u) cs f xs k); auto; lia. }
    eapply Rle_trans; [|apply (Be f xs If Lx Fx)]. apply Req_le. apply dot_ext; [intros k _; apply mv_ext; intros m _|intros m _]; apply G. }
  fold d in E1. lra.
Qed.

Lemma whole_upper :
  whole d o diffusion (fun _ xs => grad hs (nodal num u) cs xs) p added <= 4 * (beta * gradient_square hs num u cs).
Proof.
  pose proof correction_energy as E. pose proof So as (Lc & Le & Ll & Fc & Fe & Nu).
  set (line := line_rule (gauss_points o)). assert (Mo : moments line) by now apply gauss_moments.
  set (G := fun (f : list nat) xs => grad hs (nodal num u) cs xs).
  assert (E2 : volume (pa_edges p) * bsum (pa_cells p) line (fun f xs => dot d (mv d (diffusion (pa_global p f xs)) (G f xs)) (G f xs)) <=
    beta * gradient_square hs num u cs).
  { rewrite <- (same_points hs num u cs p line Lcs Fh Mo So Fi).
    rewrite <- Rmult_assoc, (Rmult_comm beta), Rmult_assoc. apply Rmult_le_compat_l; [apply Rlt_le; now apply volume_pos|].
    rewrite <- bsum_scale. apply bsum_le_inside; [now apply gauss_positive|apply gauss_inside|]. intros f xs If Lx Fx.
    apply (Be f xs If Lx Fx). }
  assert (E3 : whole d o diffusion G p added <=
    2 * (volume (pa_edges p) * bsum (pa_cells p) line (fun f xs => dot d (mv d (diffusion (pa_global p f xs)) (G f xs)) (G f xs)))
    + 2 * whole d o diffusion (fun _ _ _ => 0) p added).
  { unfold whole. fold line.
    set (B1 := bsum (pa_cells p) line (fun f xs => dot d (mv d (diffusion (pa_global p f xs)) (G f xs)) (G f xs))).
    set (B2 := bsum (pa_cells p) line (fun f xs => dot d (mv d (diffusion (pa_global p f xs)) (fun k => 0 + _)) _)).
    replace (2 * (volume (pa_edges p) * B1) + 2 * (volume (pa_edges p) * B2)) with (volume (pa_edges p) * (2 * B1 + 2 * B2)) by ring.
    apply Rmult_le_compat_l; [apply Rlt_le; now apply volume_pos|]. unfold B1, B2. rewrite <- bsum_lin.
    apply bsum_le; [now apply gauss_positive|]. intros f xs _ _.
    eapply Rle_trans; [apply density_twice; apply Sn|]. apply Req_le. f_equal. f_equal.
    apply dot_ext; [intros k _; apply mv_ext; intros m _|intros m _]; now rewrite Rplus_0_l. }
  fold G in E3. lra.
Qed.
End Upper.

(** * The assembled matrix *)
Lemma coarse_form_all : forall ns hs num n diffusion o pa rquad x fs source neumann M V u,
  length hs = length ns -> numbering ns num n ->
  (forall cs, In cs (cells ns) -> sound (length ns) (pa cs) /\ forall f, pa_inside (pa cs) f = true) ->
  walk (length ns) (list R) diffusion source neumann (fun _ _ => 0) (fun _ => 0)
    (patched ns hs num pa (line_rule (gauss_points o)) rquad x fs) = Some (M, V) ->
  qform n M u = lsum (cells ns) (fun cs =>
    whole (length hs) o diffusion (fun _ xs => grad hs (nodal num u) cs xs) (pa cs) (added_part num (pa cs) cs (x cs) u)).
Proof.
  intros ns hs num n diffusion o pa rquad x fs source neumann M V u Lh Nu Hp W. rewrite Lh.
  destruct (walk_val _ _ _ _ _ _ _ _ _ _ W) as (Mv & _).
  set (grid := patched ns hs num pa (line_rule (gauss_points o)) rquad x fs) in *.
  assert (Q : qform n M u = lsum grid (fun cf => qform n (cell_part (length ns) (list R) diffusion (fst cf)) u)).
  { unfold qform. rewrite lsum_rsum. apply rsum_ext. intros a _. rewrite lsum_rsum. apply rsum_ext. intros b _.
    rewrite Mv. rewrite Rplus_0_l.
    rewrite (lsum_ext _ grid (fun cf => _ * u a * u b) (fun cf => u a * u b * cell_part (length ns) (list R) diffusion (fst cf) a b)) by (intros; ring).
    rewrite lsum_scale. ring. }
  rewrite Q. unfold grid, patched. rewrite lsum_map. apply lsum_ext. intros cs I. cbn [fst].
  destruct (Hp cs I) as (So & In_). pose proof So as (Lc & Le & Ll & Fc & Fe & Np).
  rewrite cell_qform.
  2:{ intros i Li. cbn [box_cell cc_n cc_index] in *. apply (proj1 Nu). apply (corner_node ns cs); auto. now apply nth_In. }
  unfold covered. cbn [box_cell cc_locals]. unfold patch_elements.
  assert (All : forall l, filter (lc_covered (list R)) (map (fun f => {| lc_covered := pa_inside (pa cs) f; lc_global := pa_global (pa cs) f;
      lc_factor := fun _ => volume (pa_edges (pa cs)); lc_grad := fun i xs => grad (pa_edges (pa cs)) (fun js => x cs i (pa_num (pa cs) js)) f xs;
      lc_val := fun i xs => value (fun js => x cs i (pa_num (pa cs) js)) f xs;
      lc_quad := product_rule (line_rule (gauss_points o)) (length (pa_cells (pa cs))); lc_rquad := rquad cs f |}) l) =
    map (fun f => {| lc_covered := pa_inside (pa cs) f; lc_global := pa_global (pa cs) f;
      lc_factor := fun _ => volume (pa_edges (pa cs)); lc_grad := fun i xs => grad (pa_edges (pa cs)) (fun js => x cs i (pa_num (pa cs) js)) f xs;
      lc_val := fun i xs => value (fun js => x cs i (pa_num (pa cs) js)) f xs;
      lc_quad := product_rule (line_rule (gauss_points o)) (length (pa_cells (pa cs))); lc_rquad := rquad cs f |}) l).
  { induction l as [|f l IHl]; [reflexivity|]. cbn [map filter lc_covered]. rewrite In_. now rewrite IHl. }
  rewrite All, lsum_map. unfold whole, bsum. rewrite <- lsum_scale. apply lsum_ext. intros f If.
  unfold CoarseSpec.energy. cbn [lc_quad lc_factor lc_global]. rewrite <- lsum_scale. apply lsum_ext. intros q J.
  assert (Lq : length (fst q) = length ns) by (rewrite (rule_length _ _ _ J); exact Lc).
  pose proof (cells_length _ _ I) as Lcs.
  assert (G : forall k, (k < length ns)%nat ->
    rsum (length (corners cs)) (fun j => u (num (nth j (corners cs) [])) *
      used_grad (list R) (box_cell hs num cs (patch_elements (pa cs) (line_rule (gauss_points o)) (rquad cs) (x cs)))
        {| lc_covered := pa_inside (pa cs) f; lc_global := pa_global (pa cs) f;
      lc_factor := fun _ => volume (pa_edges (pa cs)); lc_grad := fun i xs => grad (pa_edges (pa cs)) (fun js => x cs i (pa_num (pa cs) js)) f xs;
      lc_val := fun i xs => value (fun js => x cs i (pa_num (pa cs) js)) f xs;
      lc_quad := product_rule (line_rule (gauss_points o)) (length (pa_cells (pa cs))); lc_rquad := rquad cs f |} j (fst q) k) =
    grad hs (nodal num u) cs (fst q) k + grad (pa_edges (pa cs)) (added_part num (pa cs) cs (x cs) u) f (fst q) k).
  { intros k Lk.
    pose proof (patch_grad ns hs num n (pa cs) cs (patch_elements (pa cs) (line_rule (gauss_points o)) (rquad cs) (x cs)) u f (fst q) k
      (line_rule (gauss_points o)) (rquad cs) (x cs) Nu I So Lh If Lq) as P.
    unfold test_grad in P. cbn [box_cell cc_n cc_index] in P. rewrite P. reflexivity. }
  rewrite (dot_ext (length ns) _ (mv (length ns) (diffusion (pa_global (pa cs) f (fst q)))
      (fun k => grad hs (nodal num u) cs (fst q) k + grad (pa_edges (pa cs)) (added_part num (pa cs) cs (x cs) u) f (fst q) k)) _
    (fun k => grad hs (nodal num u) cs (fst q) k + grad (pa_edges (pa cs)) (added_part num (pa cs) cs (x cs) u) f (fst q) k)).
  - ring.
  - intros k Lk. apply mv_ext. intros m Lm. now apply G.
  - intros k Lk. now apply G.
Qed.


(** * Node values *)
Lemma pairing_sym : forall line hs a cs s v w, pairing line hs a cs s v w = pairing line hs a cs s w v.
Proof.
  intros. unfold pairing. apply lsum_ext. intros q _. f_equal. f_equal; [|ring]. apply rsum_ext. intros. ring.
Qed.
Lemma pairing_middle : forall line hs cs s v w, Forall (fun p => 0 < snd p) line -> 0 <= s ->
  pairing line hs (fun _ => 1) cs s v w <= (pairing line hs (fun _ => 1) cs s v v + pairing line hs (fun _ => 1) cs s w w) / 2.
Proof.
  intros line hs cs s v w F Ps. unfold pairing. unfold Rdiv. rewrite <- lsum_plus, Rmult_comm, <- lsum_scale.
  apply lsum_le. intros q J. pose proof (rule_positive _ _ _ F J) as W.
  set (R1 := rsum (length cs) (fun k => 1 * (grad hs v cs (fst q) k * grad hs w cs (fst q) k))).
  set (R2 := rsum (length cs) (fun k => 1 * (grad hs v cs (fst q) k * grad hs v cs (fst q) k))).
  set (R3 := rsum (length cs) (fun k => 1 * (grad hs w cs (fst q) k * grad hs w cs (fst q) k))).
  assert (H : 0 <= R2 + R3 - 2 * R1).
  { unfold R1, R2, R3. rewrite <- rsum_plus, <- rsum_scale, <- rsum_minus. apply rsum_nonneg. intros k _.
    pose proof (Rle_0_sqr (grad hs v cs (fst q) k - grad hs w cs (fst q) k)) as Q. unfold Rsqr in Q. lra. }
  pose proof (Rle_0_sqr (value v cs (fst q) - value w cs (fst q))) as Q. unfold Rsqr in Q.
  assert (H2 : 0 <= s * ((value v cs (fst q) - value w cs (fst q)) * (value v cs (fst q) - value w cs (fst q)))) by now apply Rmult_le_pos.
  pose proof (Rmult_le_pos _ _ (Rlt_le _ _ W) H). pose proof (Rmult_le_pos _ _ (Rlt_le _ _ W) H2). lra.
Qed.
Lemma mass_middle : forall line hs cs v w, Forall (fun p => 0 < snd p) line ->
  - pairing line hs (fun _ => 0) cs 1 v w <= (pairing line hs (fun _ => 0) cs 1 v v + pairing line hs (fun _ => 0) cs 1 w w) / 2.
Proof.
  intros line hs cs v w F. unfold pairing. unfold Rdiv. rewrite <- lsum_plus, Rmult_comm, <- lsum_scale.
  replace (- lsum (product_rule line (length cs)) _) with (lsum (product_rule line (length cs)) (fun q => (-1) * (snd q *
   (rsum (length cs) (fun k => 0 * (grad hs v cs (fst q) k * grad hs w cs (fst q) k)) + 1 * (value v cs (fst q) * value w cs (fst q))))))
   by (rewrite lsum_scale; ring).
  apply lsum_le. intros q J. pose proof (rule_positive _ _ _ F J) as W.
  rewrite !(rsum_0 (length cs) (fun k => 0 * _)) by (intros; ring).
  pose proof (Rle_0_sqr (value v cs (fst q) + value w cs (fst q))) as Q. unfold Rsqr in Q.
  assert (H2 : 0 <= snd q * ((value v cs (fst q) + value w cs (fst q)) * (value v cs (fst q) + value w cs (fst q)))) by (apply Rmult_le_pos; lra).
  lra.
Qed.

Lemma pairing_corners : forall line, moments line -> Forall (fun p => 0 < snd p) line -> forall cs hs s v,
  length hs = length cs -> Forall (Rlt 0) hs -> 0 <= s ->
  2 ^ length cs * pairing line hs (fun _ => 1) cs s v v <= (s + 4 * inverse_squares hs) * lsum (corners cs) (fun js => v js * v js).
Proof.
  intros line Mo Fw. induction cs as [|c cs IH]; intros [|h hs] s v L Fh Ps; try discriminate L.
  { unfold pairing. cbn. lra. }
  apply Forall_cons_iff in Fh. destruct Fh as (Hh & Fh). injection L as L.
  rewrite pairing_cons by (auto; lra). set (v0 := fun js => v (c :: js)). set (v1 := fun js => v (S c :: js)).
  set (o := 1 / (h * h)). assert (Po : 0 < o) by (unfold o; apply Rdiv_lt_0_compat; nra).
  unfold Rminus. rewrite !pairing_mass. rewrite (pairing_sym line hs _ cs s v1 v0), (pairing_sym line hs _ cs 1 v1 v0).
  pose proof (pairing_middle line hs cs s v0 v1 Fw Ps) as H1. pose proof (mass_middle line hs cs v0 v1 Fw) as H2.
  pose proof (IH hs (s + 4 * o) v0 L Fh ltac:(lra)) as I0. pose proof (IH hs (s + 4 * o) v1 L Fh ltac:(lra)) as I1.
  rewrite pairing_mass in I0, I1.
  set (P00 := pairing line hs (fun _ => 1) cs s v0 v0) in *. set (P01 := pairing line hs (fun _ => 1) cs s v0 v1) in *.
  set (P11 := pairing line hs (fun _ => 1) cs s v1 v1) in *. set (Q00 := pairing line hs (fun _ => 0) cs 1 v0 v0) in *.
  set (Q01 := pairing line hs (fun _ => 0) cs 1 v0 v1) in *. set (Q11 := pairing line hs (fun _ => 0) cs 1 v1 v1) in *.
  cbn [length corners pow inverse_squares fold_right]. rewrite lsum_app, !lsum_map. fold (inverse_squares hs).
  replace (/ (h * h)) with o by (unfold o; field; lra).
  set (p2 := 2 ^ length cs) in *. assert (0 < p2) by (apply pow_lt; lra).
  set (S0 := lsum (corners cs) (fun js => v0 js * v0 js)) in *. set (S1 := lsum (corners cs) (fun js => v1 js * v1 js)) in *.
  change (lsum (corners cs) (fun a => v (c :: a) * v (c :: a))) with S0. change (lsum (corners cs) (fun a => v (S c :: a) * v (S c :: a))) with S1.
  apply Rle_trans with (p2 * (P00 + 4 * o * Q00) + p2 * (P11 + 4 * o * Q11)); [|lra].
  assert (H3 : o * (- Q01) <= o * ((Q00 + Q11) / 2)) by (apply Rmult_le_compat_l; lra).
  rewrite Rmult_assoc, <- Rmult_plus_distr_l, (Rmult_comm 2), Rmult_assoc. apply Rmult_le_compat_l; [lra|]. lra.
Qed.

Lemma corners_twice : forall ns (F : list nat -> R), (forall js, 0 <= F js) ->
  lsum (cells ns) (fun cs => lsum (corners cs) F) <= 2 ^ length ns * nsum ns F.
Proof.
  induction ns as [|n ns IH]; intros F P; [cbn; unfold nsum; cbn; lra|].
  rewrite nsum_cons. cbn [cells]. rewrite lsum_flat_map, CompareProofs.lsum_seq. cbn [length pow].
  set (N := fun j => nsum ns (fun js => F (j :: js))).
  apply Rle_trans with (rsum n (fun c => 2 ^ length ns * (N c + N (S c)))).
  - apply SampleProofs.rsum_le. intros c _. rewrite lsum_map. cbn [corners].
    rewrite (lsum_ext _ (cells ns) _ (fun cs => lsum (corners cs) (fun js => F (c :: js)) + lsum (corners cs) (fun js => F (S c :: js))))
      by (intros; now rewrite lsum_app, !lsum_map).
    rewrite lsum_plus. pose proof (IH (fun js => F (c :: js)) (fun js => P _)). pose proof (IH (fun js => F (S c :: js)) (fun js => P _)).
    unfold N. lra.
  - rewrite rsum_scale, (Rmult_comm 2), Rmult_assoc. apply Rmult_le_compat_l; [apply pow_le; lra|].
    assert (PN : forall j, 0 <= N j) by (intros; unfold N, nsum; apply lsum_nonneg; auto).
    rewrite rsum_plus. pose proof (rsum_first n N) as E1. pose proof (PN 0%nat). pose proof (PN n). cbn [rsum] in *. lra.
Qed.
Lemma NoDup_map_on : forall A B (f : A -> B) l, NoDup l -> (forall a b, In a l -> In b l -> f a = f b -> a = b) -> NoDup (map f l).
Proof.
  intros A B f l N. induction N as [|a l Na N IH]; intros H; cbn [map]; constructor.
  - intros I. apply in_map_iff in I. destruct I as (b & E & I). apply Na. rewrite (H a b); cbn; auto.
  - apply IH. intros b c Ib Ic. apply H; now right.
Qed.
Lemma all_nodes_NoDup : forall ns, NoDup (all_nodes ns).
Proof.
  induction ns as [|n ns IH]; cbn [all_nodes]; [constructor; [auto|constructor]|].
  generalize (seq_NoDup (S n) 0). generalize (seq 0 (S n)) as l. induction l as [|c l IHl]; intros N; cbn [flat_map]; [constructor|].
  apply NoDup_cons_iff in N. destruct N as (Nc & N). specialize (IHl N).
  assert (A : forall l1 l2 : list (list nat), NoDup l1 -> NoDup l2 -> (forall a, In a l1 -> ~ In a l2) -> NoDup (l1 ++ l2)).
  { clear. induction l1 as [|a l1 IH]; intros l2 N1 N2 D; cbn [app]; auto. apply NoDup_cons_iff in N1. destruct N1 as (Na & N1).
    constructor; [|apply IH; auto; intros b Ib; apply D; now right].
    intros I. apply in_app_or in I. destruct I as [I|I]; auto. apply (D a); cbn; auto. }
  apply A; auto.
  - apply NoDup_map_on; auto. intros a b _ _ E. now injection E.
  - intros a I J. apply in_map_iff in I. destruct I as (b & <- & _). apply in_flat_map in J. destruct J as (e & Ie & J).
    apply in_map_iff in J. destruct J as (b' & E & _). injection E as E1 _. subst e. contradiction.
Qed.
Lemma nodes_squares : forall ns num n y, numbering ns num n ->
  nsum ns (fun js => nodal num y js * nodal num y js) <= squares n y.
Proof.
  intros ns num n y (Lt & Inj & _). unfold squares, nsum, nodal.
  rewrite <- (CompareProofs.lsum_seq n (fun i => y i * y i)).
  rewrite <- (lsum_map _ _ num (all_nodes ns) (fun i => y i * y i)).
  apply incl_sum; [| |intros; apply Rle_0_sqr].
  - apply NoDup_map_on; [apply all_nodes_NoDup|]. intros a b Ia Ib. apply Inj; now apply all_nodes_node.
  - intros i I. apply in_map_iff in I. destruct I as (js & <- & J). apply in_seq. apply all_nodes_node in J. specialize (Lt js J). lia.
Qed.

(** Energy of the Laplacian and squares of the node values. *)
Lemma laplace_upper : forall ns hs num n u, length hs = length ns -> Forall (Rlt 0) hs -> numbering ns num n ->
  lsum (cells ns) (gradient_square hs num u) <= 4 * volume hs * inverse_squares hs * squares n u.
Proof.
  intros ns hs num n u L Fh Nu. set (line := line_rule 2).
  assert (Mo : moments line) by (apply gauss_moments; lia). assert (Fw : Forall (fun p => 0 < snd p) line) by (apply gauss_positive; lia).
  pose proof (volume_pos hs Fh) as Pv. assert (P2 : 0 < 2 ^ length ns) by (apply pow_lt; lra).
  assert (Pi : 0 <= inverse_squares hs).
  { clear - Fh. induction Fh; cbn; [lra|]. fold (inverse_squares l). assert (0 < / (x * x)) by (apply Rinv_0_lt_compat; nra). lra. }
  apply (Rmult_le_reg_l (2 ^ length ns)); auto. rewrite <- lsum_scale.
  apply Rle_trans with (4 * volume hs * inverse_squares hs * lsum (cells ns) (fun cs => lsum (corners cs) (fun js => nodal num u js * nodal num u js))).
  - rewrite <- lsum_scale. apply lsum_le. intros cs I. pose proof (cells_length _ _ I) as Lc.
    rewrite (gradient_pairing hs num u cs line) by (auto; lia).
    pose proof (pairing_corners line Mo Fw cs hs 0 (nodal num u) ltac:(lia) Fh ltac:(lra)) as H. rewrite Lc in H.
    apply (Rmult_le_compat_l (volume hs)) in H; [|lra]. lra.
  - pose proof (corners_twice ns (fun js => nodal num u js * nodal num u js) (fun js => Rle_0_sqr _)) as H.
    pose proof (nodes_squares ns num n u Nu) as H2. 
    apply Rle_trans with (4 * volume hs * inverse_squares hs * (2 ^ length ns * squares n u)); [|lra].
    apply Rmult_le_compat_l; [repeat apply Rmult_le_pos; lra|]. eapply Rle_trans; [exact H|]. apply Rmult_le_compat_l; lra.
Qed.
Lemma laplace_lower : forall ns hs num n con u a e, length hs = length ns -> Forall (fun m => (0 < m)%nat) ns -> Forall (Rlt 0) hs ->
  numbering ns num n -> layer_constrained ns num con a e -> vanishes n con u ->
  stiffness_bound ns hs 1 a * squares n u <= lsum (cells ns) (gradient_square hs num u).
Proof.
  intros ns hs num n con u a e L Fn Fh Nu La V. set (line := line_rule 2).
  assert (Mo : moments line) by (apply gauss_moments; lia). assert (Fw : Forall (fun p => 0 < snd p) line) by (apply gauss_positive; lia).
  set (Id := fun (_ : list nat) (_ : list R) (i j : nat) => if Nat.eqb i j then 1 else 0).
  assert (M : forall d cs xs z k, (k < d)%nat -> mv d (Id cs xs) z k = z k).
  { intros d cs xs z k Lk. unfold mv, Id. rewrite (rsum_single d k); auto; [rewrite Nat.eqb_refl; ring|].
    intros j Lj N. destruct (Nat.eqb_spec k j); [congruence|ring]. }
  eapply Rle_trans; [apply (box_bound ns hs num n con line Id 1 a e); auto; [lra|]|].
  - intros cs xs z. rewrite (dot_ext _ (mv (length ns) (Id cs xs) z) z z z) by (auto; intros; now apply M). lra.
  - apply Req_le. unfold bsum. rewrite <- lsum_scale. apply lsum_ext. intros cs I. pose proof (cells_length _ _ I) as Lc.
    rewrite (gradient_pairing hs num u cs line) by (auto; lia). f_equal. unfold pairing. rewrite Lc. apply lsum_ext. intros q _. f_equal.
    rewrite (dot_ext _ (mv (length ns) (Id cs (fst q)) (grad hs (nodal num u) cs (fst q))) (grad hs (nodal num u) cs (fst q))
      (grad hs (nodal num u) cs (fst q)) (grad hs (nodal num u) cs (fst q))) by (auto; intros; now apply M).
    unfold dot. rewrite Rmult_0_l, Rplus_0_r. apply rsum_ext. intros. ring.
Qed.
