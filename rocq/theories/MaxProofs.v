(** Proofs for C116, C117. *)
From Coq Require Import Reals List Arith Bool Lra Lia Psatz.
From Verif Require Import Util RSum LinModel LinSpec LinProofs QuadModel QuadSpec QuadProofs CoarseModel CoarseSpec CoarseProofs SystemModel SystemSpec SystemProofs.
From Verif Require Import FemModel FemSpec FemProofs PatchSpec PatchProofs SolveSpec SolveProofs LayerSpec LayerProofs MaxSpec.
Import ListNotations.
Open Scope R_scope.

(** * One cell *)
(** Rules with these moments. *)
Definition moments (line : list (R * R)) : Prop :=
  lsum line snd = 1 /\ lsum line (fun p => snd p * (fst p * fst p)) = 1/3 /\
  lsum line (fun p => snd p * fst p) = 1/2.
Lemma gauss_moments : forall m, (2 <= m <= 3)%nat -> moments (line_rule m).
Proof.
  intros m L. assert (m = 2 \/ m = 3)%nat as [-> | ->] by lia; unfold moments; cbn.
  - pose proof (sqrt_sq 3 ltac:(lra)). repeat split; nra.
  - pose proof (sqrt_sq 15 ltac:(lra)). repeat split; nra.
Qed.

Lemma gauss_inside : forall m, Forall (fun p => 0 < fst p < 1) (line_rule m).
Proof.
  assert (A : forall b, 0 < b -> 0 < sqrt b) by apply sqrt_lt_R0.
  assert (S3 : sqrt 3 < 3).
  { rewrite <- (sqrt_square 3) at 2 by lra. apply sqrt_lt_1; lra. }
  assert (S15 : sqrt 15 < 5).
  { rewrite <- (sqrt_square 5) by lra. apply sqrt_lt_1; lra. }
  pose proof (A 3 ltac:(lra)). pose proof (A 15 ltac:(lra)).
  intros [|[|[|[|m]]]]; repeat constructor; cbn; lra.
Qed.
Lemma rule_inside : forall line, Forall (fun p => 0 < fst p < 1) line -> forall d q, In q (product_rule line d) -> Forall (fun x => 0 < x < 1) (fst q).
Proof.
  intros line F. induction d as [|d IH]; cbn; intros q Q.
  - destruct Q as [<-|[]]. constructor.
  - apply in_flat_map in Q. destruct Q as (p & P & Q). apply in_map_iff in Q. destruct Q as (r & <- & Q). cbn.
    constructor; [|now apply IH]. rewrite Forall_forall in F. now apply F.
Qed.

Definition pairing (line : list (R * R)) (hs : list R) (a : nat -> R) (cs : list nat) (s : R) (v w : list nat -> R) : R :=
  lsum (product_rule line (length cs)) (fun q => snd q *
    (rsum (length cs) (fun k => a k * (grad hs v cs (fst q) k * grad hs w cs (fst q) k)) +
     s * (value v cs (fst q) * value w cs (fst q)))).

Lemma rsum_first : forall n f, rsum (S n) f = f 0%nat + rsum n (fun k => f (S k)).
Proof. intros n f. rewrite (rsum_skip n 0) by lia. f_equal. Qed.
Lemma rule_cons : forall line d f, lsum (product_rule line (S d)) f =
  lsum line (fun p => lsum (product_rule line d) (fun q => f (fst p :: fst q, snd p * snd q))).
Proof. intros. cbn [product_rule]. rewrite lsum_flat_map. apply lsum_ext. intros p _. now rewrite lsum_map. Qed.

Lemma pairing_mass : forall line hs a cs s t v w,
  pairing line hs a cs (s + t) v w = pairing line hs a cs s v w + t * pairing line hs (fun _ => 0) cs 1 v w.
Proof.
  intros. unfold pairing. rewrite <- lsum_scale, <- lsum_plus. apply lsum_ext. intros q _.
  rewrite (rsum_0 (length cs) (fun k => 0 * _)) by (intros; ring). ring.
Qed.

Lemma pairing_cons : forall line h hs a c cs s v w, moments line -> h <> 0 ->
  let v0 := fun js => v (c :: js) in let v1 := fun js => v (S c :: js) in
  let w0 := fun js => w (c :: js) in let w1 := fun js => w (S c :: js) in
  let a' := fun k => a (S k) in let o := a 0%nat / (h * h) in
  pairing line (h :: hs) a (c :: cs) s v w =
  1/3 * (pairing line hs a' cs (s + 3 * o) v0 w0 + pairing line hs a' cs (s + 3 * o) v1 w1) +
  1/6 * (pairing line hs a' cs (s - 6 * o) v0 w1 + pairing line hs a' cs (s - 6 * o) v1 w0).
Proof.
  intros line h hs a c cs s v w (M0 & M2 & M1) Hh v0 v1 w0 w1 a' o.
  unfold Rminus. rewrite !pairing_mass.
  set (P00 := pairing line hs a' cs s v0 w0). set (P11 := pairing line hs a' cs s v1 w1).
  set (P01 := pairing line hs a' cs s v0 w1). set (P10 := pairing line hs a' cs s v1 w0).
  set (Q00 := pairing line hs (fun _ => 0) cs 1 v0 w0). set (Q11 := pairing line hs (fun _ => 0) cs 1 v1 w1).
  set (Q01 := pairing line hs (fun _ => 0) cs 1 v0 w1). set (Q10 := pairing line hs (fun _ => 0) cs 1 v1 w0).
  transitivity (lsum line (fun p => snd p * (P00 + o * (Q00 + Q11 - Q01 - Q10))
    + (P01 + P10 - 2 * P00) * (snd p * fst p) + (P00 + P11 - P01 - P10) * (snd p * (fst p * fst p)))).
  - unfold pairing at 1. cbn [length]. rewrite rule_cons. apply lsum_ext. intros (x, wt) _. cbn [fst snd].
    assert (E : forall X Y, X = Y -> wt * X = wt * Y) by (intros; now subst).
    transitivity (wt * (lsum (product_rule line (length cs)) (fun q => snd q *
      (rsum (length cs) (fun k => a' k * (((1 - x) * grad hs v0 cs (fst q) k + x * grad hs v1 cs (fst q) k) *
         ((1 - x) * grad hs w0 cs (fst q) k + x * grad hs w1 cs (fst q) k)))
       + s * (((1 - x) * value v0 cs (fst q) + x * value v1 cs (fst q)) * ((1 - x) * value w0 cs (fst q) + x * value w1 cs (fst q)))
       + o * ((value v1 cs (fst q) - value v0 cs (fst q)) * (value w1 cs (fst q) - value w0 cs (fst q))))))).
    { rewrite <- lsum_scale. apply lsum_ext. intros q _. rewrite rsum_first. cbn [grad value]. unfold v0, v1, w0, w1, a', o. field. exact Hh. }
    transitivity (wt * ((1 - x) * (1 - x) * P00 + x * (1 - x) * (P01 + P10) + x * x * P11 + o * (Q00 + Q11 - Q01 - Q10))).
    2:{ ring. }
    apply E. unfold P00, P01, P10, P11, Q00, Q01, Q10, Q11, pairing.
    rewrite <- !lsum_plus, <- !lsum_scale, <- !lsum_minus, <- !lsum_scale, <- !lsum_plus.
    apply lsum_ext. intros q _.
    rewrite !(rsum_0 (length cs) (fun k => 0 * _)) by (intros; ring).
    set (R00 := rsum (length cs) (fun k => a' k * (grad hs v0 cs (fst q) k * grad hs w0 cs (fst q) k))).
    set (R01 := rsum (length cs) (fun k => a' k * (grad hs v0 cs (fst q) k * grad hs w1 cs (fst q) k))).
    set (R10 := rsum (length cs) (fun k => a' k * (grad hs v1 cs (fst q) k * grad hs w0 cs (fst q) k))).
    set (R11 := rsum (length cs) (fun k => a' k * (grad hs v1 cs (fst q) k * grad hs w1 cs (fst q) k))).
    assert (Rs : rsum (length cs) (fun k => a' k * (((1 - x) * grad hs v0 cs (fst q) k + x * grad hs v1 cs (fst q) k) *
         ((1 - x) * grad hs w0 cs (fst q) k + x * grad hs w1 cs (fst q) k))) =
       (1 - x) * (1 - x) * R00 + x * (1 - x) * R01 + x * (1 - x) * R10 + x * x * R11).
    { unfold R00, R01, R10, R11. rewrite <- !rsum_scale, <- !rsum_plus. apply rsum_ext. intros. ring. }
    rewrite Rs. ring.
  - rewrite !lsum_plus, !lsum_scale, M1, M2.
    rewrite (lsum_ext _ line (fun p => snd p * (P00 + o * (Q00 + Q11 - Q01 - Q10))) (fun p => (P00 + o * (Q00 + Q11 - Q01 - Q10)) * snd p))
      by (intros; ring).
    rewrite lsum_scale, M0. field.
Qed.

Definition nonneg_on (cs : list nat) (v : list nat -> R) : Prop := forall js, In js (corners cs) -> 0 <= v js.
Definition apart_on (cs : list nat) (v w : list nat -> R) : Prop := forall js, In js (corners cs) -> v js * w js = 0.
Lemma nonneg_lo : forall c cs v, nonneg_on (c :: cs) v -> nonneg_on cs (fun js => v (c :: js)).
Proof. intros c cs v H js I. apply H. cbn. apply in_or_app. left. now apply in_map. Qed.
Lemma nonneg_hi : forall c cs v, nonneg_on (c :: cs) v -> nonneg_on cs (fun js => v (S c :: js)).
Proof. intros c cs v H js I. apply H. cbn. apply in_or_app. right. now apply in_map. Qed.
Lemma apart_lo : forall c cs v w, apart_on (c :: cs) v w -> apart_on cs (fun js => v (c :: js)) (fun js => w (c :: js)).
Proof. intros c cs v w H js I. apply H. cbn. apply in_or_app. left. now apply in_map. Qed.
Lemma apart_hi : forall c cs v w, apart_on (c :: cs) v w -> apart_on cs (fun js => v (S c :: js)) (fun js => w (S c :: js)).
Proof. intros c cs v w H js I. apply H. cbn. apply in_or_app. right. now apply in_map. Qed.

Lemma steep_first : forall h hs a, rsum (length (h :: hs)) (steep (h :: hs) a) = a 0%nat / (h * h) + rsum (length hs) (steep hs (fun k => a (S k))).
Proof. intros. cbn [length]. rewrite rsum_first. reflexivity. Qed.

Lemma pairing_far : forall line, moments line -> forall cs hs a s v w, length hs = length cs -> Forall (Rlt 0) hs ->
  nonneg_on cs v -> nonneg_on cs w -> (forall k, (k < length hs)%nat -> 0 <= steep hs a k) ->
  rsum (length hs) (steep hs a) / 3 + s / 9 <= 0 -> pairing line hs a cs s v w <= 0.
Proof.
  intros line M. induction cs as [|c cs IH]; intros [|h hs] a s v w L Fh V W A B; try discriminate L.
  - unfold pairing. cbn in *. specialize (V [] (or_introl eq_refl)). specialize (W [] (or_introl eq_refl)).
    assert (0 <= v [] * w []) by (apply Rmult_le_pos; auto). nra.
  - apply Forall_cons_iff in Fh. destruct Fh as (Hh & Fh). rewrite pairing_cons by (auto; lra).
    rewrite steep_first in B. pose proof (A 0%nat ltac:(cbn; lia)) as A0. unfold steep in A0 at 1. cbn [nth] in A0.
    assert (A' : forall k, (k < length hs)%nat -> 0 <= steep hs (fun m => a (S m)) k).
    { intros k Lk. apply (A (S k)). cbn; lia. }
    assert (L' : length hs = length cs) by (cbn in L; lia).
    pose proof (nonneg_lo _ _ _ V). pose proof (nonneg_hi _ _ _ V). pose proof (nonneg_lo _ _ _ W). pose proof (nonneg_hi _ _ _ W).
    set (o := a 0%nat / (h * h)) in *.
    pose proof (IH hs (fun k => a (S k)) (s + 3 * o) (fun js => v (c :: js)) (fun js => w (c :: js)) L' Fh ltac:(auto) ltac:(auto) A' ltac:(lra)).
    pose proof (IH hs (fun k => a (S k)) (s + 3 * o) (fun js => v (S c :: js)) (fun js => w (S c :: js)) L' Fh ltac:(auto) ltac:(auto) A' ltac:(lra)).
    pose proof (IH hs (fun k => a (S k)) (s - 6 * o) (fun js => v (c :: js)) (fun js => w (S c :: js)) L' Fh ltac:(auto) ltac:(auto) A' ltac:(lra)).
    pose proof (IH hs (fun k => a (S k)) (s - 6 * o) (fun js => v (S c :: js)) (fun js => w (c :: js)) L' Fh ltac:(auto) ltac:(auto) A' ltac:(lra)).
    lra.
Qed.

Lemma pairing_apart : forall line, moments line -> forall cs hs a s v w, length hs = length cs -> Forall (Rlt 0) hs ->
  nonneg_on cs v -> nonneg_on cs w -> apart_on cs v w -> (forall k, (k < length hs)%nat -> 0 <= steep hs a k) ->
  (forall k, (k < length hs)%nat -> rsum (length hs) (steep hs a) / 3 + s / 9 <= steep hs a k) -> pairing line hs a cs s v w <= 0.
Proof.
  intros line M. induction cs as [|c cs IH]; intros [|h hs] a s v w L Fh V W D A B; try discriminate L.
  - unfold pairing. cbn in *. rewrite (D [] (or_introl eq_refl)). lra.
  - apply Forall_cons_iff in Fh. destruct Fh as (Hh & Fh). rewrite pairing_cons by (auto; lra).
    pose proof (A 0%nat ltac:(cbn; lia)) as A0. unfold steep in A0 at 1. cbn [nth] in A0.
    assert (A' : forall k, (k < length hs)%nat -> 0 <= steep hs (fun m => a (S m)) k).
    { intros k Lk. apply (A (S k)). cbn; lia. }
    pose proof (B 0%nat ltac:(cbn; lia)) as B0. rewrite steep_first in B0. unfold steep in B0 at 2. cbn [nth] in B0.
    assert (L' : length hs = length cs) by (cbn in L; lia).
    set (o := a 0%nat / (h * h)) in *.
    assert (B' : forall k, (k < length hs)%nat -> rsum (length hs) (steep hs (fun m => a (S m))) / 3 + (s + 3 * o) / 9 <= steep hs (fun m => a (S m)) k).
    { intros k Lk. pose proof (B (S k) ltac:(cbn; lia)) as Bk. rewrite steep_first in Bk. change (steep (h :: hs) a (S k)) with (steep hs (fun m => a (S m)) k) in Bk.
      fold o in Bk. lra. }
    pose proof (nonneg_lo _ _ _ V). pose proof (nonneg_hi _ _ _ V). pose proof (nonneg_lo _ _ _ W). pose proof (nonneg_hi _ _ _ W).
    pose proof (apart_lo _ _ _ _ D). pose proof (apart_hi _ _ _ _ D).
    pose proof (IH hs (fun k => a (S k)) (s + 3 * o) (fun js => v (c :: js)) (fun js => w (c :: js)) L' Fh ltac:(auto) ltac:(auto) ltac:(auto) A' B').
    pose proof (IH hs (fun k => a (S k)) (s + 3 * o) (fun js => v (S c :: js)) (fun js => w (S c :: js)) L' Fh ltac:(auto) ltac:(auto) ltac:(auto) A' B').
    pose proof (pairing_far line M cs hs (fun k => a (S k)) (s - 6 * o) (fun js => v (c :: js)) (fun js => w (S c :: js)) L' Fh ltac:(auto) ltac:(auto) A' ltac:(lra)).
    pose proof (pairing_far line M cs hs (fun k => a (S k)) (s - 6 * o) (fun js => v (S c :: js)) (fun js => w (c :: js)) L' Fh ltac:(auto) ltac:(auto) A' ltac:(lra)).
    lra.
Qed.

(** * The principle *)
Lemma principle : forall n (con : nat -> bool) (en : (nat -> R) -> (nat -> R) -> R) w,
  (forall p m z, en (fun i => p i - m i) z = en p z - en m z) ->
  (forall p p' z, (forall i, p i = p' i) -> en p z = en p' z) ->
  (forall p m, (forall i, 0 <= p i) -> (forall i, 0 <= m i) -> (forall i, p i * m i = 0) -> en p m <= 0) ->
  (forall p, (forall i, (i < n)%nat -> con i = true -> p i = 0) -> en p p <= 0 -> forall i, (i < n)%nat -> p i = 0) ->
  (forall i, (i < n)%nat -> con i = true -> w i <= 0) ->
  (forall z, (forall i, 0 <= z i) -> (forall i, (i < n)%nat -> con i = true -> z i = 0) -> en w z <= 0) ->
  forall i, (i < n)%nat -> w i <= 0.
Proof.
  intros n con en w Lin Ext Ap Def Bd Eq i Li.
  set (p := fun i => Rmax (w i) 0). set (m := fun i => Rmax (- w i) 0).
  assert (P : forall i, 0 <= p i) by (intros; apply Rmax_r). assert (Mm : forall i, 0 <= m i) by (intros; apply Rmax_r).
  assert (E : forall i, w i = p i - m i) by (intros j; unfold p, m, Rmax; destruct (Rle_dec (w j) 0), (Rle_dec (- w j) 0); lra).
  assert (Z : forall i, m i * p i = 0) by (intros j; unfold p, m, Rmax; destruct (Rle_dec (w j) 0), (Rle_dec (- w j) 0); nra).
  assert (V : forall i, (i < n)%nat -> con i = true -> p i = 0).
  { intros j Lj Cj. unfold p. apply Rmax_right. auto. }
  pose proof (Eq p P V) as Q. rewrite (Ext w (fun i => p i - m i) p E), Lin in Q.
  pose proof (Ap m p Mm P Z).
  assert (p i = 0) by (apply Def; auto; lra). unfold p in *. pose proof (Rmax_l (w i) 0). lra.
Qed.

(** Values of functions that are not negative at the nodes. *)
Lemma value_nonneg : forall cs xs v, length xs = length cs -> Forall (fun x => 0 <= x <= 1) xs -> nonneg_on cs v -> 0 <= value v cs xs.
Proof.
  induction cs as [|c cs IH]; intros [|x xs] v L F V; try discriminate L; cbn [value].
  - apply V. now left.
  - apply Forall_cons_iff in F. destruct F as (Hx & F). cbn in L. assert (length xs = length cs) by lia.
    pose proof (IH xs _ H F (nonneg_lo _ _ _ V)). pose proof (IH xs _ H F (nonneg_hi _ _ _ V)). nra.
Qed.

(** * A grid of boxes *)
Definition gform (ns : list nat) (hs : list R) (num : list nat -> nat) (a : list nat -> nat -> R) (line : list (R * R)) (u v : nat -> R) : R :=
  lsum (cells ns) (fun cs => volume hs * pairing line hs (a cs) cs 0 (nodal num u) (nodal num v)).

Lemma pairing_lin : forall line hs a cs s b c p m z,
  pairing line hs a cs s (fun js => b * p js + c * m js) z = b * pairing line hs a cs s p z + c * pairing line hs a cs s m z.
Proof.
  intros. unfold pairing. rewrite <- !lsum_scale, <- lsum_plus. apply lsum_ext. intros q Q. rewrite value_lin.
  rewrite (rsum_ext (length cs) _ (fun k => b * (a k * (grad hs p cs (fst q) k * grad hs z cs (fst q) k)) +
     c * (a k * (grad hs m cs (fst q) k * grad hs z cs (fst q) k)))) by (intros; rewrite grad_lin; ring).
  rewrite rsum_plus, !rsum_scale. ring.
Qed.
Lemma pairing_ext : forall line hs a cs s p p' z z',
  (forall js, In js (corners cs) -> p js = p' js) -> (forall js, In js (corners cs) -> z js = z' js) ->
  pairing line hs a cs s p z = pairing line hs a cs s p' z'.
Proof.
  intros line hs a cs s p p' z z' E F. unfold pairing. apply lsum_ext. intros q Q. pose proof (rule_length _ _ _ Q) as L. f_equal. f_equal.
  - apply rsum_ext. intros k _. now rewrite (grad_ext hs cs (fst q) k p p' L E), (grad_ext hs cs (fst q) k z z' L F).
  - now rewrite (value_ext cs (fst q) p p' L E), (value_ext cs (fst q) z z' L F).
Qed.
(** The rule does not matter. *)
Lemma pairing_rule : forall line line', moments line -> moments line' -> forall cs hs a s v w,
  length hs = length cs -> Forall (Rlt 0) hs -> pairing line hs a cs s v w = pairing line' hs a cs s v w.
Proof.
  intros line line' M M'. induction cs as [|c cs IH]; intros [|h hs] a s v w L Fh; try discriminate L; [reflexivity|].
  apply Forall_cons_iff in Fh. destruct Fh as (Hh & Fh). rewrite !pairing_cons by (auto; lra).
  assert (length hs = length cs) by (cbn in L; lia). now rewrite !(IH hs) by auto.
Qed.

Section Grid.
Variables (ns : list nat) (hs : list R) (num : list nat -> nat) (n : nat).
Variable a : list nat -> nat -> R.
Variable line : list (R * R).
Hypothesis Lh : length hs = length ns.
Hypothesis Fn : Forall (fun m => (0 < m)%nat) ns.
Hypothesis Fh : Forall (Rlt 0) hs.
Hypothesis Num : numbering ns num n.
Hypothesis Mo : moments line.
Hypothesis Tp : two_points line.
Hypothesis Pa : forall cs k, In cs (cells ns) -> (k < length ns)%nat -> 0 < a cs k.
Hypothesis Ev : forall cs, In cs (cells ns) -> even_shape hs (a cs).
Let gf := gform ns hs num a line.

Lemma gform_lin : forall b c p m z, gf (fun i => b * p i + c * m i) z = b * gf p z + c * gf m z.
Proof.
  intros. unfold gf, gform. rewrite <- !lsum_scale, <- lsum_plus. apply lsum_ext. intros cs I.
  change (nodal num (fun i => b * p i + c * m i)) with (fun js => b * nodal num p js + c * nodal num m js). rewrite pairing_lin. ring.
Qed.
Lemma gform_ext : forall p p' z z', (forall i, (i < n)%nat -> p i = p' i) -> (forall i, (i < n)%nat -> z i = z' i) -> gf p z = gf p' z'.
Proof.
  intros p p' z z' E F. unfold gf, gform. apply lsum_ext. intros cs I. f_equal. apply pairing_ext; intros js J; unfold nodal.
  - apply E. apply (proj1 Num). now apply (corner_node ns cs).
  - apply F. apply (proj1 Num). now apply (corner_node ns cs).
Qed.
Lemma gform_minus : forall p m z, gf (fun i => p i - m i) z = gf p z - gf m z.
Proof.
  intros. rewrite (gform_ext _ (fun i => 1 * p i + (-1) * m i) z z) by (intros; ring). rewrite gform_lin. ring.
Qed.
Lemma gform_sum : forall k (c : nat -> R) (w : nat -> nat -> R) z,
  gf (fun j => rsum k (fun i => c i * w i j)) z = rsum k (fun i => c i * gf (w i) z).
Proof.
  intros k c w z. induction k as [|k IH]; cbn [rsum].
  - rewrite (gform_ext _ (fun i => 0 * 0 + 0 * 0) z z) by (intros; ring). rewrite (gform_lin 0 0 (fun _ => 0) (fun _ => 0)). ring.
  - rewrite <- IH. rewrite (gform_ext _ (fun j => 1 * rsum k (fun i => c i * w i j) + c k * w k j) z z) by (intros; ring).
    rewrite (gform_lin 1 (c k) (fun j => rsum k (fun i => c i * w i j)) (w k)). ring.
Qed.
Lemma gform_const : forall s z, gf (fun _ => s) z = 0.
Proof.
  intros s z. unfold gf, gform. apply lsum_0. intros cs I. unfold pairing. rewrite lsum_0; [ring|]. intros q _.
  rewrite rsum_0; [ring|]. intros k _. change (nodal num (fun _ => s)) with (fun _ : list nat => s). rewrite grad_const. ring.
Qed.
Lemma gform_apart : forall p m, (forall i, 0 <= p i) -> (forall i, 0 <= m i) -> (forall i, p i * m i = 0) -> gf p m <= 0.
Proof.
  intros p m P M Z. unfold gf, gform. apply Ropp_le_cancel. rewrite Ropp_0.
  rewrite <- (Rmult_1_l (lsum _ _)), <- Ropp_mult_distr_l_reverse, <- lsum_scale. apply lsum_nonneg. intros cs I.
  pose proof (volume_pos hs Fh) as Vp. pose proof (cells_length _ _ I) as Lc.
  assert (pairing line hs (a cs) cs 0 (nodal num p) (nodal num m) <= 0).
  { apply pairing_apart; auto; try lia.
    - intros js _. apply P.
    - intros js _. apply M.
    - intros js _. apply Z.
    - intros k Lk. unfold steep. rewrite Lh in Lk. pose proof (Pa cs k I Lk). pose proof (nth_pos hs k Fh).
      apply Rlt_le, Rdiv_lt_0_compat; auto. now apply Rmult_lt_0_compat.
    - intros k Lk. pose proof (Ev cs I k Lk). lra. }
  nra.
Qed.
Lemma gform_definite : forall con, (exists i, (i < n)%nat /\ con i = true) ->
  forall p, (forall i, (i < n)%nat -> con i = true -> p i = 0) -> gf p p <= 0 -> forall i, (i < n)%nat -> p i = 0.
Proof.
  intros con (i0 & L0 & C0) p V E i Li. rewrite <- (V i0 L0 C0).
  destruct (proj2 (proj2 Num) i Li) as (js & Nj & <-). destruct (proj2 (proj2 Num) i0 L0) as (js' & Nj' & <-).
  change (nodal num p js = nodal num p js'). pose proof (volume_pos hs Fh) as Vp.
  apply (flat ns hs (nodal num p) line); auto. intros cs q k I Q Lk.
  set (term := fun cs (q : list R * R) => snd q * rsum (length cs) (fun k => a cs k * (grad hs (nodal num p) cs (fst q) k * grad hs (nodal num p) cs (fst q) k))).
  assert (T2 : forall cs k x, In cs (cells ns) -> (k < length cs)%nat -> 0 <= a cs k * (x * x)).
  { intros cs' k' x I' L'. rewrite (cells_length _ _ I') in L'. pose proof (Pa cs' k' I' L'). pose proof (Rle_0_sqr x). unfold Rsqr in *. nra. }
  assert (T1 : forall cs q, In cs (cells ns) -> In q (product_rule line (length cs)) -> 0 <= term cs q).
  { intros cs' q' I' Q'. unfold term. apply Rmult_le_pos; [left; now apply (rule_positive line (length cs')); [apply Tp|]|].
    apply rsum_nonneg. intros. now apply T2. }
  assert (E0 : forall cs, In cs (cells ns) -> pairing line hs (a cs) cs 0 (nodal num p) (nodal num p) = lsum (product_rule line (length cs)) (term cs)).
  { intros cs' I'. unfold pairing. apply lsum_ext. intros q' _. unfold term. ring. }
  assert (T0 : forall cs, In cs (cells ns) -> 0 <= volume hs * pairing line hs (a cs) cs 0 (nodal num p) (nodal num p)).
  { intros cs' I'. rewrite E0 by auto. apply Rmult_le_pos; [lra|]. apply lsum_nonneg. intros. now apply T1. }
  assert (Z : gf p p = 0) by (apply Rle_antisym; auto; now apply lsum_nonneg).
  pose proof (lsum_zero_each _ _ _ cs T0 Z I) as Z1. cbv beta in Z1. rewrite E0 in Z1 by auto.
  apply Rmult_integral in Z1. destruct Z1 as [Z1|Z1]; [lra|].
  pose proof (cells_length _ _ I) as Lc. rewrite <- Lc in Q, Lk.
  pose proof (lsum_zero_each _ _ _ q (fun q => T1 cs q I) Z1 Q) as Z2. unfold term in Z2.
  apply Rmult_integral in Z2. pose proof (rule_positive line (length cs) q (proj1 Tp) Q). destruct Z2 as [Z2|Z2]; [lra|].
  assert (Z3 : a cs k * (grad hs (nodal num p) cs (fst q) k * grad hs (nodal num p) cs (fst q) k) = 0).
  { assert (Sq : lsum (seq 0 (length cs)) (fun k => a cs k * (grad hs (nodal num p) cs (fst q) k * grad hs (nodal num p) cs (fst q) k)) = 0)
      by (rewrite lsum_seq; exact Z2).
    apply (lsum_zero_each _ _ _ k) in Sq; auto; [|apply in_seq; lia]. intros m Lm. apply in_seq in Lm. apply T2; auto. lia. }
  apply Rmult_integral in Z3. rewrite Lc in Lk. pose proof (Pa cs k I Lk). destruct Z3 as [Z3|Z3]; [lra|].
  apply Rmult_integral in Z3. tauto.
Qed.
End Grid.

Lemma gform_principle : forall ns hs num n a line con w, length hs = length ns -> Forall (fun m => (0 < m)%nat) ns -> Forall (Rlt 0) hs ->
  numbering ns num n -> moments line -> two_points line ->
  (forall cs k, In cs (cells ns) -> (k < length ns)%nat -> 0 < a cs k) -> (forall cs, In cs (cells ns) -> even_shape hs (a cs)) ->
  (exists i, (i < n)%nat /\ con i = true) ->
  (forall i, (i < n)%nat -> con i = true -> w i <= 0) ->
  (forall z, (forall i, 0 <= z i) -> (forall i, (i < n)%nat -> con i = true -> z i = 0) -> gform ns hs num a line w z <= 0) ->
  forall i, (i < n)%nat -> w i <= 0.
Proof.
  intros ns hs num n a line con w Lh Fn Fh Nu Mo Tp Pa Ev Cn Bd Eq. apply (principle n con (gform ns hs num a line)); auto.
  - now apply (gform_minus ns hs num n).
  - intros p p' z E. now apply (gform_ext ns hs num n).
  - now apply gform_apart.
  - now apply (gform_definite ns hs num n a line Lh Fn Fh Nu Tp Pa con).
Qed.

(** * The reference solution *)
Lemma box_fine_val : forall ns hs num n u cs ls global vol quad rquad xs, numbering ns num n -> In cs (cells ns) ->
  length xs = length cs ->
  fine_val (list R) u (fem_cell (box_cell hs num cs ls) global vol quad rquad) xs = value (nodal num u) cs xs.
Proof.
  intros ns hs num n u cs ls global vol quad rquad xs N I L. unfold fine_val. cbn [fem_cell box_cell fc_n fc_index fc_val cc_n cc_index cc_val].
  rewrite (value_sum _ cs xs (fun i => u (num (nth i (corners cs) []))) (fun i => one_at num (num (nth i (corners cs) [])))) by auto.
  apply value_ext; auto. intros js J. now apply (corner_sum ns num n).
Qed.

Lemma diagonal_form : forall d (A : nat -> nat -> R) b u v, (forall i j, (i < d)%nat -> (j < d)%nat -> A i j = if Nat.eqb i j then b i else 0) ->
  dot d (mv d A u) v = rsum d (fun k => b k * (u k * v k)).
Proof.
  intros d A b u v E. unfold dot. apply rsum_ext. intros k L. unfold mv. rewrite (rsum_single d k); auto.
  - rewrite E, Nat.eqb_refl by auto. ring.
  - intros j Lj D. rewrite E by auto. destruct (Nat.eqb_spec k j); [congruence|ring].
Qed.

Section Reference.
Variables (ns : list nat) (hs : list R) (num : list nat -> nat) (n : nat).
Variable diffusion : list R -> nat -> nat -> R.
Variable global : list nat -> list R -> list R.
Variable a : list nat -> nat -> R.
Variable line : list (R * R).
Variable rquad : list nat -> list (list R * R).
Variable fs : list nat -> list (cface (list R)).
Let d := length ns.
Let grid := fine_boxes ns hs num global (product_rule line d) rquad fs.
Hypothesis Lh : length hs = length ns.
Hypothesis Fn : Forall (fun m => (0 < m)%nat) ns.
Hypothesis Fh : Forall (Rlt 0) hs.
Hypothesis Num : numbering ns num n.
Hypothesis Mo : moments line.
Hypothesis Tp : two_points line.
Hypothesis Ip : Forall (fun p => 0 < fst p < 1) line.
Hypothesis Cw : cellwise ns global diffusion a.
Hypothesis Pa : forall cs k, In cs (cells ns) -> (k < length ns)%nat -> 0 < a cs k.
Hypothesis Ev : forall cs, In cs (cells ns) -> even_shape hs (a cs).
Hypothesis Gr : good_rules ns rquad fs.

Lemma ref_energy : forall u v,
  lsum grid (fun cf => fine_energy d (list R) diffusion (fst cf) (fine_grad _ u (fst cf)) (fine_grad _ v (fst cf))) = gform ns hs num a line u v.
Proof.
  intros u v. unfold grid, fine_boxes, gform. rewrite lsum_map. apply lsum_ext. intros cs I. cbn [fst].
  pose proof (cells_length _ _ I) as Lc. unfold fine_energy, pairing. rewrite <- lsum_scale. rewrite Lc.
  apply lsum_ext. intros q Q. pose proof (rule_length _ _ _ Q) as Lq. pose proof (rule_inside _ Ip _ _ Q) as Iq. cbn [fem_cell fc_quad fc_factor fc_global].
  rewrite (diagonal_form d _ (a cs)) by (intros; now apply Cw).
  rewrite (rsum_ext d _ (fun k => a cs k * (grad hs (nodal num u) cs (fst q) k * grad hs (nodal num v) cs (fst q) k))).
  - fold d. ring.
  - intros k _. rewrite !(box_fine_grad ns hs num n) by (auto; unfold d in *; congruence). reflexivity.
Qed.

Lemma ref_load : forall source source' neumann neumann' z, (forall y, source y <= source' y) -> (forall y, neumann y <= neumann' y) ->
  (forall i, 0 <= z i) ->
  lsum grid (fun cf => fine_load (list R) source (fst cf) (fine_val _ z (fst cf)) + boundary_load (list R) neumann (snd cf) (fine_val _ z (fst cf))) <=
  lsum grid (fun cf => fine_load (list R) source' (fst cf) (fine_val _ z (fst cf)) + boundary_load (list R) neumann' (snd cf) (fine_val _ z (fst cf))).
Proof.
  intros source source' neumann neumann' z S N Z. apply Rminus_le. rewrite <- lsum_minus. apply Ropp_le_cancel. rewrite Ropp_0.
  rewrite <- (Rmult_1_l (lsum _ _)), <- Ropp_mult_distr_l_reverse, <- lsum_scale. apply lsum_nonneg. intros (c, f) I.
  apply in_map_iff in I. destruct I as (cs & E & I). injection E as <- <-. cbn [fst snd]. destruct (Gr cs I) as (G1 & G2).
  pose proof (cells_length _ _ I) as Lc. pose proof (volume_pos hs Fh) as Vp.
  assert (V : forall xs, in_cell (length ns) xs ->
    0 <= fine_val _ z (fem_cell (box_cell hs num cs []) (global cs) (volume hs) (product_rule line d) (rquad cs)) xs).
  { intros xs (Lx & Fx). rewrite (box_fine_val ns hs num n) by (auto; congruence). apply value_nonneg; auto; [congruence|].
    intros js _. apply Z. }
  set (c := fem_cell _ _ _ _ _) in *.
  assert (A : fine_load (list R) source c (fine_val _ z c) <= fine_load (list R) source' c (fine_val _ z c)).
  { apply Rminus_le. unfold fine_load. rewrite <- lsum_minus. apply Ropp_le_cancel. rewrite Ropp_0.
    rewrite <- (Rmult_1_l (lsum _ _)), <- Ropp_mult_distr_l_reverse, <- lsum_scale. apply lsum_nonneg. intros q Q.
    destruct (G1 q Q) as (Gq & Wq). pose proof (V _ Gq). pose proof (S (fc_global _ c (fst q))).
    change (fc_factor (list R) c (fst q)) with (volume hs).
    assert (0 <= volume hs * snd q) by nra. assert (0 <= volume hs * snd q * fine_val (list R) z c (fst q)) by (apply Rmult_le_pos; auto). nra. }
  assert (B : boundary_load (list R) neumann (fs cs) (fine_val _ z c) <= boundary_load (list R) neumann' (fs cs) (fine_val _ z c)).
  { apply Rminus_le. unfold boundary_load. rewrite <- lsum_minus. apply Ropp_le_cancel. rewrite Ropp_0.
    rewrite <- (Rmult_1_l (lsum _ _)), <- Ropp_mult_distr_l_reverse, <- lsum_scale. apply lsum_nonneg. intros f If.
    apply filter_In in If. destruct If as (If & _). rewrite <- lsum_minus, <- lsum_scale. apply lsum_nonneg. intros q Q.
    destruct (G2 f q If Q) as (Gq & Wq). pose proof (V _ Gq). pose proof (N (snd (fst q))).
    assert (0 <= snd q * fine_val (list R) z c (fst (fst q))) by (apply Rmult_le_pos; auto). nra. }
  lra.
Qed.

Lemma ref_compare : forall con source source' neumann neumann' g g' start start' u u', (exists i, (i < n)%nat /\ con i = true) ->
  (forall y, source y <= source' y) -> (forall y, neumann y <= neumann' y) -> (forall i, (i < n)%nat -> con i = true -> g i <= g' i) ->
  fem_solution d (list R) diffusion source neumann n con g start grid u ->
  fem_solution d (list R) diffusion source' neumann' n con g' start' grid u' ->
  forall i, (i < n)%nat -> u i <= u' i.
Proof.
  intros con source source' neumann neumann' g g' start start' u u' Cn S N G U U' i Li.
  apply fem_weak_form in U; [|apply (fine_index ns hs num n global line rquad fs Num)].
  apply fem_weak_form in U'; [|apply (fine_index ns hs num n global line rquad fs Num)].
  destruct U as (B & W). destruct U' as (B' & W').
  enough (u i - u' i <= 0) by lra.
  apply (gform_principle ns hs num n a line con (fun i => u i - u' i)); auto.
  - intros j Lj Cj. rewrite B, B' by auto. specialize (G j Lj Cj). lra.
  - intros z Z V. rewrite (gform_minus ns hs num n) by auto. rewrite <- !ref_energy. unfold grid in *. rewrite W, W' by auto.
    pose proof (ref_load source source' neumann neumann' z S N Z). unfold grid in *. lra.
Qed.
End Reference.

(** * Local problems *)
Section Local.
Variables (ns : list nat) (hs : list R) (num : list nat -> nat) (n : nat).
Variable diffusion : list R -> nat -> nat -> R.
Variables order rhs_order : nat.
Variable p : patch.
Variable cs : list nat.
Variable x : nat -> nat -> R.
Variable a : list nat -> nat -> R.
Let d := length ns.
Hypothesis Lh : length hs = length ns.
Hypothesis Num : numbering ns num n.
Hypothesis Ic : In cs (cells ns).
Hypothesis So : sound (length ns) p.
Lemma restricted_total : forall (v : nat -> R) js, node (pa_cells p) js ->
  rsum (length (corners cs)) (fun i => v (num (nth i (corners cs) [])) * restricted hs p (one_at num (num (nth i (corners cs) []))) cs js) =
  restricted hs p (nodal num v) cs js.
Proof.
  intros v js Nj. destruct So as (Lc & Le & Ll & _). pose proof (cells_length _ _ Ic) as Lcs.
  assert (Lj : length js = d) by (unfold d; rewrite <- Lc; unfold node in Nj; clear -Nj; induction Nj; cbn; auto).
  unfold restricted. rewrite value_sum; [apply value_ext|].
  - rewrite place_length; unfold d in *; try lia. rewrite at0_length. lia.
  - intros js' J. now apply (corner_sum ns num n).
  - rewrite place_length; unfold d in *; try lia. rewrite at0_length. lia.
Qed.

Hypothesis Og : (2 <= gauss_points order <= 3)%nat.
Hypothesis Or : (2 <= gauss_points rhs_order <= 3)%nat.
Hypothesis Cw : cellwise (pa_cells p) (pa_global p) diffusion a.
Hypothesis Pa : forall f k, In f (cells (pa_cells p)) -> (k < length ns)%nat -> 0 < a f k.
Hypothesis Ev : forall f, In f (cells (pa_cells p)) -> even_shape (pa_edges p) (a f).
Hypothesis Cn : exists i, (i < pa_n p)%nat /\ pa_con p i = true.
Hypothesis Co : corrected hs num diffusion order rhs_order p cs x.

Let gf := gform (pa_cells p) (pa_edges p) (pa_num p) a (line_rule (gauss_points order)).

Lemma local_energy : forall o y z, (2 <= gauss_points o <= 3)%nat ->
  LinSpec.energy d (patch_points d o diffusion p) (field_of (pa_n p) y) (field_of (pa_n p) z) = gf y z.
Proof.
  intros o y z Oo. destruct So as (Lc & Le & Ll & Fc & Fe & Nu). unfold gf, gform.
  unfold LinSpec.energy, patch_points, grid_points, varied_elements. rewrite lsum_flat_map, lsum_map.
  apply lsum_ext. intros f If. pose proof (cells_length _ _ If) as Lf.
  rewrite (pairing_rule _ (line_rule (gauss_points o))) by (try apply gauss_moments; auto; lia).
  rewrite lsum_map. unfold pairing, cube_rule. rewrite <- lsum_scale. rewrite Lf, Lc. fold d. apply lsum_ext. intros q Q.
  pose proof (rule_length _ _ _ Q) as Lq. pose proof (rule_inside _ (gauss_inside _) _ _ Q) as Iq. cbn [q_w q_A el_factor el_A el_grad].
  rewrite (diagonal_form d _ (a f)) by (intros; apply Cw; auto; unfold d in *; lia).
  rewrite (rsum_ext d _ (fun k => a f k * (grad (pa_edges p) (nodal (pa_num p) y) f (fst q) k * grad (pa_edges p) (nodal (pa_num p) z) f (fst q) k))).
  - ring.
  - intros k _. f_equal. unfold field_of. cbn [q_grad el_grad].
    rewrite !(nodal_grad (pa_cells p) (pa_edges p) (pa_num p) (pa_n p)) by (auto; unfold d in *; lia). reflexivity.
Qed.

(** The corrected function with values [u] at the corners of the coarse cell. *)
Let total (u : nat -> R) : list nat -> R := fun js =>
  rsum (length (corners cs)) (fun i => u (num (nth i (corners cs) [])) *
    (restricted hs p (one_at num (num (nth i (corners cs) []))) cs js + x i (pa_num p js))).

Lemma total_weak : forall u, exists t : nat -> R,
  (forall js, node (pa_cells p) js -> t (pa_num p js) = total u js) /\
  (forall js, node (pa_cells p) js -> pa_con p (pa_num p js) = true -> total u js = restricted hs p (nodal num u) cs js) /\
  (forall z, vanishes (pa_n p) (pa_con p) z -> gf t z = 0).
Proof.
  intros u. destruct So as (Lc & Le & Ll & Fc & Fe & Nu).
  destruct (choose (length (corners cs)) (fun i y => (forall js, node (pa_cells p) js ->
      y (pa_num p js) = restricted hs p (one_at num (num (nth i (corners cs) []))) cs js) /\
      corrector d (patch_points d order diffusion p) (patch_points d rhs_order diffusion p)
        (pa_n p) (pa_con p) (field_of (pa_n p) y) (x i))) as (y & Y).
  { intros i Li. destruct (Co i Li) as (y & Y). exists y. rewrite Lh in Y. exact Y. }
  exists (fun m => rsum (length (corners cs)) (fun i => u (num (nth i (corners cs) [])) * (y i m + x i m))). split; [|split].
  - intros js Nj. apply rsum_ext. intros i Li. now rewrite (proj1 (Y i Li)).
  - intros js Nj Cj. unfold total. rewrite <- restricted_total by auto.
    apply rsum_ext. intros i Li. destruct (Y i Li) as (_ & C). apply corrector_orthogonal in C. destruct C as (V & _).
    rewrite (V (pa_num p js)); auto; [ring|]. now apply Nu.
  - intros z Z. unfold gf. rewrite (gform_sum (pa_cells p) (pa_edges p) (pa_num p) (pa_n p)) by auto. apply rsum_0. intros i Li.
    rewrite (gform_ext (pa_cells p) (pa_edges p) (pa_num p) (pa_n p) a (line_rule (gauss_points order)) Nu _ (fun m => 1 * y i m + 1 * x i m) z z)
      by (intros; ring).
    rewrite gform_lin. fold gf. rewrite <- (local_energy rhs_order (y i) z), <- (local_energy order (x i) z) by auto.
    destruct (Y i Li) as (_ & C). apply corrector_orthogonal in C. destruct C as (_ & W). specialize (W z Z). unfold d in *. rewrite Rplus_comm in W.
    rewrite !Rmult_1_l, W. ring.
Qed.

Lemma total_between : forall u lo hi,
  (forall js, node (pa_cells p) js -> pa_con p (pa_num p js) = true -> lo <= restricted hs p (nodal num u) cs js <= hi) ->
  forall js, node (pa_cells p) js -> lo <= total u js <= hi.
Proof.
  intros u lo hi B js Nj. destruct (total_weak u) as (t & T & Tc & W). destruct So as (Lc & Le & Ll & Fc & Fe & Nu).
  rewrite <- (T js Nj).
  assert (Bt : forall i, (i < pa_n p)%nat -> pa_con p i = true -> lo <= t i <= hi).
  { intros i Li Ci. destruct (proj2 (proj2 Nu) i Li) as (js' & Nj' & <-). rewrite (T js' Nj'), (Tc js' Nj' Ci). auto. }
  assert (Li : (pa_num p js < pa_n p)%nat) by now apply Nu.
  split.
  - enough (lo - t (pa_num p js) <= 0) by lra.
    apply (gform_principle (pa_cells p) (pa_edges p) (pa_num p) (pa_n p) a (line_rule (gauss_points order)) (pa_con p) (fun i => lo - t i)); auto; try lia.
    + now apply gauss_moments.
    + now apply gauss_two.
    + intros; apply Pa; auto; lia.
    + intros i L C. specialize (Bt i L C). lra.
    + intros z _ V. rewrite (gform_minus _ _ _ (pa_n p)) by auto. rewrite gform_const. fold gf. rewrite W by auto. lra.
  - enough (t (pa_num p js) - hi <= 0) by lra.
    apply (gform_principle (pa_cells p) (pa_edges p) (pa_num p) (pa_n p) a (line_rule (gauss_points order)) (pa_con p) (fun i => t i - hi)); auto; try lia.
    + now apply gauss_moments.
    + now apply gauss_two.
    + intros; apply Pa; auto; lia.
    + intros i L C. specialize (Bt i L C). lra.
    + intros z _ V. rewrite (gform_minus _ _ _ (pa_n p)) by auto. rewrite gform_const. fold gf. rewrite W by auto. lra.
Qed.
End Local.

Lemma value_between : forall cs xs v lo hi, length xs = length cs -> Forall (fun x => 0 <= x <= 1) xs ->
  (forall js, In js (corners cs) -> lo <= v js <= hi) -> lo <= value v cs xs <= hi.
Proof.
  intros cs xs v lo hi L F B.
  assert (A : 0 <= value (fun js => 1 * v js + (- lo) * 1) cs xs).
  { apply value_nonneg; auto. intros js J. specialize (B js J). lra. }
  assert (A' : 0 <= value (fun js => (-1) * v js + hi * 1) cs xs).
  { apply value_nonneg; auto. intros js J. specialize (B js J). lra. }
  rewrite (value_lin cs xs 1 (- lo) v (fun _ => 1)), value_const in A.
  rewrite (value_lin cs xs (-1) hi v (fun _ => 1)), value_const in A'. lra.
Qed.

Lemma fills_inside : forall hs p js, length (pa_cells p) = length hs -> length (pa_edges p) = length hs -> length (pa_low p) = length hs ->
  Forall (Rlt 0) hs -> Forall (Rlt 0) (pa_edges p) -> fills hs p -> node (pa_cells p) js ->
  Forall (fun x => 0 <= x <= 1) (place (pa_low p) (pa_edges p) hs js (map (fun _ => 0) js)).
Proof.
  intros hs p js Lc Le Ll Fh Fe Fi Nj. unfold fills in Fi.
  revert Lc Le Ll Fi Nj Fe. generalize (pa_cells p) (pa_edges p) (pa_low p). clear p. intros ms gs os. revert ms gs os js.
  induction Fh as [|h hs Hh Fh IH]; intros [|m ms] [|g gs] [|o os] js Lc Le Ll Fi Nj Fe; try discriminate; cbn.
  - constructor.
  - inversion Nj as [|j m' js' ms' Lj Nj']; subst. cbn [map place]. apply Forall_cons_iff in Fe. destruct Fe as (Hg & Fe). constructor.
    + destruct (Fi 0%nat ltac:(cbn; lia)) as (O & E). cbn in O, E. subst o.
      assert (J : 0 <= INR j <= INR m) by (split; [apply pos_INR|now apply le_INR]).
      assert (Q : 0 <= g / h) by (apply Rlt_le, Rdiv_lt_0_compat; auto).
      rewrite Rplus_0_l, Rplus_0_r. split; [apply Rmult_le_pos; tauto|].
      apply Rle_trans with (INR m * (g / h)); [apply Rmult_le_compat_r; tauto|]. right. rewrite <- E. field. split; [lra|].
      intros Z. rewrite Z in E. lra.
    + apply (IH ms gs os js'); auto; try (cbn in *; lia). intros k Lk. apply (Fi (S k)). cbn. lia.
Qed.

Section Cell.
Variables (ns : list nat) (hs : list R) (num : list nat -> nat) (n : nat).
Variable diffusion : list R -> nat -> nat -> R.
Variables order rhs_order : nat.
Variable p : patch.
Variable cs : list nat.
Variable x : nat -> nat -> R.
Variable a : list nat -> nat -> R.
Hypothesis Lh : length hs = length ns.
Hypothesis Fh : Forall (Rlt 0) hs.
Hypothesis Num : numbering ns num n.
Hypothesis Ic : In cs (cells ns).
Hypothesis So : sound (length ns) p.

(** The function of the statement has the values of [total] at the nodes. *)
Lemma corrected_total : forall u f xs, In f (cells (pa_cells p)) -> length xs = length ns ->
  corrected_value hs num p cs x u f xs =
  value (fun js => rsum (length (corners cs)) (fun i => u (num (nth i (corners cs) [])) *
    (restricted hs p (one_at num (num (nth i (corners cs) []))) cs js + x i (pa_num p js)))) f xs.
Proof.
  intros u f xs If Lx. pose proof So as (Lc & Le & Ll & Fc & Fe & Nu). pose proof (cells_length _ _ If) as Lf. pose proof (cells_length _ _ Ic) as Lcs.
  unfold corrected_value.
  rewrite (value_ext f xs _ (fun js => 1 * restricted hs p (nodal num u) cs js +
      1 * rsum (length (corners cs)) (fun i => u (num (nth i (corners cs) [])) * x i (pa_num p js)))).
  - rewrite value_lin. rewrite !Rmult_1_l. f_equal.
    + symmetry. unfold restricted. apply value_affine; auto; lia.
    + rewrite (value_sum _ f xs (fun i => u (num (nth i (corners cs) []))) (fun i js => x i (pa_num p js))) by lia. reflexivity.
  - lia.
  - intros js J. rewrite <- (restricted_total ns hs num n p cs Lh Num Ic So u js); [|now apply (corner_node (pa_cells p) f)].
    rewrite !Rmult_1_l, <- rsum_plus. apply rsum_ext. intros. ring.
Qed.

Hypothesis Og : (2 <= gauss_points order <= 3)%nat.
Hypothesis Or : (2 <= gauss_points rhs_order <= 3)%nat.
Hypothesis Cw : cellwise (pa_cells p) (pa_global p) diffusion a.
Hypothesis Pa : forall f k, In f (cells (pa_cells p)) -> (k < length ns)%nat -> 0 < a f k.
Hypothesis Ev : forall f, In f (cells (pa_cells p)) -> even_shape (pa_edges p) (a f).
Hypothesis Cn : exists i, (i < pa_n p)%nat /\ pa_con p i = true.
Hypothesis Co : corrected hs num diffusion order rhs_order p cs x.

Lemma corrected_between : forall u lo hi,
  (forall js, node (pa_cells p) js -> pa_con p (pa_num p js) = true -> lo <= restricted hs p (nodal num u) cs js <= hi) ->
  forall f xs, In f (cells (pa_cells p)) -> in_cell (length ns) xs -> lo <= corrected_value hs num p cs x u f xs <= hi.
Proof.
  intros u lo hi B f xs If (Lx & Fx). pose proof So as (Lc & _). pose proof (cells_length _ _ If) as Lf.
  rewrite corrected_total by auto. apply value_between; auto; [lia|]. intros js J.
  apply (total_between ns hs num n diffusion order rhs_order p cs x a); auto. now apply (corner_node (pa_cells p) f).
Qed.

Lemma restricted_between : forall u lo hi, fills hs p -> (forall js, In js (corners cs) -> lo <= u (num js) <= hi) ->
  forall js, node (pa_cells p) js -> lo <= restricted hs p (nodal num u) cs js <= hi.
Proof.
  intros u lo hi Fi B js Nj. pose proof So as (Lc & Le & Ll & Fc & Fe & Nu). pose proof (cells_length _ _ Ic) as Lcs.
  assert (Lj : length js = length ns) by (rewrite <- Lc; unfold node in Nj; clear -Nj; induction Nj; cbn; auto).
  unfold restricted. apply value_between; auto.
  - rewrite place_length; try lia. rewrite at0_length. lia.
  - apply fills_inside; auto; lia.
Qed.
End Cell.
