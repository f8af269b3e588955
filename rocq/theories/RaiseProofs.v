(** Proofs for C138. *)
From Coq Require Import Reals List Arith Bool Lra Lia.
From Verif Require Import Util RSum CoarseModel CoarseSpec CoarseProofs LinModel LinSpec LinProofs.
From Verif Require Import SystemModel SystemSpec SystemProofs EnergySpec EnergyProofs QuadModel QuadSpec QuadProofs.
From Verif Require Import PatchSpec PatchProofs SolveSpec SolveProofs LayerSpec LayerProofs MaxSpec MaxProofs BoundsSpec BoundsProofs.
From Verif Require Import ContrastSpec ContrastProofs RaiseSpec.
Import ListNotations.
Open Scope R_scope.

(** * The rule in one part *)
Definition part_form (K a0 a1 b0 b1 c0 c1 e0 e1 : R) : R :=
  K * (a0 * c0 + (a0 * c1 + a1 * c0) / 2 + a1 * c1 / 3 + b0 * e0 + (b0 * e1 + b1 * e0) / 2 + b1 * e1 / 3).

Lemma rule_two : forall line (F : list R -> R),
  lsum (product_rule line 2) (fun q => snd q * F (fst q)) =
  lsum line (fun p => snd p * lsum line (fun q => snd q * F [fst p; fst q])).
Proof.
  intros line F. cbn [product_rule]. rewrite lsum_flat_map. apply lsum_ext. intros p _. rewrite lsum_map, lsum_flat_map, <- lsum_scale.
  apply lsum_ext. intros q _. cbn. ring.
Qed.

Lemma part_rule : forall line K (D : list R -> nat -> nat -> R) (G H : list R -> nat -> R) a0 a1 b0 b1 c0 c1 e0 e1,
  moments line -> Forall (fun p => 0 < fst p < 1) line ->
  (forall x y i j, 0 < x < 1 -> 0 < y < 1 -> (i < 2)%nat -> (j < 2)%nat -> D [x; y] i j = if Nat.eqb i j then K else 0) ->
  (forall x y, G [x; y] 0%nat = a0 + y * a1 /\ G [x; y] 1%nat = b0 + x * b1 /\ H [x; y] 0%nat = c0 + y * c1 /\ H [x; y] 1%nat = e0 + x * e1) ->
  lsum (product_rule line 2) (fun q => snd q * dot 2 (mv 2 (D (fst q)) (G (fst q))) (H (fst q))) = part_form K a0 a1 b0 b1 c0 c1 e0 e1.
Proof.
  intros line K D G H a0 a1 b0 b1 c0 c1 e0 e1 (M0 & M2 & M1) Fl Dk GH. rewrite (rule_two line (fun xs => dot 2 (mv 2 (D xs) (G xs)) (H xs))).
  rewrite Forall_forall in Fl.
  transitivity (lsum line (fun p => snd p * lsum line (fun q => snd q *
    (K * ((a0 + fst q * a1) * (c0 + fst q * c1) + (b0 + fst p * b1) * (e0 + fst p * e1)))))).
  { apply lsum_ext. intros p Ip. f_equal. apply lsum_ext. intros q Iq. f_equal. unfold dot, mv. cbn [rsum].
    rewrite !Dk by auto. destruct (GH (fst p) (fst q)) as (-> & -> & -> & ->). cbn [Nat.eqb]. ring. }
  transitivity (lsum line (fun p => snd p * (K * (a0 * c0 + (a0 * c1 + a1 * c0) / 2 + a1 * c1 / 3 + (b0 + fst p * b1) * (e0 + fst p * e1))))).
  { apply lsum_ext. intros p _. f_equal. set (Z := (b0 + fst p * b1) * (e0 + fst p * e1)).
    rewrite (lsum_ext _ line _ (fun q => K * (a0 * c0 + Z) * snd q + K * (a0 * c1 + a1 * c0) * (snd q * fst q) + K * (a1 * c1) * (snd q * (fst q * fst q)))) by (intros; ring).
    rewrite !lsum_plus, !lsum_scale, M0, M1, M2. field. }
  set (Z := a0 * c0 + (a0 * c1 + a1 * c0) / 2 + a1 * c1 / 3).
  rewrite (lsum_ext _ line _ (fun q => K * (b0 * e0 + Z) * snd q + K * (b0 * e1 + b1 * e0) * (snd q * fst q) + K * (b1 * e1) * (snd q * (fst q * fst q)))) by (intros; ring).
  rewrite !lsum_plus, !lsum_scale, M0, M1, M2. unfold part_form, Z. field.
Qed.

(** * The four parts *)
Section Four.
Variables h1 h2 g1 g2 : R.
Hypothesis (P1 : 0 < g1) (P2 : 0 < g2) (E1 : h1 = 2 * g1) (E2 : h2 = 2 * g2).
Variables (k : list nat -> R) (D : list nat -> list R -> nat -> nat -> R) (line : list (R * R)).
Hypothesis Mo : moments line.
Hypothesis Fl : Forall (fun p => 0 < fst p < 1) line.
Hypothesis Dk : forall f xs i j, In f (cells [2; 2]%nat) -> length xs = 2%nat -> Forall (fun x => 0 < x < 1) xs ->
  (i < 2)%nat -> (j < 2)%nat -> D f xs i j = times_unit k f i j.
Variables a b : nat.

(** Coefficients of the gradient of [s] times the coarse function [v], at the
    coordinates of the part, plus the function [X] of the local grid. *)
Definition co0 (s : R) (v X : list nat -> R) (i j : nat) : R := s * ((v [S a; b] - v [a; b]) / h1) + (X [S i; j] - X [i; j]) / g1.
Definition co1 (s : R) (v X : list nat -> R) (i j : nat) : R :=
  s * ((v [S a; S b] - v [a; S b] - v [S a; b] + v [a; b]) / h1) + (X [S i; S j] - X [i; S j] - X [S i; j] + X [i; j]) / g1.
Definition co2 (s : R) (v X : list nat -> R) (i j : nat) : R := s * ((v [a; S b] - v [a; b]) / h2) + (X [i; S j] - X [i; j]) / g2.
Definition co3 (s : R) (v X : list nat -> R) (i j : nat) : R :=
  s * ((v [S a; S b] - v [S a; b] - v [a; S b] + v [a; b]) / h2) + (X [S i; S j] - X [S i; j] - X [i; S j] + X [i; j]) / g2.

Definition four (s : R) (v X : list nat -> R) (s' : R) (v' X' : list nat -> R) : R :=
  let part := fun i j => part_form (k [i; j]) (co0 s v X i j) (co1 s v X i j) (co2 s v X i j) (co3 s v X i j)
    (co0 s' v' X' i j) (co1 s' v' X' i j) (co2 s' v' X' i j) (co3 s' v' X' i j) in
  part 0%nat 0%nat + part 0%nat 1%nat + part 1%nat 0%nat + part 1%nat 1%nat.

Definition mix (s : R) (v X : list nat -> R) (f : list nat) (xs : list R) (m : nat) : R :=
  s * grad [h1; h2] v [a; b] xs m + grad [g1; g2] X f xs m.

Lemma four_parts : forall s v X s' v' X',
  bsum [2; 2]%nat line (fun f xs => dot 2 (mv 2 (D f xs) (mix s v X f xs)) (mix s' v' X' f xs)) = four s v X s' v' X'.
Proof.
  intros s v X s' v' X'. unfold bsum. change (length [2; 2]%nat) with 2%nat.
  assert (Z : forall i j, In [i; j] (cells [2; 2]%nat) ->
    lsum (product_rule line 2) (fun q => snd q * dot 2 (mv 2 (D [i; j] (fst q)) (mix s v X [i; j] (fst q))) (mix s' v' X' [i; j] (fst q))) =
    part_form (k [i; j]) (co0 s v X i j) (co1 s v X i j) (co2 s v X i j) (co3 s v X i j)
      (co0 s' v' X' i j) (co1 s' v' X' i j) (co2 s' v' X' i j) (co3 s' v' X' i j)).
  { intros i j I. apply (part_rule line (k [i; j]) (D [i; j]) (mix s v X [i; j]) (mix s' v' X' [i; j])); auto.
    - intros x y i' j' Hx Hy Li Lj. rewrite Dk; auto.
    - intros x y. unfold mix, co0, co1, co2, co3. cbn [grad value]. unfold Rdiv. split; [|split; [|split]]; ring. }
  cbn [cells flat_map map app seq]. cbn [lsum]. rewrite !Z by (cbn; tauto). unfold four. ring.
Qed.
End Four.

(** * One coarse cell *)
Section Cell.
Variables (ns : list nat) (h1 h2 : R) (num : list nat -> nat) (n : nat).
Variable diffusion : list R -> nat -> nat -> R.
Variables order rhs_order o : nat.
Variable p : patch.
Variables a b : nat.
Variable x : nat -> nat -> R.
Variable u : nat -> R.
Variable k : list nat -> R.
Let hs := [h1; h2].
Let cs := [a; b].
Let v := nodal num u.
Hypothesis Lh : length hs = length ns.
Hypothesis Fh : Forall (Rlt 0) hs.
Hypothesis Num : numbering ns num n.
Hypothesis Ic : In cs (cells ns).
Hypothesis No : no_oversampling hs p.
Hypothesis Qu : quartered hs p diffusion k.
Hypothesis Og : (2 <= gauss_points order <= 3)%nat.
Hypothesis Or : (2 <= gauss_points rhs_order <= 3)%nat.
Hypothesis Oo : (2 <= gauss_points o <= 3)%nat.

Lemma edges : exists g1 g2, pa_edges p = [g1; g2] /\ pa_low p = [0; 0] /\ 0 < g1 /\ 0 < g2 /\ h1 = 2 * g1 /\ h2 = 2 * g2.
Proof.
  destruct No as ((Lc & Le & Ll & Fc & Fe & Nu) & Fi & _). destruct Qu as (Qc & _). cbn in Le, Ll.
  destruct (pa_edges p) as [|g1 [|g2 [|? ?]]] eqn:Eg; try discriminate. destruct (pa_low p) as [|l1 [|l2 [|? ?]]] eqn:El; try discriminate.
  destruct (Fi 0%nat ltac:(cbn; lia)) as (F0 & F1). destruct (Fi 1%nat ltac:(cbn; lia)) as (F2 & F3).
  rewrite ?Eg, ?El, Qc in *. cbn in F0, F1, F2, F3. inversion Fe as [|? ? ? Fe']; subst. inversion Fe'; subst.
  exists g1, g2. repeat split; auto; lra.
Qed.

Lemma without_cell : whole 2 o diffusion (fun _ xs => grad hs v cs xs) p (added_part num p cs (fun _ _ => 0) u) =
  all_parts k / 4 * gradient_square hs num u cs.
Proof.
  destruct edges as (g1 & g2 & Eg & El & P1 & P2 & H1 & H2). destruct No as (So & Fi & In_ & Oc). destruct Qu as (Qc & Qd & Qp).
  unfold whole. rewrite Eg, Qc.
  rewrite (bsum_ext _ _ _ (fun f xs => dot 2 (mv 2 (diffusion (pa_global p f xs)) (mix h1 h2 g1 g2 a b 1 v (fun _ => 0) f xs))
     (mix h1 h2 g1 g2 a b 1 v (fun _ => 0) f xs))).
  2:{ intros f xs If Lx. assert (Z : forall m, grad hs v cs xs m + grad [g1; g2] (added_part num p cs (fun _ _ => 0) u) f xs m =
        mix h1 h2 g1 g2 a b 1 v (fun _ => 0) f xs m).
      { intros m. unfold mix. rewrite Rmult_1_l. f_equal. apply grad_ext; [lia|]. intros js _. unfold added_part. apply rsum_0. intros; ring. }
      apply dot_ext; [intros i _; apply mv_ext; intros m _|intros m _]; apply Z. }
  rewrite (four_parts h1 h2 g1 g2 k (fun f xs => diffusion (pa_global p f xs)) _ (gauss_moments _ Oo) (gauss_inside _)) by auto.
  unfold gradient_square. change (length hs) with 2%nat.
  assert (Gs : lsum (cube_rule 2 2) (fun q => snd q * dot 2 (grad hs (fun js => u (num js)) cs (fst q)) (grad hs (fun js => u (num js)) cs (fst q))) =
    part_form 1 ((v [S a; b] - v [a; b]) / h1) ((v [S a; S b] - v [a; S b] - v [S a; b] + v [a; b]) / h1)
      ((v [a; S b] - v [a; b]) / h2) ((v [S a; S b] - v [S a; b] - v [a; S b] + v [a; b]) / h2)
      ((v [S a; b] - v [a; b]) / h1) ((v [S a; S b] - v [a; S b] - v [S a; b] + v [a; b]) / h1)
      ((v [a; S b] - v [a; b]) / h2) ((v [S a; S b] - v [S a; b] - v [a; S b] + v [a; b]) / h2)).
  { rewrite <- (part_rule (line_rule 2) 1 (fun _ i j => if Nat.eqb i j then 1 else 0) (fun xs => grad hs v cs xs) (fun xs => grad hs v cs xs));
      auto using gauss_inside; [| |].
    - unfold cube_rule. change (gauss_points 2) with 2%nat. apply lsum_ext. intros q _. f_equal.
      apply dot_ext; [|reflexivity]. intros m Lm. unfold mv. rewrite (rsum_single 2 m); auto.
      + rewrite Nat.eqb_refl. fold v. unfold v, nodal. ring.
      + intros j _ D. destruct (Nat.eqb_spec m j); [congruence|ring].
    - apply gauss_moments. lia.
    - intros y z. unfold cs, hs. cbn [grad value]. unfold Rdiv. split; [|split; [|split]]; ring. }
  rewrite Gs. unfold four, co0, co1, co2, co3, part_form, all_parts, hs. cbn [volume fold_right]. subst h1 h2. field. lra.
Qed.

(** Energies on the local grid, where all gradients are taken at the right places. *)
Lemma right_cell : forall y r, (forall js, node [2; 2]%nat js -> y (pa_num p js) = restricted hs p v cs js) ->
  corrector 2 (patch_points 2 order diffusion p) (patch_points 2 rhs_order diffusion p) (pa_n p) (pa_con p) (field_of (pa_n p) y) r ->
  let energy := fun w => LinSpec.energy 2 (patch_points 2 order diffusion p) (field_of (pa_n p) w) (field_of (pa_n p) w) in
  let l := linear_load h1 h2 k v a b in let t := twisted_load h1 h2 k v a b in
  energy (fun i => y i + r i) = energy y - (t + l) * (t + l) / middle_energy h1 h2 k.
Proof.
  intros y r Tn Ct energy l tw.
  destruct edges as (g1 & g2 & Eg & El & P1 & P2 & H1 & H2). destruct No as (So & Fi & In_ & Oc). destruct Qu as (Qc & Qd & Qp).
  pose proof So as (Lc & Le & Ll & Fc & Fe & Nu).
  apply corrector_orthogonal in Ct. destruct Ct as (Vr & Eq).
  rewrite Qc in Oc, Nu.
  assert (Nd : forall i j, (i <= 2)%nat -> (j <= 2)%nat -> node [2; 2]%nat [i; j]) by (intros; constructor; [auto|constructor; [auto|constructor]]).
  set (c := r (pa_num p [1; 1]%nat)).
  assert (R0 : forall i j, (i <= 2)%nat -> (j <= 2)%nat -> nodal (pa_num p) r [i; j] = if (Nat.eqb i 1 && Nat.eqb j 1)%bool then c else 0).
  { intros i j Li Lj. unfold nodal. destruct (Nat.eqb i 1 && Nat.eqb j 1) eqn:E.
    - apply andb_prop in E. destruct E as (A & B). apply Nat.eqb_eq in A, B. subst. reflexivity.
    - apply Vr; [now apply Nu, Nd|]. rewrite Oc by now apply Nd. destruct i as [|[|[|i]]], j as [|[|[|j]]]; try lia; try reflexivity; discriminate. }
  set (z := fun m => if Nat.eqb m (pa_num p [1; 1]%nat) then 1 else 0).
  assert (Vz : vanishes (pa_n p) (pa_con p) z).
  { intros i Li Ci. unfold z. destruct (Nat.eqb_spec i (pa_num p [1; 1]%nat)) as [->|]; [|reflexivity].
    rewrite Oc in Ci by (apply Nd; lia). discriminate. }
  assert (Z0 : forall i j, (i <= 2)%nat -> (j <= 2)%nat -> nodal (pa_num p) z [i; j] = if (Nat.eqb i 1 && Nat.eqb j 1)%bool then 1 else 0).
  { intros i j Li Lj. unfold nodal, z. destruct (Nat.eqb i 1 && Nat.eqb j 1) eqn:E.
    - apply andb_prop in E. destruct E as (A & B). apply Nat.eqb_eq in A, B. subst. now rewrite Nat.eqb_refl.
    - destruct (Nat.eqb_spec (pa_num p [i; j]) (pa_num p [1; 1]%nat)) as [N|]; [|reflexivity].
      apply Nu in N; try (apply Nd; lia). injection N as -> ->. discriminate. }
  assert (T0 : forall i j, (i <= 2)%nat -> (j <= 2)%nat -> nodal (pa_num p) y [i; j] =
    (1 - INR i / 2) * ((1 - INR j / 2) * v [a; b] + INR j / 2 * v [a; S b]) + INR i / 2 * ((1 - INR j / 2) * v [S a; b] + INR j / 2 * v [S a; S b])).
  { intros i j Li Lj. unfold nodal at 1. rewrite Tn by now apply Nd. unfold restricted. rewrite El, Eg.
    unfold hs, cs. cbn [map place value]. subst h1 h2. field. lra. }
  pose proof (Eq z Vz) as Q. rewrite !patch_energy in Q by exact So. rewrite Eg, Qc in Q.
  assert (Fp : forall oo X Y, (2 <= gauss_points oo <= 3)%nat ->
    bsum [2; 2]%nat (line_rule (gauss_points oo)) (fun f xs => dot 2 (mv 2 (diffusion (pa_global p f xs)) (grad [g1; g2] X f xs)) (grad [g1; g2] Y f xs)) =
    four h1 h2 g1 g2 k a b 0 v X 0 v Y).
  { intros oo X Y' Ho. rewrite <- (four_parts h1 h2 g1 g2 k (fun f xs => diffusion (pa_global p f xs)) _ (gauss_moments _ Ho) (gauss_inside _)) by auto.
    apply bsum_ext. intros f xs _ _. apply dot_ext; [intros i _; apply mv_ext; intros m _|intros m _]; unfold mix; ring. }
  rewrite !Fp in Q by auto.
  unfold energy. rewrite !patch_energy by exact So. rewrite Eg, Qc, !Fp by auto. clear Fp.
  set (D := middle_energy h1 h2 k).
  assert (S0 : forall js, nodal (pa_num p) (fun i => y i + r i) js = nodal (pa_num p) y js + nodal (pa_num p) r js) by reflexivity.
  assert (A1 : volume [g1; g2] * four h1 h2 g1 g2 k a b 0 v (nodal (pa_num p) r) 0 v (nodal (pa_num p) z) = c * D).
  { unfold four, co0, co1, co2, co3. rewrite !R0, !Z0 by lia. cbn [Nat.eqb andb].
    unfold part_form, D, middle_energy, all_parts. cbn [volume fold_right]. subst h1 h2. field. lra. }
  assert (A2 : volume [g1; g2] * four h1 h2 g1 g2 k a b 0 v (nodal (pa_num p) y) 0 v (nodal (pa_num p) z) = l + tw).
  { unfold four, co0, co1, co2, co3. rewrite !T0, !Z0 by lia. cbn [Nat.eqb andb INR].
    unfold part_form, l, tw, linear_load, twisted_load, side1, side2, twist, lower_upper1, lower_upper2, across. cbn [volume fold_right].
    subst h1 h2. field. lra. }
  assert (A3 : volume [g1; g2] * four h1 h2 g1 g2 k a b 0 v (nodal (pa_num p) (fun i => y i + r i)) 0 v (nodal (pa_num p) (fun i => y i + r i)) =
    volume [g1; g2] * four h1 h2 g1 g2 k a b 0 v (nodal (pa_num p) y) 0 v (nodal (pa_num p) y) + 2 * c * (l + tw) + c * (c * D)).
  { unfold four, co0, co1, co2, co3. rewrite !S0, !R0, !T0 by lia. cbn [Nat.eqb andb INR].
    unfold part_form, l, tw, linear_load, twisted_load, side1, side2, twist, lower_upper1, lower_upper2, across, D, middle_energy, all_parts.
    cbn [volume fold_right]. subst h1 h2. field. lra. }
  assert (Pd : 0 < D).
  { unfold D, middle_energy, all_parts. pose proof (Qp [0; 0]%nat ltac:(cbn; tauto)). pose proof (Qp [0; 1]%nat ltac:(cbn; tauto)).
    pose proof (Qp [1; 0]%nat ltac:(cbn; tauto)). pose proof (Qp [1; 1]%nat ltac:(cbn; tauto)).
    assert (0 < h2 / h1) by (apply Rdiv_lt_0_compat; lra). assert (0 < h1 / h2) by (apply Rdiv_lt_0_compat; lra).
    apply Rdiv_lt_0_compat; [|lra]. apply Rmult_lt_0_compat; lra. }
  rewrite A1, A2 in Q. rewrite A3.
  assert (Ec : c = - (l + tw) / D) by (field_simplify_eq; lra). rewrite Ec. field. lra.
Qed.

Hypothesis Co : corrected hs num diffusion order rhs_order p cs x.

Lemma with_cell : whole 2 o diffusion (fun _ xs => grad hs v cs xs) p (added_part num p cs x u) =
  whole 2 o diffusion (fun _ xs => grad hs v cs xs) p (added_part num p cs (fun _ _ => 0) u) + raised h1 h2 k v cs.
Proof.
  destruct edges as (g1 & g2 & Eg & El & P1 & P2 & H1 & H2). destruct No as (So & Fi & In_ & Oc). destruct Qu as (Qc & Qd & Qp).
  pose proof So as (Lc & Le & Ll & Fc & Fe & Nu).
  destruct (choose (length (corners cs)) (fun i y => (forall js, node (pa_cells p) js ->
      y (pa_num p js) = restricted hs p (one_at num (num (nth i (corners cs) []))) cs js) /\
      corrector 2 (patch_points 2 order diffusion p) (patch_points 2 rhs_order diffusion p)
        (pa_n p) (pa_con p) (field_of (pa_n p) y) (x i))) as (y & Y).
  { intros i Li. apply (Co i Li). }
  set (w := fun i => u (num (nth i (corners cs) []))).
  set (t := fun m => rsum (length (corners cs)) (fun i => w i * y i m)).
  set (r := fun m => rsum (length (corners cs)) (fun i => w i * x i m)).
  assert (Ct : corrector 2 (patch_points 2 order diffusion p) (patch_points 2 rhs_order diffusion p) (pa_n p) (pa_con p)
    (field_of (pa_n p) t) r).
  { apply corrector_field with (f := fun q k => rsum (length (corners cs)) (fun i => w i * field_of (pa_n p) (y i) q k)).
    - intros q m _ _. unfold field_of, t. rewrite (rsum_ext (pa_n p) (fun j => _ * q_grad q j m)
        (fun j => rsum (length (corners cs)) (fun i => w i * (y i j * q_grad q j m)))).
      + rewrite rsum_swap. apply rsum_ext. intros i _. now rewrite rsum_scale.
      + intros j _. rewrite <- rsum_scale_r. apply rsum_ext. intros. ring.
    - apply corrector_sum. intros i Li. apply (Y i Li). }
  assert (Tn : forall js, node (pa_cells p) js -> t (pa_num p js) = restricted hs p v cs js).
  { intros js Nj. unfold v. rewrite <- (restricted_total ns hs num n p cs Lh Num Ic ltac:(now rewrite <- Lh) u js Nj). unfold t.
    apply rsum_ext. intros i Li. now rewrite (proj1 (Y i Li)). }
  apply corrector_orthogonal in Ct. destruct Ct as (Vr & Eq).
  rewrite Qc in Tn, Oc, Nu.
  assert (Nd : forall i j, (i <= 2)%nat -> (j <= 2)%nat -> node [2; 2]%nat [i; j]) by (intros; constructor; [auto|constructor; [auto|constructor]]).
  set (c := r (pa_num p [1; 1]%nat)).
  assert (R0 : forall i j, (i <= 2)%nat -> (j <= 2)%nat -> nodal (pa_num p) r [i; j] = if (Nat.eqb i 1 && Nat.eqb j 1)%bool then c else 0).
  { intros i j Li Lj. unfold nodal. destruct (Nat.eqb i 1 && Nat.eqb j 1) eqn:E.
    - apply andb_prop in E. destruct E as (A & B). apply Nat.eqb_eq in A, B. subst. reflexivity.
    - apply Vr; [now apply Nu, Nd|]. rewrite Oc by now apply Nd. destruct i as [|[|[|i]]], j as [|[|[|j]]]; try lia; try reflexivity; discriminate. }
  set (z := fun m => if Nat.eqb m (pa_num p [1; 1]%nat) then 1 else 0).
  assert (Vz : vanishes (pa_n p) (pa_con p) z).
  { intros i Li Ci. unfold z. destruct (Nat.eqb_spec i (pa_num p [1; 1]%nat)) as [->|]; [|reflexivity].
    rewrite Oc in Ci by (apply Nd; lia). discriminate. }
  assert (Z0 : forall i j, (i <= 2)%nat -> (j <= 2)%nat -> nodal (pa_num p) z [i; j] = if (Nat.eqb i 1 && Nat.eqb j 1)%bool then 1 else 0).
  { intros i j Li Lj. unfold nodal, z. destruct (Nat.eqb i 1 && Nat.eqb j 1) eqn:E.
    - apply andb_prop in E. destruct E as (A & B). apply Nat.eqb_eq in A, B. subst. now rewrite Nat.eqb_refl.
    - destruct (Nat.eqb_spec (pa_num p [i; j]) (pa_num p [1; 1]%nat)) as [N|]; [|reflexivity].
      apply Nu in N; try (apply Nd; lia). injection N as -> ->. discriminate. }
  assert (T0 : forall i j, (i <= 2)%nat -> (j <= 2)%nat -> nodal (pa_num p) t [i; j] =
    (1 - INR i / 2) * ((1 - INR j / 2) * v [a; b] + INR j / 2 * v [a; S b]) + INR i / 2 * ((1 - INR j / 2) * v [S a; b] + INR j / 2 * v [S a; S b])).
  { intros i j Li Lj. unfold nodal at 1. rewrite Tn by now apply Nd. unfold restricted. rewrite El, Eg. cbn [map place value hs cs].
    unfold hs, cs. cbn [place value]. subst h1 h2. field. lra. }
  pose proof (Eq z Vz) as Q. rewrite !patch_energy in Q by exact So. rewrite Eg, Qc in Q.
  assert (Fp : forall oo X Y, (2 <= gauss_points oo <= 3)%nat ->
    bsum [2; 2]%nat (line_rule (gauss_points oo)) (fun f xs => dot 2 (mv 2 (diffusion (pa_global p f xs)) (grad [g1; g2] X f xs)) (grad [g1; g2] Y f xs)) =
    four h1 h2 g1 g2 k a b 0 v X 0 v Y).
  { intros oo X Y' Ho. rewrite <- (four_parts h1 h2 g1 g2 k (fun f xs => diffusion (pa_global p f xs)) _ (gauss_moments _ Ho) (gauss_inside _)) by auto.
    apply bsum_ext. intros f xs _ _. apply dot_ext; [intros i _; apply mv_ext; intros m _|intros m _]; unfold mix; ring. }
  rewrite !Fp in Q by auto.
  unfold whole. rewrite Eg, Qc.
  assert (Wf : forall X s, (forall js, s js = added_part num p cs X u js) ->
    bsum [2; 2]%nat (line_rule (gauss_points o)) (fun f xs => dot 2 (mv 2 (diffusion (pa_global p f xs))
      (fun m => grad hs v cs xs m + grad [g1; g2] (added_part num p cs X u) f xs m)) (fun m => grad hs v cs xs m + grad [g1; g2] (added_part num p cs X u) f xs m)) =
    four h1 h2 g1 g2 k a b 1 v s 1 v s).
  { intros X s Es. rewrite <- (four_parts h1 h2 g1 g2 k (fun f xs => diffusion (pa_global p f xs)) _ (gauss_moments _ Oo) (gauss_inside _)) by auto.
    apply bsum_ext. intros f xs _ Lx.
    assert (Z : forall m, grad hs v cs xs m + grad [g1; g2] (added_part num p cs X u) f xs m = mix h1 h2 g1 g2 a b 1 v s f xs m).
    { intros m. unfold mix. rewrite Rmult_1_l. f_equal. apply grad_ext; [lia|]. intros js _. now rewrite Es. }
    apply dot_ext; [intros i _; apply mv_ext; intros m _|intros m _]; apply Z. }
  rewrite (Wf x (nodal (pa_num p) r)) by reflexivity.
  rewrite (Wf (fun _ _ => 0) (fun _ => 0)) by (intros js; unfold added_part; symmetry; apply rsum_0; intros; ring).
  clear Wf Fp.
  set (l := linear_load h1 h2 k v a b). set (tw := twisted_load h1 h2 k v a b). set (D := middle_energy h1 h2 k).
  assert (A1 : volume [g1; g2] * four h1 h2 g1 g2 k a b 0 v (nodal (pa_num p) r) 0 v (nodal (pa_num p) z) = c * D).
  { unfold four, co0, co1, co2, co3. rewrite !R0, !Z0 by lia. cbn [Nat.eqb andb].
    unfold part_form, D, middle_energy, all_parts. cbn [volume fold_right]. subst h1 h2. field. lra. }
  assert (A2 : volume [g1; g2] * four h1 h2 g1 g2 k a b 0 v (nodal (pa_num p) t) 0 v (nodal (pa_num p) z) = l + tw).
  { unfold four, co0, co1, co2, co3. rewrite !T0, !Z0 by lia. cbn [Nat.eqb andb INR].
    unfold part_form, l, tw, linear_load, twisted_load, side1, side2, twist, lower_upper1, lower_upper2, across. cbn [volume fold_right].
    subst h1 h2. field. lra. }
  assert (A3 : volume [g1; g2] * four h1 h2 g1 g2 k a b 1 v (nodal (pa_num p) r) 1 v (nodal (pa_num p) r) =
    volume [g1; g2] * four h1 h2 g1 g2 k a b 1 v (fun _ => 0) 1 v (fun _ => 0) + 2 * c * (l - tw) + c * (c * D)).
  { unfold four, co0, co1, co2, co3. rewrite !R0 by lia. cbn [Nat.eqb andb].
    unfold part_form, l, tw, linear_load, twisted_load, side1, side2, twist, lower_upper1, lower_upper2, across, D, middle_energy, all_parts.
    cbn [volume fold_right]. subst h1 h2. field. lra. }
  assert (Pd : 0 < D).
  { unfold D, middle_energy, all_parts. pose proof (Qp [0; 0]%nat ltac:(cbn; tauto)). pose proof (Qp [0; 1]%nat ltac:(cbn; tauto)).
    pose proof (Qp [1; 0]%nat ltac:(cbn; tauto)). pose proof (Qp [1; 1]%nat ltac:(cbn; tauto)).
    assert (0 < h2 / h1) by (apply Rdiv_lt_0_compat; lra). assert (0 < h1 / h2) by (apply Rdiv_lt_0_compat; lra).
    apply Rdiv_lt_0_compat; [|lra]. apply Rmult_lt_0_compat; lra. }
  rewrite A1, A2 in Q. rewrite A3. unfold raised, cs. fold l tw D.
  assert (Ec : c = - (l + tw) / D) by (field_simplify_eq; lra). rewrite Ec. field. lra.
Qed.
End Cell.
