(** Proofs for C127. *)
From Coq Require Import Reals List Arith Bool Lra Lia.
From Verif Require Import Util RSum LinModel LinSpec LinProofs QuadModel CoarseModel CoarseSpec SystemModel SystemSpec SystemProofs SystemProps.
From Verif Require Import FemModel FemSpec FemProps PatchSpec PatchProofs SolveSpec SolveProofs LayerSpec LayerProofs MaxSpec MaxProofs BoundsSpec BoundsProofs QuadProofs LineSpec.
Import ListNotations.
Open Scope R_scope.

(** * Sums *)
Lemma rsum_first : forall n F, rsum (S n) F = F 0%nat + rsum n (fun i => F (S i)).
Proof.
  induction n as [|n IH]; intros F; [cbn [rsum]; ring|].
  change (rsum (S (S n)) F) with (rsum (S n) F + F (S n)). rewrite IH.
  change (rsum (S n) (fun i => F (S i))) with (rsum n (fun i => F (S i)) + F (S n)). ring.
Qed.
Lemma rsum_tele : forall n F, rsum n (fun i => F (S i) - F i) = F n - F 0%nat.
Proof. induction n as [|n IH]; intros F; cbn [rsum]; [ring|]. rewrite IH. ring. Qed.
Lemma rsum_add : forall n k F, rsum (n + k) F = rsum n F + rsum k (fun i => F (n + i)%nat).
Proof.
  intros n k F. induction k as [|k IH]; [rewrite Nat.add_0_r; cbn [rsum]; ring|].
  rewrite Nat.add_succ_r. cbn [rsum]. rewrite IH. ring.
Qed.
Lemma rsum_blocks : forall n m F, rsum (n * m) F = rsum n (fun c => rsum m (fun f => F (c * m + f)%nat)).
Proof.
  induction n as [|n IH]; intros m F; [reflexivity|].
  cbn [Nat.mul]. rewrite (Nat.add_comm m), rsum_add, IH. reflexivity.
Qed.
Lemma lsum_cells : forall n F, lsum (cells [n]) F = rsum n (fun c => F [c]).
Proof.
  intros n F. cbn [cells]. rewrite lsum_flat_map. cbn [map].
  assert (H : forall s k, lsum (seq s k) (fun a => lsum [[a]] F) = rsum k (fun c => F [(s + c)%nat])).
  { intros s k. revert s. induction k as [|k IH]; intros s; [reflexivity|].
    rewrite rsum_first. cbn [seq lsum]. rewrite IH, Nat.add_0_r. rewrite Rplus_0_r. f_equal.
    apply rsum_ext. intros i _. do 2 f_equal. lia. }
  exact (H 0%nat n).
Qed.
Lemma in_line : forall n cs, In cs (cells [n]) <-> exists c, (c < n)%nat /\ cs = [c].
Proof.
  intros n cs. cbn [cells]. rewrite in_flat_map. split.
  - intros (c & I & J). apply in_seq in I. cbn in J. destruct J as [<-|[]]. exists c. split; [lia|reflexivity].
  - intros (c & L & ->). exists c. split; [apply in_seq; lia|now left].
Qed.
Lemma node_line : forall n js, node [n] js <-> exists c, (c <= n)%nat /\ js = [c].
Proof.
  intros n js. split.
  - intros N. inversion N as [|a ? js1 ? La N1]; subst. inversion N1; subst. eauto.
  - intros (c & L & ->). constructor; [exact L|constructor].
Qed.
Lemma rule_one : forall line q, In q (product_rule line 1) -> exists x, fst q = [x].
Proof.
  intros line q I. pose proof (rule_length _ _ _ I) as L. destruct (fst q) as [|x [|y r]]; try discriminate. eauto.
Qed.

(** * A sequence of fluxes *)
(** Products with all sequences that vanish at both ends: constant. *)
Lemma flux_constant : forall m F, (forall z : nat -> R, z 0%nat = 0 -> z m = 0 -> rsum m (fun f => F f * (z (S f) - z f)) = 0) ->
  forall f, (f < m)%nat -> F f = F 0%nat.
Proof.
  intros m F H. induction f as [|f IH]; intros L; [reflexivity|]. rewrite <- IH by lia.
  specialize (H (fun i => if Nat.eqb i (S f) then 1 else 0)). cbv beta in H.
  assert (A : (if Nat.eqb 0 (S f) then 1 else 0) = 0) by reflexivity.
  assert (B : (if Nat.eqb m (S f) then 1 else 0) = 0) by (destruct (Nat.eqb_spec m (S f)); [lia|reflexivity]).
  specialize (H A B).
  rewrite (rsum_ext _ _ (fun i => F i * (if Nat.eqb i f then 1 else 0) - F i * (if Nat.eqb i (S f) then 1 else 0))) in H.
  2:{ intros i _. change (Nat.eqb (S i) (S f)) with (Nat.eqb i f). ring. }
  rewrite rsum_minus, (rsum_single m f), (rsum_single m (S f)) in H; try lia.
  - rewrite !Nat.eqb_refl in H. lra.
  - intros j _ N. destruct (Nat.eqb_spec j (S f)); [lia|ring].
  - intros j _ N. destruct (Nat.eqb_spec j f); [lia|ring].
Qed.

Lemma rsum_inverse_pos : forall m a, (0 < m)%nat -> (forall f, (f < m)%nat -> 0 < a f) -> 0 < rsum m (fun f => / a f).
Proof.
  intros m a L P. destruct m as [|m]; [lia|]. cbn [rsum].
  assert (0 <= rsum m (fun f => / a f)).
  { apply rsum_nonneg. intros i Li. apply Rlt_le, Rinv_0_lt_compat, P. lia. }
  pose proof (Rinv_0_lt_compat _ (P m ltac:(lia))). lra.
Qed.

(** Differences [D] with constant flux: product with any other sequence. *)
Lemma flux_product : forall m (a D : nat -> R) (jump : R) (w : nat -> R), (0 < m)%nat ->
  (forall f, (f < m)%nat -> 0 < a f) ->
  (forall z : nat -> R, z 0%nat = 0 -> z m = 0 -> rsum m (fun f => a f * D f * (z (S f) - z f)) = 0) ->
  rsum m D = jump ->
  rsum m (fun f => a f * D f * (w (S f) - w f)) = jump / rsum m (fun f => / a f) * (w m - w 0%nat).
Proof.
  intros m a D jump w Lm P O J.
  pose proof (flux_constant m (fun f => a f * D f) O) as C. cbv beta in C.
  pose proof (rsum_inverse_pos m a Lm P) as S.
  assert (K : a 0%nat * D 0%nat = jump / rsum m (fun f => / a f)).
  { rewrite <- J. rewrite (rsum_ext m D (fun f => a 0%nat * D 0%nat * / a f)).
    - rewrite rsum_scale. field. lra.
    - intros f Lf. rewrite <- (C f Lf). pose proof (P f Lf). field. lra. }
  rewrite <- K. rewrite <- rsum_tele, <- rsum_scale. apply rsum_ext. intros f Lf. now rewrite (C f Lf).
Qed.

(** * One coarse cell *)
Lemma spread : forall m num n (z : nat -> R), numbering [m] num n ->
  exists y, forall f, (f <= m)%nat -> y (num [f]) = z f.
Proof.
  intros m num n z (_ & I & _).
  exists (fun i => rsum (S m) (fun f => (if Nat.eqb (num [f]) i then 1 else 0) * z f)). intros f L.
  rewrite (rsum_single (S m) f); [rewrite Nat.eqb_refl; ring|lia|].
  intros j Lj N. destruct (Nat.eqb_spec (num [j]) (num [f])) as [E|_]; [|ring].
  exfalso. apply N. assert (X : [j] = [f]); [|congruence].
  apply I; auto; apply node_line; eexists; (split; [|reflexivity]); lia.
Qed.

Lemma divided_sound : forall m h global c p, (0 < m)%nat -> 0 < h -> divided m h global c p -> sound 1 p.
Proof.
  intros m h global c p Lm Lh (C & E & L & N & _). unfold sound. rewrite C, E, L. cbn [length].
  repeat split; auto; try (apply N); repeat constructor; auto.
Qed.

Lemma one_at_ends : forall n N num c, (c < n)%nat -> numbering [n] num N -> one_at num (num [c]) [c] = 1 /\ one_at num (num [c]) [S c] = 0 /\
  one_at num (num [S c]) [c] = 0 /\ one_at num (num [S c]) [S c] = 1.
Proof.
  intros n N num c Lc Num. destruct Num as (_ & I & _).
  assert (D : num [c] <> num [S c]).
  { intros E. apply I in E; [injection E as E; lia| |]; apply node_line; eexists; (split; [|reflexivity]); lia. }
  unfold one_at. rewrite !Nat.eqb_refl. destruct (Nat.eqb_spec (num [S c]) (num [c])); [congruence|].
  destruct (Nat.eqb_spec (num [c]) (num [S c])); [congruence|]. auto.
Qed.

Section Cell.
Variables (n m N : nat) (H : R) (num : list nat -> nat).
Variable diffusion : list R -> nat -> nat -> R.
Variables order rhs_order : nat.
Variable global : list nat -> list R -> list R.
Variable a : nat -> R.
Variable c : nat.
Variable p : patch.
Variable x : nat -> nat -> R.
Let h := H / INR m.
Hypothesis Lm : (0 < m)%nat.
Hypothesis LH : 0 < H.
Hypothesis Lc : (c < n)%nat.
Hypothesis Num : numbering [n] num N.
Hypothesis Dv : divided m h global c p.
Hypothesis Mo : forall f, (f < m)%nat -> mean diffusion global (cube_rule 1 order) (c * m + f) = a (c * m + f)%nat.
Hypothesis Mr : forall f, (f < m)%nat -> mean diffusion global (cube_rule 1 rhs_order) (c * m + f) = a (c * m + f)%nat.
Hypothesis Pa : forall f, (f < m)%nat -> 0 < a (c * m + f)%nat.
Hypothesis Co : corrected [H] num diffusion order rhs_order p [c] x.

Lemma m_pos : 0 < INR m. Proof. apply lt_0_INR. exact Lm. Qed.
Lemma h_pos : 0 < h. Proof. unfold h. apply Rdiv_lt_0_compat; auto using m_pos. Qed.

Lemma line_energy : forall o y z, (forall f, (f < m)%nat -> mean diffusion global (cube_rule 1 o) (c * m + f) = a (c * m + f)%nat) ->
  LinSpec.energy 1 (patch_points 1 o diffusion p) (field_of (pa_n p) y) (field_of (pa_n p) z) =
  rsum m (fun f => a (c * m + f)%nat * (y (pa_num p [S f]) - y (pa_num p [f])) * (z (pa_num p [S f]) - z (pa_num p [f])) / h).
Proof.
  intros o y z M. rewrite patch_energy by (apply (divided_sound m h global c p); auto using h_pos).
  destruct Dv as (C & E & L & Nu & _ & _ & G). rewrite C, E. unfold bsum. rewrite lsum_cells, <- rsum_scale.
  apply rsum_ext. intros f Lf. rewrite <- (M f Lf). unfold mean, cube_rule. cbn [length].
  set (dy := y (pa_num p [S f]) - y (pa_num p [f])). set (dz := z (pa_num p [S f]) - z (pa_num p [f])).
  rewrite (lsum_ext _ _ _ (fun q => dy / h * (dz / h) * (snd q * diffusion (global [(c * m + f)%nat] (fst q)) 0%nat 0%nat))).
  - rewrite lsum_scale. unfold volume. cbn [fold_right]. pose proof h_pos. unfold cube_rule. field. lra.
  - intros q I. destruct (rule_one _ _ I) as (t & T). rewrite T. unfold dot, mv. cbn [rsum grad value nodal].
    rewrite G by exact Lf. unfold nodal. fold dy. fold dz. ring.
Qed.

Definition added (v : nat -> R) (f : nat) : R :=
  v (num [c]) * x 0%nat (pa_num p [f]) + v (num [S c]) * x 1%nat (pa_num p [f]).
Definition jump (v : nat -> R) : R := v (num [S c]) - v (num [c]).
(** Difference of the corrected coarse function over a local cell. *)
Definition step (v : nat -> R) (f : nat) : R := jump v / INR m + (added v (S f) - added v f).

Lemma x_vanishes : forall i, (i < 2)%nat -> x i (pa_num p [0%nat]) = 0 /\ x i (pa_num p [m]) = 0.
Proof.
  intros i Li. destruct (Co i Li) as (y & _ & C). apply corrector_orthogonal in C. destruct C as (V & _).
  destruct Dv as (_ & _ & _ & Nu & Oc & _). split; apply V.
  - apply Nu. apply node_line. exists 0%nat. split; [lia|reflexivity].
  - rewrite Oc; [reflexivity|]. apply node_line. exists 0%nat. split; [lia|reflexivity].
  - apply Nu. apply node_line. exists m. split; [lia|reflexivity].
  - rewrite Oc; [cbn [outer_node]; rewrite Nat.eqb_refl; now rewrite orb_true_r|]. apply node_line. exists m. split; [lia|reflexivity].
Qed.
Lemma added_ends : forall v, added v 0 = 0 /\ added v m = 0.
Proof.
  intros v. unfold added. destruct (x_vanishes 0 ltac:(lia)) as (A & B). destruct (x_vanishes 1 ltac:(lia)) as (A' & B').
  rewrite A, B, A', B'. split; ring.
Qed.
Lemma step_sum : forall v, rsum m (step v) = jump v.
Proof.
  intros v. unfold step. rewrite rsum_plus, (rsum_tele m (added v)). destruct (added_ends v) as (-> & ->).
  assert (X : forall k, rsum k (fun _ => jump v / INR m) = INR k * (jump v / INR m)).
  { induction k as [|k IH]; [cbn; ring|]. rewrite S_INR. cbn [rsum]. rewrite IH. ring. }
  rewrite X. pose proof m_pos. field. lra.
Qed.


Lemma step_orthogonal : forall v (z : nat -> R), z 0%nat = 0 -> z m = 0 ->
  rsum m (fun f => a (c * m + f)%nat * step v f * (z (S f) - z f)) = 0.
Proof.
  intros v z Z0 Zm. destruct Dv as (C & E & L & Nu & Oc & In_ & G).
  destruct (spread m (pa_num p) (pa_n p) z Nu) as (zz & Zz).
  assert (Vz : vanishes (pa_n p) (pa_con p) zz).
  { intros i Li Ci. destruct Nu as (_ & _ & Su). destruct (Su i Li) as (js & Nj & Ej). pose proof Nj as Nj0. apply node_line in Nj. destruct Nj as (f & Lf & ->).
    rewrite <- Ej in Ci |- *. rewrite Oc in Ci by exact Nj0. rewrite Zz by exact Lf. cbn [outer_node] in Ci.
    destruct (Nat.eqb_spec f 0) as [Ef|_]; [now rewrite Ef|]. destruct (Nat.eqb_spec f m) as [Ef|_]; [now rewrite Ef|]. discriminate. }
  assert (Hc : forall i, (i < 2)%nat -> rsum m (fun f => a (c * m + f)%nat *
     ((one_at num (num (nth i (corners [c]) [])) [S c] - one_at num (num (nth i (corners [c]) [])) [c]) / INR m +
      (x i (pa_num p [S f]) - x i (pa_num p [f]))) * (z (S f) - z f)) = 0).
  { intros i Li. destruct (Co i Li) as (y & Y & Cr). cbn [length] in Cr. apply corrector_orthogonal in Cr. destruct Cr as (_ & O).
    specialize (O zz Vz). rewrite (line_energy order) in O by exact Mo. rewrite (line_energy rhs_order) in O by exact Mr.
    rewrite <- rsum_plus in O.
    assert (O' : / h * rsum m (fun f => a (c * m + f)%nat *
     ((one_at num (num (nth i (corners [c]) [])) [S c] - one_at num (num (nth i (corners [c]) [])) [c]) / INR m +
      (x i (pa_num p [S f]) - x i (pa_num p [f]))) * (z (S f) - z f)) = 0).
    { rewrite <- rsum_scale, <- O. apply rsum_ext. intros f Lf.
      assert (R1 : forall k, (k <= m)%nat -> y (pa_num p [k]) =
        one_at num (num (nth i (corners [c]) [])) [c] +
        INR k / INR m * (one_at num (num (nth i (corners [c]) [])) [S c] - one_at num (num (nth i (corners [c]) [])) [c])).
      { intros k Lk. rewrite Y by (rewrite C; apply node_line; eauto).
        unfold restricted. rewrite L, E. cbn [map place value]. unfold h. pose proof m_pos. field. split; lra. }
      rewrite !R1 by lia. rewrite !Zz by lia. rewrite S_INR. pose proof m_pos. pose proof h_pos. field. lra. }
    apply Rmult_integral in O'. destruct O' as [O'|O']; [|exact O']. pose proof (Rinv_0_lt_compat _ h_pos). lra. }
  pose proof (Hc 0%nat ltac:(lia)) as H0. pose proof (Hc 1%nat ltac:(lia)) as H1.
  cbn [corners map app nth] in H0, H1. destruct (one_at_ends n N num c Lc Num) as (E1 & E2 & E3 & E4). rewrite E1, E2 in H0. rewrite E3, E4 in H1.
  match type of H0 with ?X = 0 => match type of H1 with ?Y = 0 => transitivity (v (num [c]) * X + v (num [S c]) * Y) end end;
    [|rewrite H0, H1; ring].
  rewrite <- !rsum_scale, <- rsum_plus. apply rsum_ext. intros f _. unfold step, jump, added. pose proof m_pos. field. lra.
Qed.

(** Product in energy of a corrected coarse function and any sequence. *)
Lemma step_product : forall v (w : nat -> R),
  rsum m (fun f => a (c * m + f)%nat * step v f * (w (S f) - w f) / h) = harmonic m a c / H * jump v * (w m - w 0%nat).
Proof.
  intros v w.
  rewrite (rsum_ext _ _ (fun f => / h * (a (c * m + f)%nat * step v f * (w (S f) - w f)))) by (intros; unfold Rdiv; ring).
  rewrite rsum_scale.
  rewrite (flux_product m (fun f => a (c * m + f)%nat) (step v) (jump v) w Lm Pa (step_orthogonal v) (step_sum v)).
  unfold harmonic. pose proof (rsum_inverse_pos m (fun f => a (c * m + f)%nat) Lm Pa). pose proof m_pos. unfold h. field.
  repeat split; try lra.
Qed.
End Cell.

(** * The whole interval *)
Section Line.
Variables (n m N Nf : nat) (H : R) (num numf : list nat -> nat).
Variable diffusion : list R -> nat -> nat -> R.
Variables source neumann : list R -> R.
Variable global : list nat -> list R -> list R.
Variable a : nat -> R.
Variables order rhs_order o fo : nat.
Variable pa : list nat -> patch.
Variable x : list nat -> nat -> nat -> R.
Variables rq rqf : nat -> list (list R * R).
Variables (nl nr : bool) (left right : list R).
Let h := H / INR m.

Definition line_grid : list (coarse_cell (list R) * list (cface (list R))) :=
  patched [n] [H] num pa (line_rule (gauss_points o)) (fun cs f => rq (nth 0 cs 0%nat * m + nth 0 f 0%nat)%nat) x
    (end_faces n nl nr left right).
Definition line_fines : list (fcell (list R) * list (cface (list R))) :=
  fine_boxes [(n * m)%nat] [h] numf global (cube_rule 1 fo) (fun g => rqf (nth 0 g 0%nat)) (end_faces (n * m) nl nr left right).

Hypothesis Ln : (0 < n)%nat.
Hypothesis Lm : (0 < m)%nat.
Hypothesis LH : 0 < H.
Hypothesis Num : numbering [n] num N.
Hypothesis Numf : numbering [(n * m)%nat] numf Nf.
Hypothesis Dv : forall c, (c < n)%nat -> divided m h global c (pa [c]).
Hypothesis Me : forall g, (g < n * m)%nat -> 0 < a g /\
  forall rule, In rule [cube_rule 1 order; cube_rule 1 rhs_order; cube_rule 1 o; rq g; cube_rule 1 fo] -> mean diffusion global rule g = a g.
Hypothesis Co : forall c, (c < n)%nat -> corrected [H] num diffusion order rhs_order (pa [c]) [c] (x [c]).
Hypothesis Bo : forall c i, (c < n)%nat -> (i = 2 \/ i = 3)%nat -> x [c] i (pa_num (pa [c]) [0%nat]) = 0 /\ x [c] i (pa_num (pa [c]) [m]) = 0.
Hypothesis Rq : forall g q, In q (rq g) \/ In q (rqf g) -> length (fst q) = 1%nat.
Hypothesis Ag : forall g b0 b1, (g < n * m)%nat ->
  lsum (rq g) (fun q => snd q * source (global [g] (fst q)) * (b0 + b1 * nth 0 (fst q) 0)) =
  lsum (rqf g) (fun q => snd q * source (global [g] (fst q)) * (b0 + b1 * nth 0 (fst q) 0)).

Lemma block_lt : forall c f, (c < n)%nat -> (f < m)%nat -> (c * m + f < n * m)%nat.
Proof. intros c f Hc Hf. assert (S c * m <= n * m)%nat by (apply Nat.mul_le_mono_r; lia). cbn [Nat.mul] in *. lia. Qed.

Notation jmp c := (jump num c%nat).
Notation stp c := (step m num c%nat (pa [c%nat]) (x [c%nat])).
Notation add c := (added num c%nat (pa [c%nat]) (x [c%nat])).
Definition profile (v : nat -> R) (c f : nat) : R := v (num [c]) + INR f / INR m * jmp c v + add c v f.

Lemma hp : 0 < h. Proof. unfold h. apply Rdiv_lt_0_compat; auto. apply lt_0_INR. exact Lm. Qed.
Lemma mp : 0 < INR m. Proof. apply lt_0_INR. exact Lm. Qed.

Lemma cell_product : forall c v w, (c < n)%nat ->
  rsum m (fun f => a (c * m + f)%nat * stp c v f * (w (S f) - w f) / h) = harmonic m a c / H * jmp c v * (w m - w 0%nat).
Proof.
  intros c v w Lc. apply (step_product n m N H num diffusion order rhs_order global a c (pa [c]) (x [c])); auto.
  - intros f Lf. apply Me; [now apply block_lt|cbn; auto].
  - intros f Lf. apply Me; [now apply block_lt|cbn; auto].
  - intros f Lf. apply Me. now apply block_lt.
Qed.
Lemma ends : forall c v, (c < n)%nat -> add c v 0 = 0 /\ add c v m = 0.
Proof. intros c v Lc. eapply added_ends; eauto. Qed.
Lemma profile_step : forall v c f, profile v c (S f) - profile v c f = stp c v f.
Proof. intros v c f. unfold profile, step. rewrite S_INR. pose proof mp. field. lra. Qed.
Lemma profile_first : forall v c, (c < n)%nat -> profile v c 0 = v (num [c]).
Proof. intros v c Lc. unfold profile. rewrite (proj1 (ends c v Lc)). cbn [INR]. pose proof mp. field. lra. Qed.
Lemma profile_last : forall v c, (c < n)%nat -> profile v c m = v (num [S c]).
Proof. intros v c Lc. unfold profile. rewrite (proj2 (ends c v Lc)). unfold jump. pose proof mp. field. lra. Qed.

(** The fine function of a corrected coarse function. *)
Lemma fine_function : forall v, exists V, forall c f, (c < n)%nat -> (f <= m)%nat -> V (numf [(c * m + f)%nat]) = profile v c f.
Proof.
  intros v.
  destruct (spread (n * m) numf Nf (fun k => if Nat.ltb k (n * m) then profile v (k / m) (k mod m) else v (num [n])) Numf) as (V & E).
  exists V.
  assert (Z : forall c f, (c < n)%nat -> (f < m)%nat -> V (numf [(c * m + f)%nat]) = profile v c f).
  { intros c f Lc Lf. pose proof (block_lt c f Lc Lf). rewrite E by lia.
    destruct (Nat.ltb_spec (c * m + f) (n * m)); [|lia].
    rewrite Nat.add_comm, Nat.div_add, Nat.mod_add by lia. rewrite Nat.div_small, Nat.mod_small by exact Lf. reflexivity. }
  intros c f Lc Lf. destruct (Nat.eq_dec f m) as [->|]; [|apply Z; lia].
  rewrite profile_last by exact Lc. destruct (Nat.eq_dec (S c) n) as [<-|].
  - rewrite E by (cbn; lia). replace (c * m + m)%nat with (S c * m)%nat by (cbn; lia). now rewrite Nat.ltb_irrefl.
  - replace (c * m + m)%nat with (S c * m + 0)%nat by (cbn; lia). rewrite Z by lia. apply profile_first. lia.
Qed.

(** ** Sums over the coarse grid *)
Definition the_element (c f : nat) : local_cell (list R) :=
  {| lc_covered := pa_inside (pa [c]) [f]; lc_global := pa_global (pa [c]) [f]; lc_factor := fun _ => volume (pa_edges (pa [c]));
     lc_grad := fun i xs => grad (pa_edges (pa [c])) (fun js => x [c] i (pa_num (pa [c]) js)) [f] xs;
     lc_val := fun i xs => value (fun js => x [c] i (pa_num (pa [c]) js)) [f] xs;
     lc_quad := product_rule (line_rule (gauss_points o)) (length (pa_cells (pa [c])));
     lc_rquad := rq (c * m + f)%nat |}.
Definition the_cell (c : nat) : coarse_cell (list R) :=
  box_cell [H] num [c] (patch_elements (pa [c]) (line_rule (gauss_points o)) (fun f => rq (c * m + nth 0 f 0%nat)%nat) (x [c])).

Lemma grid_sum : forall (F : coarse_cell (list R) -> local_cell (list R) -> R) (B : coarse_cell (list R) -> list (cface (list R)) -> R),
  lsum line_grid (fun cf => lsum (covered (list R) (fst cf)) (F (fst cf)) + B (fst cf) (snd cf)) =
  rsum n (fun c => rsum m (fun f => F (the_cell c) (the_element c f)) + B (the_cell c) (end_faces n nl nr left right [c])).
Proof.
  intros F B. unfold line_grid, patched. rewrite lsum_map, lsum_cells. apply rsum_ext. intros c Lc. cbn [fst snd nth].
  fold (the_cell c). f_equal. unfold covered. destruct (Dv c Lc) as (C & _ & _ & _ & _ & I & _).
  assert (E : cc_locals (list R) (the_cell c) = map (fun cs => the_element c (nth 0 cs 0%nat)) (cells [m])).
  { unfold the_cell, box_cell, patch_elements. cbn [cc_locals]. rewrite C at 1. apply map_ext_in. intros cs J.
    apply in_line in J. destruct J as (f & _ & ->). reflexivity. }
  rewrite E, lsum_filter, lsum_map, lsum_cells. apply rsum_ext. intros f _. cbn [the_element lc_covered nth]. now rewrite I.
Qed.

Lemma grad_on_element : forall c f t v, (c < n)%nat -> (f < m)%nat ->
  test_grad (list R) v (the_cell c) (the_element c f) [t] 0 = stp c v f / h.
Proof.
  intros c f t v Lc Lf. destruct (Dv c Lc) as (C & E & L & Nu & Oc & I & G).
  destruct (one_at_ends n N num c Lc Num) as (E1 & E2 & E3 & E4).
  unfold test_grad, the_cell, box_cell, used_grad. cbn [cc_n cc_index cc_grad corners map app length rsum nth].
  unfold the_element. cbn [lc_grad]. rewrite E. cbn [grad value]. rewrite E1, E2, E3, E4.
  unfold step, added, jump, h. pose proof mp. field. split; lra.
Qed.
Lemma boundary_on_element : forall c f t, (c < n)%nat -> (f < m)%nat ->
  boundary_grad (list R) (the_cell c) (the_element c f) [t] 0 =
  ((x [c] 3%nat (pa_num (pa [c]) [S f]) - x [c] 2%nat (pa_num (pa [c]) [S f])) -
   (x [c] 3%nat (pa_num (pa [c]) [f]) - x [c] 2%nat (pa_num (pa [c]) [f]))) / h.
Proof.
  intros c f t Lc Lf. destruct (Dv c Lc) as (C & E & _).
  unfold boundary_grad, the_cell, box_cell. cbn [cc_n corners map app length]. unfold the_element. cbn [lc_grad].
  rewrite E. cbn [Nat.add grad value]. unfold Rdiv. ring.
Qed.
Lemma value_on_element : forall c f t v, (c < n)%nat -> (f < m)%nat ->
  test_val (list R) v (the_cell c) (the_element c f) [t] =
  v (num [c]) + t * jmp c v + ((1 - t) * add c v f + t * add c v (S f)).
Proof.
  intros c f t v Lc Lf. destruct (one_at_ends n N num c Lc Num) as (E1 & E2 & E3 & E4).
  unfold test_val, the_cell, box_cell, used_val. cbn [cc_n cc_index cc_val corners map app length rsum nth].
  unfold the_element. cbn [lc_val value]. rewrite E1, E2, E3, E4. unfold added, jump. ring.
Qed.
Lemma coarse_value : forall c t v, (c < n)%nat -> test_coarse (list R) v (the_cell c) [t] = (1 - t) * v (num [c]) + t * v (num [S c]).
Proof.
  intros c t v Lc. destruct (one_at_ends n N num c Lc Num) as (E1 & E2 & E3 & E4).
  unfold test_coarse, the_cell, box_cell. cbn [cc_n cc_index cc_val corners map app length rsum nth value].
  rewrite E1, E2, E3, E4. ring.
Qed.

Lemma element_energy : forall c f u v, (c < n)%nat -> (f < m)%nat ->
  ms_energy 1 (list R) diffusion u (the_cell c) (the_element c f) (test_grad (list R) v (the_cell c) (the_element c f)) =
  a (c * m + f)%nat * stp c v f * (profile u c (S f) - profile u c f) / h +
  a (c * m + f)%nat * stp c v f *
   ((x [c] 3%nat (pa_num (pa [c]) [S f]) - x [c] 2%nat (pa_num (pa [c]) [S f])) -
    (x [c] 3%nat (pa_num (pa [c]) [f]) - x [c] 2%nat (pa_num (pa [c]) [f]))) / h.
Proof.
  intros c f u v Lc Lf. destruct (Dv c Lc) as (C & E & L & Nu & Oc & I & G).
  destruct (Me (c * m + f)%nat (block_lt c f Lc Lf)) as (_ & M).
  unfold ms_energy. rewrite profile_step. pose proof hp as hp_. f_equal.
  - rewrite <- (M (cube_rule 1 o)) by (cbn; auto). unfold mean, energy. cbn [the_element lc_quad lc_factor lc_global].
    rewrite C, E. cbn [length]. unfold cube_rule.
    rewrite (lsum_ext _ _ _ (fun q => stp c u f * stp c v f / h * (snd q * diffusion (global [(c * m + f)%nat] (fst q)) 0%nat 0%nat))).
    + rewrite lsum_scale. field. lra.
    + intros q J. destruct (rule_one _ _ J) as (t & T). rewrite T. unfold dot, mv. cbn [rsum].
      rewrite !grad_on_element by auto. rewrite G by auto. unfold volume. cbn [fold_right]. field. lra.
  - rewrite <- (M (rq (c * m + f)%nat)) by (cbn; auto). unfold mean, rhs_energy. cbn [the_element lc_rquad lc_factor lc_global].
    rewrite E.
    rewrite (lsum_ext _ _ _ (fun q => ((x [c] 3%nat (pa_num (pa [c]) [S f]) - x [c] 2%nat (pa_num (pa [c]) [S f])) -
    (x [c] 3%nat (pa_num (pa [c]) [f]) - x [c] 2%nat (pa_num (pa [c]) [f]))) * stp c v f / h * (snd q * diffusion (global [(c * m + f)%nat] (fst q)) 0%nat 0%nat))).
    + rewrite lsum_scale. field. lra.
    + intros q J. pose proof (Rq _ q (or_introl J)) as Lq. destruct (fst q) as [|t [|t' r]]; try discriminate.
      unfold dot, mv. cbn [rsum]. rewrite grad_on_element, boundary_on_element by auto. rewrite G by auto. unfold volume. cbn [fold_right]. field. lra.
Qed.

Lemma coarse_energy : forall u v,
  lsum line_grid (fun cf => lsum (covered (list R) (fst cf)) (fun l =>
     ms_energy 1 (list R) diffusion u (fst cf) l (test_grad (list R) v (fst cf) l))) =
  rsum n (fun c => harmonic m a c / H * jmp c v * jmp c u).
Proof.
  intros u v.
  transitivity (lsum line_grid (fun cf => lsum (covered (list R) (fst cf)) (fun l =>
     ms_energy 1 (list R) diffusion u (fst cf) l (test_grad (list R) v (fst cf) l)) + (fun _ _ => 0) (fst cf) (snd cf))).
  { apply lsum_ext. intros. cbv beta. ring. }
  etransitivity; [exact (grid_sum (fun c l => ms_energy 1 (list R) diffusion u c l (test_grad (list R) v c l)) (fun _ _ => 0))|].
  apply rsum_ext. intros c Lc. rewrite Rplus_0_r.
  rewrite (rsum_ext m _ _ (fun f Lf => element_energy c f u v Lc Lf)). rewrite rsum_plus.
  rewrite (cell_product c v (profile u c) Lc), (cell_product c v (fun f => x [c] 3%nat (pa_num (pa [c]) [f]) - x [c] 2%nat (pa_num (pa [c]) [f])) Lc).
  destruct (Bo c 2%nat Lc) as (A2 & B2); auto. destruct (Bo c 3%nat Lc) as (A3 & B3); auto.
  rewrite A2, A3, B2, B3, profile_first, profile_last by auto. unfold jump. ring.
Qed.

(** ** Loads *)
Lemma end_loads : forall k (phi : nat -> list R -> R), (0 < k)%nat ->
  rsum k (fun c => boundary_load (list R) neumann (end_faces k nl nr left right [c]) (phi c)) =
  (if nl then neumann left * phi 0%nat [0] else 0) + (if nr then neumann right * phi (k - 1)%nat [1] else 0).
Proof.
  intros k phi Lk.
  rewrite (rsum_ext k _ (fun c => (if Nat.eqb c 0 then (if nl then neumann left * phi c [0] else 0) else 0) +
    (if Nat.eqb (S c) k then (if nr then neumann right * phi c [1] else 0) else 0))).
  - rewrite rsum_plus. rewrite (rsum_single k 0%nat), (rsum_single k (k - 1)%nat); try lia.
    + rewrite Nat.eqb_refl. replace (S (k - 1)) with k by lia. now rewrite Nat.eqb_refl.
    + intros j _ Nj. destruct (Nat.eqb_spec (S j) k); [lia|reflexivity].
    + intros j _ Nj. destruct (Nat.eqb_spec j 0); [lia|reflexivity].
  - intros c _. unfold boundary_load, end_faces. cbn [nth]. rewrite filter_app, lsum_app. f_equal.
    + destruct (Nat.eqb c 0); [|reflexivity]. destruct nl; cbn; ring.
    + destruct (Nat.eqb (S c) k); [|reflexivity]. destruct nr; cbn; ring.
Qed.

Definition flux_load (v0 vn : R) : R := (if nl then neumann left * v0 else 0) + (if nr then neumann right * vn else 0).

Lemma coarse_load : forall v,
  lsum line_grid (fun cf => lsum (covered (list R) (fst cf)) (fun l => load (list R) source l (test_val (list R) v (fst cf) l))
       + boundary_load (list R) neumann (snd cf) (test_coarse (list R) v (fst cf))) =
  rsum n (fun c => rsum m (fun f => h * lsum (rq (c * m + f)%nat) (fun q => snd q * source (global [(c * m + f)%nat] (fst q)) *
    (profile v c f + nth 0 (fst q) 0 * (profile v c (S f) - profile v c f)))) + h * jmp c v * misplaced source global rq m c) +
  flux_load (v (num [0%nat])) (v (num [n])).
Proof.
  intros v.
  etransitivity; [exact (grid_sum (fun c l => load (list R) source l (test_val (list R) v c l))
    (fun c fs => boundary_load (list R) neumann fs (test_coarse (list R) v c)))|].
  rewrite rsum_plus. f_equal.
  - apply rsum_ext. intros c Lc. unfold misplaced. rewrite <- rsum_scale, <- rsum_plus. apply rsum_ext. intros f Lf.
    destruct (Dv c Lc) as (C & E & L & Nu & Oc & I & G).
    unfold load. cbn [the_element lc_rquad lc_factor lc_global]. rewrite E. unfold volume. cbn [fold_right].
    rewrite <- !lsum_scale, <- lsum_plus. apply lsum_ext. intros q J. pose proof (Rq _ q (or_introl J)) as Lq.
    rewrite G by exact Lf. destruct (fst q) as [|t [|t' r]]; try discriminate. rewrite value_on_element by auto. cbn [nth].
    rewrite profile_step. unfold profile, step. pose proof mp. field. lra.
  - etransitivity; [exact (end_loads n (fun c => test_coarse (list R) v (the_cell c)) Ln)|].
    cbv beta. rewrite !coarse_value by lia. unfold flux_load. replace (S (n - 1)) with n by lia. f_equal; [destruct nl|destruct nr]; ring.
Qed.

(** ** The fine grid *)
Lemma fines_sum : forall (F : fcell (list R) -> R) (B : fcell (list R) -> list (cface (list R)) -> R),
  lsum line_fines (fun cf => F (fst cf) + B (fst cf) (snd cf)) =
  rsum n (fun c => rsum m (fun f => F (fem_cell (box_cell [h] numf [(c * m + f)%nat] []) (global [(c * m + f)%nat]) (volume [h]) (cube_rule 1 fo) (rqf (c * m + f)%nat)))) +
  rsum (n * m) (fun g => B (fem_cell (box_cell [h] numf [g] []) (global [g]) (volume [h]) (cube_rule 1 fo) (rqf g)) (end_faces (n * m) nl nr left right [g])).
Proof.
  intros F B. unfold line_fines, fine_boxes. rewrite lsum_map, lsum_cells, rsum_plus. f_equal.
  cbn [fst nth]. apply (rsum_blocks n m (fun g => F (fem_cell (box_cell [h] numf [g] []) (global [g]) (volume [h]) (cube_rule 1 fo) (rqf g)))).
Qed.
Notation fc g := (fem_cell (box_cell [h] numf [g%nat] []) (global [g%nat]) (volume [h]) (cube_rule 1 fo) (rqf g%nat)).
Lemma fine_grad_on : forall g t V, (g < n * m)%nat -> fine_grad (list R) V (fc g) [t] 0 = (V (numf [S g]) - V (numf [g])) / h.
Proof.
  intros g t V Lg. destruct (one_at_ends (n * m) Nf numf g Lg Numf) as (E1 & E2 & E3 & E4).
  unfold fine_grad, fem_cell, box_cell. cbn [fc_n fc_index fc_grad cc_n cc_index cc_grad corners map app length rsum nth grad value].
  rewrite E1, E2, E3, E4. pose proof hp. field. lra.
Qed.
Lemma fine_val_on : forall g t V, (g < n * m)%nat -> fine_val (list R) V (fc g) [t] = V (numf [g]) + t * (V (numf [S g]) - V (numf [g])).
Proof.
  intros g t V Lg. destruct (one_at_ends (n * m) Nf numf g Lg Numf) as (E1 & E2 & E3 & E4).
  unfold fine_val, fem_cell, box_cell. cbn [fc_n fc_index fc_val cc_n cc_index cc_val corners map app length rsum nth value].
  rewrite E1, E2, E3, E4. ring.
Qed.
Lemma fine_energy_on : forall g U V, (g < n * m)%nat ->
  fine_energy 1 (list R) diffusion (fc g) (fine_grad (list R) U (fc g)) (fine_grad (list R) V (fc g)) =
  a g * (V (numf [S g]) - V (numf [g])) * (U (numf [S g]) - U (numf [g])) / h.
Proof.
  intros g U V Lg. destruct (Me g Lg) as (_ & M). rewrite <- (M (cube_rule 1 fo)) by (cbn; tauto).
  unfold fine_energy, mean. cbn [fem_cell fc_quad fc_factor fc_global]. unfold volume. cbn [fold_right].
  rewrite (lsum_ext _ _ _ (fun q => (V (numf [S g]) - V (numf [g])) * (U (numf [S g]) - U (numf [g])) / h *
    (snd q * diffusion (global [g] (fst q)) 0%nat 0%nat))).
  - rewrite lsum_scale. pose proof hp. field. lra.
  - intros q J. destruct (rule_one _ _ J) as (t & T). rewrite T. unfold dot, mv. cbn [rsum].
    rewrite !fine_grad_on by auto. pose proof hp. field. lra.
Qed.

Lemma fine_product : forall u v V, (forall c f, (c < n)%nat -> (f <= m)%nat -> V (numf [(c * m + f)%nat]) = profile v c f) ->
  lsum line_fines (fun cf => fine_energy 1 (list R) diffusion (fst cf) (fine_grad (list R) u (fst cf)) (fine_grad (list R) V (fst cf))) =
  rsum n (fun c => harmonic m a c / H * jmp c v * (u (numf [(S c * m)%nat]) - u (numf [(c * m)%nat]))).
Proof.
  intros u v V HV.
  transitivity (lsum line_fines (fun cf => fine_energy 1 (list R) diffusion (fst cf) (fine_grad (list R) u (fst cf)) (fine_grad (list R) V (fst cf)) +
    (fun _ _ => 0) (fst cf) (snd cf))).
  { apply lsum_ext. intros. cbv beta. ring. }
  etransitivity; [exact (fines_sum (fun c => fine_energy 1 (list R) diffusion c (fine_grad (list R) u c) (fine_grad (list R) V c)) (fun _ _ => 0))|].
  rewrite rsum_zero, Rplus_0_r. apply rsum_ext. intros c Lc.
  rewrite (rsum_ext m _ (fun f => a (c * m + f)%nat * stp c v f * (u (numf [(c * m + S f)%nat]) - u (numf [(c * m + f)%nat])) / h)).
  - rewrite (cell_product c v (fun f => u (numf [(c * m + f)%nat])) Lc). rewrite Nat.add_0_r.
    replace (S c * m)%nat with (c * m + m)%nat by (cbn; lia). reflexivity.
  - intros f Lf. rewrite fine_energy_on by now apply block_lt. rewrite <- profile_step, <- !HV by lia.
    now rewrite <- Nat.add_succ_r.
Qed.

Lemma fine_load_sum : forall v V, (forall c f, (c < n)%nat -> (f <= m)%nat -> V (numf [(c * m + f)%nat]) = profile v c f) ->
  lsum line_fines (fun cf => fine_load (list R) source (fst cf) (fine_val (list R) V (fst cf)) + boundary_load (list R) neumann (snd cf) (fine_val (list R) V (fst cf))) =
  rsum n (fun c => rsum m (fun f => h * lsum (rq (c * m + f)%nat) (fun q => snd q * source (global [(c * m + f)%nat] (fst q)) *
    (profile v c f + nth 0 (fst q) 0 * (profile v c (S f) - profile v c f))))) + flux_load (v (num [0%nat])) (v (num [n])).
Proof.
  intros v V HV.
  etransitivity; [exact (fines_sum (fun c => fine_load (list R) source c (fine_val (list R) V c))
    (fun c fs => boundary_load (list R) neumann fs (fine_val (list R) V c)))|].
  f_equal.
  - apply rsum_ext. intros c Lc. apply rsum_ext. intros f Lf. pose proof (block_lt c f Lc Lf) as Lg.
    rewrite (lsum_ext _ _ _ (fun q => snd q * source (global [(c * m + f)%nat] (fst q)) * (profile v c f + (profile v c (S f) - profile v c f) * nth 0 (fst q) 0))) by (intros; ring).
    rewrite (Ag _ _ _ Lg). unfold fine_load. cbn [fem_cell fc_rquad fc_factor fc_global]. unfold volume. cbn [fold_right].
    rewrite <- lsum_scale. apply lsum_ext. intros q J. pose proof (Rq _ q (or_intror J)) as Lq.
    destruct (fst q) as [|t [|t' r]]; try discriminate. rewrite fine_val_on by auto. cbn [nth].
    rewrite <- Nat.add_succ_r. rewrite !HV by lia. ring.
  - assert (Lnm : (0 < n * m)%nat) by (apply Nat.mul_pos_pos; lia).
    etransitivity; [exact (end_loads (n * m) (fun g => fine_val (list R) V (fc g)) Lnm)|].
    cbv beta. rewrite !fine_val_on by lia. unfold flux_load. replace (S (n * m - 1)) with (n * m)%nat by lia.
    pose proof (HV 0%nat 0%nat Ln ltac:(lia)) as V0. cbn [Nat.mul Nat.add] in V0. rewrite profile_first in V0 by lia.
    pose proof (HV (n - 1)%nat m ltac:(lia) ltac:(lia)) as Vn. replace ((n - 1) * m + m)%nat with (n * m)%nat in Vn by (destruct n; [lia|cbn [Nat.mul Nat.sub]; rewrite Nat.sub_0_r; lia]).
    rewrite profile_last in Vn by lia. replace (S (n - 1)) with n in Vn by lia. rewrite V0, Vn.
    f_equal; [destruct nl|destruct nr]; ring.
Qed.

(** ** The difference of the two solutions at the coarse nodes *)
Variables (con conf : nat -> bool) (bd bdf start u uh : nat -> R).
Hypothesis Oe : only_ends n num con.
Hypothesis Oef : only_ends (n * m) numf conf.
Hypothesis Cl : con (num [0%nat]) = conf (numf [0%nat]).
Hypothesis Cr : con (num [n]) = conf (numf [(n * m)%nat]).
Hypothesis Bl : con (num [0%nat]) = true -> bd (num [0%nat]) = bdf (numf [0%nat]).
Hypothesis Br : con (num [n]) = true -> bd (num [n]) = bdf (numf [(n * m)%nat]).
Hypothesis Su : coarse_solution 1 (list R) diffusion source neumann N con bd line_grid u.
Hypothesis Sf : fem_solution 1 (list R) diffusion source neumann Nf conf bdf start line_fines uh.

Definition gap (c : nat) : R := u (num [c]) - uh (numf [(c * m)%nat]).
Definition residual (c : nat) : R := harmonic m a c / H * (gap (S c) - gap c) - h * misplaced source global rq m c.

Lemma coarse_bounds : (forall c fs i, In (c, fs) line_grid -> (i < cc_n (list R) c)%nat -> (cc_index (list R) c i < N)%nat) /\
  forall c fs, In (c, fs) line_grid -> (cc_slots (list R) c = cc_n (list R) c + 2)%nat.
Proof.
  split; intros c fs; [intros i J|intros J]; unfold line_grid, patched in J; apply in_map_iff in J; destruct J as (cs & E & J); injection E as <- _;
    apply in_line in J; destruct J as (k & Lk & ->); cbn; [intros Li|reflexivity].
  apply Num. apply node_line. destruct i as [|[|]]; [exists k|exists (S k)|lia]; (split; [lia|reflexivity]).
Qed.
Lemma fine_bounds : forall c fs i, In (c, fs) line_fines -> (i < fc_n (list R) c)%nat -> (fc_index (list R) c i < Nf)%nat.
Proof.
  intros c fs i J. unfold line_fines, fine_boxes in J. apply in_map_iff in J. destruct J as (cs & E & J). injection E as <- _.
  apply in_line in J. destruct J as (k & Lk & ->). cbn. intros Li.
  apply Numf. apply node_line. destruct i as [|[|]]; [exists k|exists (S k)|lia]; (split; [lia|reflexivity]).
Qed.

Lemma last_fine : ((n - 1) * m + m = n * m)%nat.
Proof. destruct n as [|k]; [lia|]. cbn [Nat.sub Nat.mul]. rewrite Nat.sub_0_r. lia. Qed.

Lemma balance : forall z, (con (num [0%nat]) = true -> z 0%nat = 0) -> (con (num [n]) = true -> z n = 0) ->
  rsum n (fun c => residual c * (z (S c) - z c)) = 0.
Proof.
  intros z Z0 Zn. destruct (spread n num N z Num) as (v & Ev).
  destruct coarse_bounds as (B1 & B2).
  apply (proj1 (C90_multiscale_solution_balances _ _ _ _ _ _ _ _ _ _ B1 B2)) in Su. destruct Su as (_ & W).
  apply (proj1 (C93_reference_solution_balances _ _ _ _ _ _ _ _ _ _ _ fine_bounds)) in Sf. destruct Sf as (_ & Wf).
  destruct (fine_function v) as (V & HV).
  assert (Zv : forall i, (i < N)%nat -> con i = true -> v i = 0).
  { intros i Li Ci. destruct (proj2 (proj2 Num) i Li) as (js & Nj & <-). apply node_line in Nj. destruct Nj as (c & Lc & ->).
    rewrite Ev by lia. destruct (Nat.eq_dec c 0) as [->|]; [now apply Z0|]. destruct (Nat.eq_dec c n) as [->|]; [now apply Zn|].
    rewrite Oe in Ci by lia. discriminate. }
  assert (ZV : forall i, (i < Nf)%nat -> conf i = true -> V i = 0).
  { intros i Li Ci. destruct (proj2 (proj2 Numf) i Li) as (js & Nj & <-). apply node_line in Nj. destruct Nj as (g & Lg & ->).
    destruct (Nat.eq_dec g 0) as [->|].
    - pose proof (HV 0%nat 0%nat Ln ltac:(lia)) as E. cbn [Nat.mul Nat.add] in E. rewrite E, profile_first, Ev by lia.
      apply Z0. now rewrite Cl.
    - destruct (Nat.eq_dec g (n * m)) as [->|]; [|rewrite Oef in Ci by lia; discriminate].
      pose proof (HV (n - 1)%nat m ltac:(lia) ltac:(lia)) as E. rewrite last_fine in E. rewrite E, profile_last by lia.
      replace (S (n - 1)) with n by lia. rewrite Ev by lia. apply Zn. now rewrite Cr. }
  specialize (W v Zv). specialize (Wf V ZV).
  rewrite coarse_energy, coarse_load in W. rewrite (fine_product uh v V HV), (fine_load_sum v V HV) in Wf.
  rewrite rsum_plus in W.
  rewrite (rsum_ext n _ (fun c => harmonic m a c / H * jmp c v * jmp c u + (-1) * (harmonic m a c / H * jmp c v * (uh (numf [(S c * m)%nat]) - uh (numf [(c * m)%nat])))
    + (-1) * (h * jmp c v * misplaced source global rq m c))).
  - rewrite !rsum_plus, !rsum_scale, W, Wf. ring.
  - intros c Lc. unfold residual, gap, jump. rewrite !Ev by lia. ring.
Qed.

Lemma residual_next : forall c, (S c < n)%nat -> residual (S c) = residual c.
Proof.
  intros c Lc. pose proof (balance (fun k => if Nat.eqb k (S c) then 1 else 0)) as E.
  assert (X : rsum n (fun k => residual k * ((if Nat.eqb (S k) (S c) then 1 else 0) - (if Nat.eqb k (S c) then 1 else 0))) = 0).
  { apply E; intros _; [destruct (Nat.eqb_spec 0 (S c)); [lia|reflexivity]|destruct (Nat.eqb_spec n (S c)); [lia|reflexivity]]. }
  rewrite (rsum_ext n _ (fun k => (if Nat.eqb k c then 1 else 0) * residual k + (if Nat.eqb k (S c) then -1 else 0) * residual k)) in X.
  - rewrite rsum_plus in X. rewrite (rsum_single n c), (rsum_single n (S c)) in X; try lia.
    + rewrite !Nat.eqb_refl in X. lra.
    + intros j _ Nj. destruct (Nat.eqb_spec j (S c)); [lia|ring].
    + intros j _ Nj. destruct (Nat.eqb_spec j c); [lia|ring].
  - intros k _. destruct (Nat.eqb_spec (S k) (S c)), (Nat.eqb_spec k (S c)), (Nat.eqb_spec k c); try lia; ring.
Qed.
Lemma residual_same : forall c, (c < n)%nat -> residual c = residual 0%nat.
Proof. induction c as [|c IH]; intros Lc; [reflexivity|]. rewrite residual_next by exact Lc. apply IH. lia. Qed.
Lemma residual_free : con (num [0%nat]) = false \/ con (num [n]) = false -> residual 0%nat = 0.
Proof.
  intros [F|F].
  - assert (X : rsum n (fun k => residual k * ((if Nat.eqb (S k) 0 then 1 else 0) - (if Nat.eqb k 0 then 1 else 0))) = 0).
    { apply (balance (fun k => if Nat.eqb k 0 then 1 else 0)); [congruence|]. intros _. destruct (Nat.eqb_spec n 0); [lia|reflexivity]. }
    rewrite (rsum_single n 0%nat) in X; [cbn in X; lra|lia|]. intros j _ Nj. destruct (Nat.eqb_spec j 0); [lia|]. cbn. ring.
  - assert (X : rsum n (fun k => residual k * ((if Nat.eqb (S k) n then 1 else 0) - (if Nat.eqb k n then 1 else 0))) = 0).
    { apply (balance (fun k => if Nat.eqb k n then 1 else 0)); [|congruence]. intros _. destruct (Nat.eqb_spec 0 n); [lia|reflexivity]. }
    rewrite (rsum_single n (n - 1)%nat) in X; try lia.
    + replace (S (n - 1)) with n in X by lia. rewrite Nat.eqb_refl in X. destruct (Nat.eqb_spec (n - 1) n); [lia|].
      rewrite <- (residual_same (n - 1)) by lia. lra.
    + intros j Lj Nj. destruct (Nat.eqb_spec (S j) n), (Nat.eqb_spec j n); try lia; ring.
Qed.

Lemma harmonic_pos : forall c, (c < n)%nat -> 0 < harmonic m a c.
Proof.
  intros c Lc. unfold harmonic. apply Rdiv_lt_0_compat; [apply mp|]. apply rsum_inverse_pos; auto.
  intros f Lf. apply Me. now apply block_lt.
Qed.

Theorem difference : exists C,
  (forall c, (c < n)%nat -> harmonic m a c / H * (gap (S c) - gap c) = h * misplaced source global rq m c - C) /\
  (con (num [0%nat]) = false \/ con (num [n]) = false -> C = 0) /\
  (con (num [0%nat]) = true -> gap 0 = 0) /\ (con (num [n]) = true -> gap n = 0).
Proof.
  exists (- residual 0%nat). split; [|split; [|split]].
  - intros c Lc. rewrite <- (residual_same c Lc). unfold residual. ring.
  - intros F. rewrite residual_free by exact F. ring.
  - intros F. destruct coarse_bounds as (B1 & B2).
    apply (proj1 (C90_multiscale_solution_balances _ _ _ _ _ _ _ _ _ _ B1 B2)) in Su. destruct Su as (W & _).
    apply (proj1 (C93_reference_solution_balances _ _ _ _ _ _ _ _ _ _ _ fine_bounds)) in Sf. destruct Sf as (Wf & _).
    unfold gap. cbn [Nat.mul]. rewrite W, Wf, Bl; auto; [ring|apply Numf|now rewrite <- Cl|apply Num]; apply node_line; eexists; (split; [|reflexivity]); lia.
  - intros F. destruct coarse_bounds as (B1 & B2).
    apply (proj1 (C90_multiscale_solution_balances _ _ _ _ _ _ _ _ _ _ B1 B2)) in Su. destruct Su as (W & _).
    apply (proj1 (C93_reference_solution_balances _ _ _ _ _ _ _ _ _ _ _ fine_bounds)) in Sf. destruct Sf as (Wf & _).
    unfold gap. rewrite W, Wf, Br; auto; [ring|apply Numf|now rewrite <- Cr|apply Num]; apply node_line; eexists; (split; [|reflexivity]); lia.
Qed.
End Line.

(** * Conclusions *)
Lemma line_difference : forall I start u uh, sound_interval I -> coarse_result I u -> fine_result I start uh -> exists C,
  (forall c, (c < iv_n I)%nat -> kappa I c / iv_H I * (difference_at I u uh (S c) - difference_at I u uh c) = iv_h I * mis I c - C) /\
  (~ left_constrained I \/ ~ right_constrained I -> C = 0) /\
  (left_constrained I -> difference_at I u uh 0 = 0) /\ (right_constrained I -> difference_at I u uh (iv_n I) = 0).
Proof.
  intros I start u uh (Ln & Lm & LH & Num & Numf & Dv & Me & Co & Bo & Rq & Ag & Oe & Oef & Cl & Cr & Bl & Br) Su Sf.
  destruct (difference (iv_n I) (iv_m I) (iv_N I) (iv_Nf I) (iv_H I) (iv_num I) (iv_numf I) (iv_diffusion I) (iv_source I) (iv_neumann I)
    (iv_global I) (iv_a I) (iv_order I) (iv_rhs_order I) (iv_o I) (iv_fo I) (iv_pa I) (iv_x I) (iv_rq I) (iv_rqf I)
    (iv_nl I) (iv_nr I) (iv_left I) (iv_right I) Ln Lm LH Num Numf Dv Me Co Bo Rq Ag (iv_con I) (iv_conf I) (iv_g I) (iv_gf I) start u uh
    Oe Oef Cl Cr Bl Br Su Sf) as (C & A & F & L & R).
  exists C. split; [exact A|]. split; [|split; [exact L|exact R]].
  intros [X|X]; apply F; [left|right]; now apply not_true_is_false.
Qed.

Lemma kappa_pos : forall I c, sound_interval I -> (c < iv_n I)%nat -> 0 < kappa I c.
Proof.
  intros I c (Ln & Lm & LH & Num & Numf & Dv & Me & _) Lc. unfold kappa, harmonic. apply Rdiv_lt_0_compat; [now apply lt_0_INR|].
  apply rsum_inverse_pos; auto. intros f Lf. apply Me. now apply block_lt.
Qed.

Lemma iv_h_pos : forall I, sound_interval I -> 0 < iv_h I.
Proof. intros I (Ln & Lm & LH & _). unfold iv_h. apply Rdiv_lt_0_compat; auto. now apply lt_0_INR. Qed.

Lemma line_scheme : forall I u, sound_interval I ->
  (coarse_result I u <->
   (forall c, (c <= iv_n I)%nat -> iv_con I (iv_num I [c]) = true -> u (iv_num I [c]) = iv_g I (iv_num I [c])) /\
   forall v, (forall c, (c <= iv_n I)%nat -> iv_con I (iv_num I [c]) = true -> v (iv_num I [c]) = 0) ->
     rsum (iv_n I) (fun c => kappa I c / iv_H I * (v (iv_num I [S c]) - v (iv_num I [c])) * (u (iv_num I [S c]) - u (iv_num I [c]))) =
     lsum (coarse_line I) (fun cf => lsum (covered (list R) (fst cf)) (fun l => load (list R) (iv_source I) l (test_val (list R) v (fst cf) l))
       + boundary_load (list R) (iv_neumann I) (snd cf) (test_coarse (list R) v (fst cf)))).
Proof.
  intros I u (Ln & Lm & LH & Num & Numf & Dv & Me & Co & Bo & Rq & Ag & Oe & Oef & Cl & Cr & Bl & Br).
  assert (B : (forall c fs i, In (c, fs) (coarse_line I) -> (i < cc_n (list R) c)%nat -> (cc_index (list R) c i < iv_N I)%nat) /\
    forall c fs, In (c, fs) (coarse_line I) -> (cc_slots (list R) c = cc_n (list R) c + 2)%nat) by (apply coarse_bounds; auto).
  destruct B as (B1 & B2). unfold coarse_result.
  rewrite (C90_multiscale_solution_balances _ _ _ _ _ _ _ _ _ _ B1 B2).
  assert (Q : forall P : nat -> Prop, (forall i, (i < iv_N I)%nat -> iv_con I i = true -> P i) <->
    (forall c, (c <= iv_n I)%nat -> iv_con I (iv_num I [c]) = true -> P (iv_num I [c]))).
  { intros P. split.
    - intros A c Lc. apply A. apply Num. apply node_line. exists c. auto.
    - intros A i Li Ci. destruct (proj2 (proj2 Num) i Li) as (js & Nj & <-). apply node_line in Nj. destruct Nj as (c & Lc & ->). auto. }
  rewrite (Q (fun i => u i = iv_g I i)). apply and_iff_compat_l.
  split; intros A v Z; specialize (A v).
  - rewrite <- A by (now apply (Q (fun i => v i = 0))). symmetry.
    exact (coarse_energy (iv_n I) (iv_m I) (iv_N I) (iv_H I) (iv_num I) (iv_diffusion I)
    (iv_global I) (iv_a I) (iv_order I) (iv_rhs_order I) (iv_o I) (iv_fo I) (iv_pa I) (iv_x I) (iv_rq I) (iv_rqf I)
    (iv_nl I) (iv_nr I) (iv_left I) (iv_right I) Ln Lm LH Num Dv Me Co Bo Rq u v).
  - rewrite <- A by (now apply (Q (fun i => v i = 0))).
    exact (coarse_energy (iv_n I) (iv_m I) (iv_N I) (iv_H I) (iv_num I) (iv_diffusion I)
    (iv_global I) (iv_a I) (iv_order I) (iv_rhs_order I) (iv_o I) (iv_fo I) (iv_pa I) (iv_x I) (iv_rq I) (iv_rqf I)
    (iv_nl I) (iv_nr I) (iv_left I) (iv_right I) Ln Lm LH Num Dv Me Co Bo Rq u v).
Qed.

Lemma from_left : forall I start u uh, sound_interval I -> coarse_result I u -> fine_result I start uh -> left_constrained I -> exists C,
  (~ right_constrained I -> C = 0) /\
  forall c, (c <= iv_n I)%nat -> difference_at I u uh c = rsum c (fun j => iv_H I / kappa I j * (iv_h I * mis I j - C)).
Proof.
  intros I start u uh S Su Sf L. destruct (line_difference I start u uh S Su Sf) as (C & D & F & A & _).
  exists C. split; [auto|]. induction c as [|c IH]; intros Lc; [cbn [rsum]; auto|].
  cbn [rsum]. rewrite <- IH, <- D by lia. pose proof (kappa_pos I c S Lc). assert (0 < iv_H I) by apply S. field. lra.
Qed.

Lemma line_exact_iff : forall I start u uh, sound_interval I -> coarse_result I u -> fine_result I start uh ->
  left_constrained I \/ right_constrained I ->
  ((forall c, (c <= iv_n I)%nat -> difference_at I u uh c = 0) <->
   (forall c, (c < iv_n I)%nat -> mis I c = mis I 0) /\ (~ left_constrained I \/ ~ right_constrained I -> mis I 0 = 0)).
Proof.
  intros I start u uh S Su Sf E. destruct (line_difference I start u uh S Su Sf) as (C & D & F & A & B).
  pose proof (iv_h_pos I S) as hp_. assert (LH : 0 < iv_H I) by apply S. assert (Ln : (0 < iv_n I)%nat) by apply S. split.
  - intros Z. assert (M : forall c, (c < iv_n I)%nat -> iv_h I * mis I c = C).
    { intros c Lc. specialize (D c Lc). rewrite !Z in D by lia. lra. }
    split.
    + intros c Lc. apply (Rmult_eq_reg_l (iv_h I)); [|lra]. now rewrite !M.
    + intros X. apply (Rmult_eq_reg_l (iv_h I)); [|lra]. rewrite M, F by auto. ring.
  - intros (Same & Zero).
    assert (G : forall c, (c <= iv_n I)%nat -> difference_at I u uh c =
      difference_at I u uh 0 + (iv_h I * mis I 0%nat - C) * rsum c (fun j => iv_H I / kappa I j)).
    { induction c as [|c IH]; intros Lc; cbn [rsum]; [ring|].
      specialize (IH ltac:(lia)). specialize (D c Lc). rewrite Same in D by lia. pose proof (kappa_pos I c S Lc) as kp.
      assert (X : difference_at I u uh (Datatypes.S c) - difference_at I u uh c = iv_H I / kappa I c * (iv_h I * mis I 0%nat - C)).
      { rewrite <- D. field. lra. }
      transitivity (difference_at I u uh c + (difference_at I u uh (Datatypes.S c) - difference_at I u uh c)); [ring|].
      rewrite X, IH. ring. }
    assert (K : iv_h I * mis I 0%nat - C = 0).
    { destruct (bool_dec (iv_con I (iv_num I [0%nat])) true) as [L|L]; [destruct (bool_dec (iv_con I (iv_num I [iv_n I])) true) as [R|R]|].
      - specialize (A L). specialize (B R). rewrite G, A in B by lia.
        assert (P : 0 < rsum (iv_n I) (fun j => iv_H I / kappa I j)).
        { rewrite (rsum_ext _ _ (fun j => / (kappa I j / iv_H I))).
          - apply rsum_inverse_pos; auto. intros j Lj. apply Rdiv_lt_0_compat; auto. now apply kappa_pos.
          - intros j Lj. pose proof (kappa_pos I j S Lj). field. lra. }
        apply (Rmult_eq_reg_r (rsum (iv_n I) (fun j => iv_H I / kappa I j))); lra.
      - rewrite F, Zero by auto. ring.
      - rewrite F, Zero by auto. ring. }
    intros c Lc. rewrite G, K by auto. rewrite Rmult_0_l, Rplus_0_r. destruct E as [E|E]; [auto|].
    specialize (B E). rewrite G, K in B by auto. lra.
Qed.

(** ** Values of [misplaced] *)
Lemma moments : forall r, (2 <= r <= 5)%nat ->
  lsum (cube_rule 1 r) (fun q => snd q) = 1 /\
  lsum (cube_rule 1 r) (fun q => snd q * nth 0 (fst q) 0) = 1/2 /\
  lsum (cube_rule 1 r) (fun q => snd q * (nth 0 (fst q) 0 * nth 0 (fst q) 0)) = 1/3.
Proof.
  intros r L. assert (E3 : sqrt 3 * sqrt 3 = 3) by (apply sqrt_sqrt; lra). assert (E15 : sqrt 15 * sqrt 15 = 15) by (apply sqrt_sqrt; lra).
  assert (X : cube_rule 1 r = product_rule (line_rule 2) 1 \/ cube_rule 1 r = product_rule (line_rule 3) 1)
    by (destruct r as [|[|[|[|[|[|]]]]]]; try lia; cbn; auto).
  destruct X as [-> | ->]; cbn; (split; [lra|]); (split; [lra|]).
  - transitivity (1/4 + (sqrt 3 * sqrt 3) / 36); [field|rewrite E3; field].
  - transitivity (1/4 + (sqrt 15 * sqrt 15) / 180); [field|rewrite E15; field].
Qed.

Lemma rsum_const : forall n c, rsum n (fun _ => c) = INR n * c.
Proof. induction n as [|n IH]; intros c; [cbn; ring|]. rewrite S_INR. cbn [rsum]. rewrite IH. ring. Qed.
Lemma sum_first : forall m, rsum m (fun f => INR f) = INR m * (INR m - 1) / 2.
Proof. induction m as [|m IH]; [cbn; field|]. cbn [rsum]. rewrite IH, S_INR. field. Qed.
Lemma sum_square : forall m, rsum m (fun f => INR f * INR f) = INR m * (INR m - 1) * (2 * INR m - 1) / 6.
Proof. induction m as [|m IH]; [cbn; field|]. cbn [rsum]. rewrite IH, S_INR. field. Qed.

Lemma mis_zero : forall I c, (forall y, iv_source I y = 0) -> mis I c = 0.
Proof.
  intros I c Z. unfold mis, misplaced. rewrite (rsum_ext _ _ (fun _ => 0)); [apply rsum_zero|]. intros f _.
  rewrite (lsum_ext _ _ _ (fun _ => 0)); [apply lsum_zero|]. intros q _. rewrite Z. ring.
Qed.
Lemma mis_one : forall I c, iv_m I = 1%nat -> mis I c = 0.
Proof.
  intros I c M. unfold mis, misplaced. rewrite M. cbn [rsum INR].
  rewrite (lsum_ext _ _ _ (fun _ => 0)); [rewrite lsum_zero; ring|]. intros q _. field.
Qed.
Lemma mis_affine : forall I start s0 s1 c, sound_interval I -> affine_source I start s0 s1 -> (c < iv_n I)%nat ->
  mis I c = - s1 * iv_H I * (INR (iv_m I) - 1) / 12.
Proof.
  intros I start s0 s1 c S (So & Gl & Ru) Lc. assert (Lm : (0 < iv_m I)%nat) by apply S. assert (Mp : 0 < INR (iv_m I)) by now apply lt_0_INR.
  set (m := iv_m I) in *. set (h := iv_h I).
  assert (Hh : h * INR m = iv_H I) by (unfold h, iv_h; fold m; field; lra).
  unfold mis, misplaced. fold m.
  rewrite (rsum_ext m _ (fun f => (s0 + s1 * (start + INR (c * m) * h)) * (1/2 - (INR f + 1/2) / INR m)
    + s1 * h * (INR f * / 2 + / 3 + (-1) * / INR m * (INR f * INR f + INR f + / 3)))).
  - rewrite rsum_plus, !rsum_scale.
    rewrite (rsum_ext m _ (fun f => (1/2 - /2 * / INR m) * 1 + (- / INR m) * INR f)) by (intros; field; lra).
    rewrite rsum_plus, !rsum_scale, sum_first, rsum_const.
    rewrite (rsum_ext m (fun f => INR f * / 2 + / 3 + (-1) * / INR m * (INR f * INR f + INR f + / 3))
      (fun f => (/ 2 - / INR m) * INR f + (- / INR m) * (INR f * INR f) + (/ 3 - / INR m * / 3) * 1)) by (intros; field; lra).
    rewrite !rsum_plus, !rsum_scale, sum_first, sum_square, rsum_const. rewrite <- Hh. field. lra.
  - intros f Lf. destruct (Ru (c * m + f)%nat) as (r & Lr & E). rewrite E. destruct (moments r Lr) as (M0 & M1 & M2). change (lsum (cube_rule 1 r) snd = 1) in M0.
    assert (Lg : (c * m + f < iv_n I * m)%nat) by (apply block_lt; auto; lia).
    rewrite (lsum_ext _ _ _ (fun q =>
      (- (INR f) * / INR m * (s0 + s1 * (start + (INR (c * m) + INR f) * h))) * snd q +
      ((1 - / INR m) * (s0 + s1 * (start + (INR (c * m) + INR f) * h)) - INR f * / INR m * s1 * h) * (snd q * nth 0 (fst q) 0) +
      ((1 - / INR m) * s1 * h) * (snd q * (nth 0 (fst q) 0 * nth 0 (fst q) 0)))).
    + rewrite !lsum_plus, !lsum_scale, M0, M1, M2. field. lra.
    + intros q J. destruct (rule_one _ _ J) as (t & T). rewrite T. cbn [nth]. rewrite Gl, So by exact Lg. fold h. rewrite plus_INR. field. lra.
Qed.
