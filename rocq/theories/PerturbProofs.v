(** Proofs for C121. *)
From Coq Require Import Reals List Arith Bool Lra Lia.
From Verif Require Import Util RSum BoundaryModel CoarseModel CoarseSpec CoarseProofs LinModel LinSpec LinProofs.
From Verif Require Import SystemModel SystemSpec SystemProofs FemProofs QuadModel PatchSpec PatchProofs SolveSpec SolveProofs.
From Verif Require Import FemModel FemSpec EnergySpec EnergyProofs LayerSpec LayerProofs MaxSpec MaxProofs BoundsSpec BoundsProofs InexactSpec InexactProofs PerturbSpec.
Import ListNotations.
Open Scope R_scope.

Lemma abs_range : forall a b, Rabs a <= b -> - b <= a <= b.
Proof. intros a b H. pose proof (Rle_abs a). pose proof (Rle_abs (- a)). rewrite Rabs_Ropp in *. lra. Qed.
Lemma near_nonneg : forall d delta A A' z, near d delta A A' -> 0 < delta -> 0 <= dot d (mv d A z) z.
Proof.
  intros d delta A A' z (_ & _ & N) P. specialize (N z). pose proof (Rabs_pos (dot d (mv d A' z) z - dot d (mv d A z) z)).
  destruct (Rle_or_lt 0 (dot d (mv d A z) z)); auto. assert (delta * dot d (mv d A z) z < delta * 0) by (apply Rmult_lt_compat_l; lra). lra.
Qed.
Lemma near_range : forall d delta A A' z, near d delta A A' ->
  (1 - delta) * dot d (mv d A z) z <= dot d (mv d A' z) z <= (1 + delta) * dot d (mv d A z) z.
Proof. intros d delta A A' z (_ & _ & N). specialize (N z). apply abs_range in N. lra. Qed.

(** ** Two symmetric forms *)
Lemma form_square : forall n A u v t, symmetric n A ->
  dot n (mv n A (fun i => u i + t * v i)) (fun i => u i + t * v i) =
  dot n (mv n A u) u + 2 * t * dot n (mv n A u) v + t * t * dot n (mv n A v) v.
Proof.
  intros n A u v t S.
  assert (E : forall i, mv n A (fun i => u i + t * v i) i = mv n A u i + t * mv n A v i).
  { intros i. unfold mv. rewrite <- rsum_scale, <- rsum_plus. apply rsum_ext. intros. ring. }
  assert (C : dot n (mv n A v) u = dot n (mv n A u) v) by now apply dot_sym_mv.
  unfold dot in *. rewrite (rsum_ext n _ (fun i => mv n A u i * u i + (t * (mv n A u i * v i) + (t * (mv n A v i * u i) + t * t * (mv n A v i * v i))))).
  - rewrite !rsum_plus, !rsum_scale. rewrite C. ring.
  - intros i _. rewrite E. ring.
Qed.

Lemma near_product : forall n delta A A' u v, near n delta A A' -> 0 < delta ->
  Rabs (dot n (mv n A' u) v - dot n (mv n A u) v) <= / 2 * (dot n (mv n A u) u + delta * delta * dot n (mv n A v) v).
Proof.
  intros n delta A A' u v (S & S' & N) P.
  pose proof (N (fun i => u i + delta * v i)) as N1. pose proof (N (fun i => u i + (- delta) * v i)) as N2.
  rewrite !form_square in N1, N2 by auto. apply abs_range in N1. apply abs_range in N2.
  set (a := dot n (mv n A u) u) in *. set (b := dot n (mv n A u) v) in *. set (c := dot n (mv n A v) v) in *.
  set (a' := dot n (mv n A' u) u) in *. set (b' := dot n (mv n A' u) v) in *. set (c' := dot n (mv n A' v) v) in *.
  apply Rabs_le. split; apply (Rmult_le_reg_l delta); auto; nra.
Qed.

(** ** Two systems with the same right hand side *)
Lemma bvp_near : forall n con delta A A' b g u u', near n delta A A' -> 0 < delta ->
  solves_bvp n con A b g u -> solves_bvp n con A' b g u' ->
  dot n (mv n A (fun i => u i - u' i)) (fun i => u i - u' i) <= delta * delta * dot n (mv n A u') u'.
Proof.
  intros n con delta A A' b g u u' N P U U'. set (e := fun i => u i - u' i).
  assert (E : dot n (mv n A e) e = dot n (mv n A' u') e - dot n (mv n A u') e).
  { unfold dot. rewrite <- rsum_minus. apply rsum_ext. intros i Li. specialize (U i Li). specialize (U' i Li).
    destruct (con i); [unfold e; rewrite U, U'; ring|].
    assert (M : mv n A e i = mv n A u i - mv n A u' i).
    { unfold mv, e. rewrite <- rsum_minus. apply rsum_ext. intros. ring. }
    rewrite M. unfold mv at 1 3. rewrite U, U'. ring. }
  pose proof (near_product n delta A A' e u' N P) as H. apply abs_range in H.
  rewrite (dot_sym_mv n A' e u') in H by apply N. rewrite (dot_sym_mv n A e u') in H by apply N. lra.
Qed.

(** ** The matrices of two near diffusions *)
Definition unit_at (i : nat) : nat -> R := fun j => if Nat.eqb j i then 1 else 0.
Lemma unit_dot : forall n i w, (i < n)%nat -> dot n w (unit_at i) = w i.
Proof.
  intros n i w L. unfold dot. rewrite (rsum_single n i); auto.
  - unfold unit_at. rewrite Nat.eqb_refl. ring.
  - intros j _ D. unfold unit_at. destruct (Nat.eqb_spec j i); [congruence|ring].
Qed.
Lemma unit_entry : forall n A i j, (i < n)%nat -> (j < n)%nat -> dot n (mv n A (unit_at j)) (unit_at i) = A i j.
Proof. intros n A i j Li Lj. rewrite unit_dot by auto. exact (unit_dot n j (A i) Lj). Qed.
Lemma form_symmetric : forall n A, (forall u v, dot n (mv n A u) v = dot n (mv n A v) u) -> symmetric n A.
Proof. intros n A H i j Li Lj. rewrite <- (unit_entry n A i j), <- (unit_entry n A j i) by auto. apply H. Qed.

Lemma fem_near : forall d P delta diffusion diffusion' source neumann source' neumann' (grid : list (fcell P * list (cface P))) N,
  (forall c fs i, In (c, fs) grid -> (i < fc_n P c)%nat -> (fc_index P c i < N)%nat) ->
  (forall c fs q, In (c, fs) grid -> In q (fc_quad P c) -> 0 <= fc_factor P c (fst q) * snd q) ->
  (forall y, near d delta (diffusion y) (diffusion' y)) -> 0 < delta ->
  near N delta (fst (fem_walk d P diffusion source neumann grid)) (fst (fem_walk d P diffusion' source' neumann' grid)).
Proof.
  intros d P delta diffusion diffusion' source neumann source' neumann' grid N Ix Po Ne Pd.
  assert (G : forall D s m, (forall y i j, (i < d)%nat -> (j < d)%nat -> D y i j = D y j i) -> symmetric N (fst (fem_walk d P D s m grid))).
  { intros D s m S. apply form_symmetric. intros u v. rewrite !fem_form by auto. apply lsum_ext. intros cf _. apply lsum_ext. intros q _.
    f_equal. apply dot_sym_mv. auto. }
  split; [apply G; intros y; apply (Ne y)|]. split; [apply G; intros y; apply (Ne y)|].
  intros z. rewrite !fem_form by auto.
  assert (H : (1 - delta) * lsum grid (fun cf => fine_energy d P diffusion (fst cf) (fine_grad P z (fst cf)) (fine_grad P z (fst cf))) <=
    lsum grid (fun cf => fine_energy d P diffusion' (fst cf) (fine_grad P z (fst cf)) (fine_grad P z (fst cf))) <=
    (1 + delta) * lsum grid (fun cf => fine_energy d P diffusion (fst cf) (fine_grad P z (fst cf)) (fine_grad P z (fst cf)))).
  { rewrite <- !lsum_scale. split; apply lsum_le; intros (c, fs) I; cbn [fst]; unfold fine_energy; rewrite <- lsum_scale; apply lsum_le; intros q Q;
    pose proof (Po c fs q I Q); pose proof (near_range d delta _ _ (fine_grad P z c (fst q)) (Ne (fc_global P c (fst q)))) as (R1 & R2).
    - eapply Rle_trans; [|apply Rmult_le_compat_l; [exact H|exact R1]]. right. ring.
    - eapply Rle_trans; [apply Rmult_le_compat_l; [exact H|exact R2]|]. right. ring. }
  apply Rabs_le. lra.
Qed.

Lemma patch_near : forall d o delta diffusion diffusion' p, sound d p -> (2 <= gauss_points o <= 3)%nat ->
  (forall y, near d delta (diffusion y) (diffusion' y)) -> 0 < delta ->
  near (pa_n p) delta (stiffness d (patch_points d o diffusion p)) (stiffness d (patch_points d o diffusion' p)).
Proof.
  intros d o delta diffusion diffusion' p So Oo Ne Pd.
  assert (G : forall D, (forall y i j, (i < d)%nat -> (j < d)%nat -> D y i j = D y j i) -> symmetric (pa_n p) (stiffness d (patch_points d o D p))).
  { intros D S. apply form_symmetric. intros u v. rewrite !stiffness_energy. apply LinProofs.energy_sym_f. now apply patch_symmetric. }
  split; [apply G; intros y; apply (Ne y)|]. split; [apply G; intros y; apply (Ne y)|].
  intros z. rewrite !stiffness_energy, !patch_energy by auto. pose proof So as (_ & _ & _ & _ & Fe & _). pose proof (volume_pos _ Fe) as Pv.
  set (F := fun D : list R -> nat -> nat -> R => bsum (pa_cells p) (line_rule (gauss_points o)) (fun f xs => dot d (mv d (D (pa_global p f xs))
    (grad (pa_edges p) (nodal (pa_num p) z) f xs)) (grad (pa_edges p) (nodal (pa_num p) z) f xs))).
  change (Rabs (volume (pa_edges p) * F diffusion' - volume (pa_edges p) * F diffusion) <= delta * (volume (pa_edges p) * F diffusion)).
  assert (H : (1 - delta) * F diffusion <= F diffusion' <= (1 + delta) * F diffusion).
  { unfold F. rewrite <- !bsum_scale. split; apply bsum_le; try (now apply gauss_positive); intros; apply (near_range d delta); auto. }
  apply Rabs_le. nra.
Qed.

Lemma corrected_bvp : forall d qs rs n con y x, same_products d qs rs n con (field_of n y) -> corrector d qs rs n con (field_of n y) x ->
  solves_bvp n con (stiffness d qs) (fun _ => 0) y (fun i => y i + x i).
Proof.
  intros d qs rs n con y x S C. apply corrector_orthogonal_same in C; auto. destruct C as (V & O).
  intros i Li. destruct (con i) eqn:Ci; [rewrite (V i Li Ci); ring|].
  specialize (O (unit_at i)).
  assert (Vu : vanishes n con (unit_at i)).
  { intros j _ Cj. unfold unit_at. destruct (Nat.eqb_spec j i); [congruence|reflexivity]. }
  specialize (O Vu). rewrite (energy_field_ext d qs _ (field_of n (fun i => y i + x i)) _ (field_of n (unit_at i))) in O; auto.
  - rewrite <- stiffness_energy, unit_dot in O by auto. exact O.
  - intros q k _ _. unfold plus. now rewrite field_plus.
Qed.
