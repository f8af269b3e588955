(** Proofs for C109. *)
From Coq Require Import Reals List Arith Bool Lra Lia Permutation.
From Verif Require Import Util RSum CoarseModel CoarseSpec CoarseProofs LinModel LinSpec LinProofs.
From Verif Require Import SystemModel SystemSpec SystemProofs FemModel FemSpec FemProofs PatchSpec PatchProofs ParModel ParSpec.
Import ListNotations.
Open Scope R_scope.

Lemma solves_bvp_ext : forall N con A A' b b' g u,
  (forall i j, (i < N)%nat -> (j < N)%nat -> con i = false -> A i j = A' i j) ->
  (forall i, (i < N)%nat -> con i = false -> b i = b' i) ->
  (solves_bvp N con A b g u <-> solves_bvp N con A' b' g u).
Proof.
  intros N con A A' b b' g u EA EB. unfold solves_bvp.
  split; intros H i Li; specialize (H i Li); destruct (con i) eqn:C; auto.
  - rewrite <- EB, <- H by auto. apply rsum_ext. intros j Lj. now rewrite EA.
  - rewrite EB, <- H by auto. apply rsum_ext. intros j Lj. now rewrite EA.
Qed.

(** Reading by rows: one system whose rows come from the owners. *)
Lemma rows_bvp : forall N con owner (M : nat -> matrix) (V : nat -> vector) g start sol,
  let p := project_dirichlet con g start in
  (exists x, by_rows N owner (fun r => reduced_matrix con (M r)) (fun r => reduced_rhs N con (M r) (V r) p) x /\
     forall i, (i < N)%nat -> sol i = x i + p i) <->
  solves_bvp N con (fun a b => M (owner a) a b) (fun a => V (owner a) a) g sol.
Proof.
  intros N con owner M V g start sol p. rewrite <- (fem_bvp N con _ _ g start sol). unfold fem_apply. fold p.
  assert (E : forall x, by_rows N owner (fun r => reduced_matrix con (M r)) (fun r => reduced_rhs N con (M r) (V r) p) x <->
    solves N (reduced_matrix con (fun a b => M (owner a) a b)) (reduced_rhs N con (fun a b => M (owner a) a b) (fun a => V (owner a) a) p) x).
  { intros x. unfold by_rows, solves. split; intros H a La; specialize (H a La); exact H. }
  split; intros (x & H & S); exists x; (split; [now apply E|exact S]).
Qed.

(** Reading by sums: the sum of the systems. *)
Lemma sum_bvp : forall N con np (M : nat -> matrix) (V : nat -> vector) g start sol, (0 < np)%nat ->
  let p := project_dirichlet con g start in
  (exists x, by_sum N np (fun r => reduced_matrix con (M r)) (fun r => reduced_rhs N con (M r) (V r) p) x /\
     forall i, (i < N)%nat -> sol i = x i + p i) <->
  solves_bvp N con (fun a b => rsum np (fun r => M r a b)) (fun a => rsum np (fun r => V r a)) g sol.
Proof.
  intros N con np M V g start sol NP p. rewrite <- (fem_bvp N con _ _ g start sol). unfold fem_apply. fold p.
  assert (SW : forall x a, rsum np (fun r => mv N (M r) x a) = mv N (fun a b => rsum np (fun r => M r a b)) x a).
  { intros x a. unfold mv. rewrite rsum_swap. apply rsum_ext. intros b Lb. now rewrite rsum_scale_r. }
  assert (RC : forall y, rsum np (fun _ => y) = INR np * y).
  { intros y. clear NP SW. induction np as [|k IH]; [simpl; ring|]. cbn [rsum]. rewrite IH, S_INR. ring. }
  assert (P0 : INR np <> 0) by (apply not_0_INR; lia).
  assert (E : forall x, by_sum N np (fun r => reduced_matrix con (M r)) (fun r => reduced_rhs N con (M r) (V r) p) x <->
    solves N (reduced_matrix con (fun a b => rsum np (fun r => M r a b)))
      (reduced_rhs N con (fun a b => rsum np (fun r => M r a b)) (fun a => rsum np (fun r => V r a)) p) x).
  { intros x. unfold by_sum, solves. split; intros H a La; specialize (H a La);
      unfold reduced_matrix, reduced_rhs, constrain_matrix, constrain_vector, mv in H |- *; destruct (con a).
    - rewrite RC, rsum_zero in H. apply (Rmult_eq_reg_l (INR np)); auto. now rewrite Rmult_0_r.
    - rewrite rsum_minus in H. fold (mv N (fun a b => rsum np (fun r => M r a b)) x a).
      fold (mv N (fun a b => rsum np (fun r => M r a b)) p a). rewrite <- !SW. exact H.
    - rewrite RC, rsum_zero, H. ring.
    - rewrite rsum_minus. fold (mv N (fun a b => rsum np (fun r => M r a b)) x a) in H.
      fold (mv N (fun a b => rsum np (fun r => M r a b)) p a) in H. rewrite <- !SW in H. exact H. }
  split; intros (x & H & S); exists x; (split; [now apply E|exact S]).
Qed.

(** Sums over the cells of the processes. *)
Lemma rsum_owner : forall np o y, (o < np)%nat -> rsum np (fun r => if Nat.eqb o r then y else 0) = y.
Proof.
  intros np o y L. rewrite (rsum_single np o) by (auto; intros j _ N; destruct (Nat.eqb_spec o j); congruence).
  now rewrite Nat.eqb_refl.
Qed.

Lemma sum_owned : forall C np (grid : list (placed C)) (f : C -> R),
  (forall x, In x grid -> (pl_owner C x < np)%nat) ->
  rsum np (fun r => lsum (interior_cells C r grid) f) = lsum (all_cells C grid) f.
Proof.
  intros C np grid f. induction grid as [|x l IH]; intros L.
  - simpl. apply rsum_zero.
  - unfold all_cells in *. cbn [map lsum]. rewrite <- IH by (intros; apply L; simpl; auto).
    rewrite <- (rsum_owner np (pl_owner C x) (f (pl_cell C x))) by (apply L; simpl; auto).
    rewrite <- rsum_plus. apply rsum_ext. intros r Lr. unfold interior_cells. cbn [filter].
    destruct (Nat.eqb (pl_owner C x) r); cbn [map lsum]; ring.
Qed.

Lemma interior_in : forall C r (grid : list (placed C)) c, In c (interior_cells C r grid) <->
  exists x, In x grid /\ pl_owner C x = r /\ pl_cell C x = c.
Proof.
  intros C r grid c. unfold interior_cells. rewrite in_map_iff. split.
  - intros (x & E & I). apply filter_In in I. destruct I as (I & O). apply Nat.eqb_eq in O. eauto.
  - intros (x & I & O & E). exists x. split; auto. apply filter_In. split; auto. now apply Nat.eqb_eq.
Qed.
Lemma all_in : forall C (grid : list (placed C)) c, In c (all_cells C grid) <-> exists x, In x grid /\ pl_cell C x = c.
Proof. intros C grid c. unfold all_cells. rewrite in_map_iff. split; intros (x & A & B); eauto. Qed.

(** Sums over part of the cells. *)
Lemma part_sum : forall C (p : placed C -> bool) (grid : list (placed C)) (f : C -> R),
  (forall x, In x grid -> p x = false -> f (pl_cell C x) = 0) ->
  lsum (map (pl_cell C) (filter p grid)) f = lsum (all_cells C grid) f.
Proof.
  intros C p grid f. unfold all_cells. induction grid as [|x l IH]; intros Z; [reflexivity|].
  cbn [filter map lsum]. destruct (p x) eqn:E; cbn [map lsum]; rewrite IH by (intros; apply Z; simpl; auto).
  - reflexivity.
  - rewrite (Z x) by (simpl; auto). ring.
Qed.
Lemma part_le : forall C (p : placed C -> bool) (grid : list (placed C)) (f : C -> R),
  (forall x, In x grid -> 0 <= f (pl_cell C x)) ->
  lsum (map (pl_cell C) (filter p grid)) f <= lsum (all_cells C grid) f.
Proof.
  intros C p grid f. unfold all_cells. induction grid as [|x l IH]; intros Z; [simpl; lra|].
  assert (H := IH ltac:(intros; apply Z; simpl; auto)). pose proof (Z x ltac:(simpl; auto)).
  cbn [filter map lsum]. destruct (p x); cbn [map lsum]; lra.
Qed.
Lemma part_lt : forall C (p : placed C -> bool) (grid : list (placed C)) (f : C -> R) x,
  (forall x, In x grid -> 0 <= f (pl_cell C x)) -> In x grid -> p x = false -> 0 < f (pl_cell C x) ->
  lsum (map (pl_cell C) (filter p grid)) f < lsum (all_cells C grid) f.
Proof.
  intros C p grid f x. unfold all_cells. induction grid as [|y l IH]; intros Z I E G; [destruct I|].
  assert (H := part_le C p l f ltac:(intros; apply Z; simpl; auto)). unfold all_cells in H. pose proof (Z y ltac:(simpl; auto)).
  cbn [filter map lsum]. destruct I as [->|I].
  - rewrite E. lra.
  - specialize (IH ltac:(intros; apply Z; simpl; auto) I E G). destruct (p y); cbn [map lsum]; lra.
Qed.

Section P.
Variable d : nat.
Variable P : Type.
Variable diffusion : P -> nat -> nat -> R.
Variable source : P -> R.
Variable neumann : P -> R.
Notation cpart := (cell_part d P diffusion).
Notation rpart := (rhs_part d P diffusion source neumann).
Notation ccell := (coarse_cell P * list (cface P))%type.

Lemma hit_none : forall (c : coarse_cell P) a i, ~ touches c a -> (i < cc_n P c)%nat -> hit P c i a = 0.
Proof.
  intros c a i T Li. unfold hit. destruct (Nat.eqb_spec (cc_index P c i) a) as [E|_]; [|reflexivity].
  exfalso. apply T. exists i. auto.
Qed.
Lemma cpart_none : forall c a b, ~ touches c a -> cpart c a b = 0.
Proof.
  intros c a b T. unfold cell_part. apply rsum_0. intros i Li. apply rsum_0. intros j Lj.
  rewrite (hit_none c a i T Li). ring.
Qed.
Lemma rpart_none : forall (cf : ccell) a, ~ touches (fst cf) a -> rpart cf a = 0.
Proof. intros cf a T. unfold rhs_part. apply rsum_0. intros i Li. rewrite (hit_none (fst cf) a i T Li). ring. Qed.

Lemma cpart_diag : forall c a, (forall y, psd d (diffusion y)) -> weights_ok P c ->
  (forall i j, (i < cc_n P c)%nat -> (j < cc_n P c)%nat -> cc_index P c i = cc_index P c j -> i = j) ->
  cpart c a a = rsum (cc_n P c) (fun i => hit P c i a * own_energy d P diffusion c i).
Proof.
  intros c a S W J. unfold cell_part. apply rsum_ext. intros i Li.
  rewrite (rsum_single _ i); auto.
  - unfold own_energy, hit, ind. destruct (Nat.eqb (cc_index P c i) a); ring.
  - intros j Lj Nj. unfold hit. destruct (Nat.eqb_spec (cc_index P c i) a) as [E|_]; [|simpl; ring].
    destruct (Nat.eqb_spec (cc_index P c j) a) as [E'|_]; [|simpl; ring].
    exfalso. apply Nj. apply J; congruence.
Qed.
Lemma own_nonneg : forall c i, (forall y, psd d (diffusion y)) -> weights_ok P c -> 0 <= own_energy d P diffusion c i.
Proof.
  intros c i S W. unfold own_energy. apply lsum_nonneg. intros l I. apply energy_nonneg; auto.
  intros q Q. unfold covered in I. apply filter_In in I. apply (W l q); tauto.
Qed.

Lemma coarse_parts : forall np grid,
  (forall x, In x grid -> (pl_owner ccell x < np)%nat) ->
  ((exists M V, forall r, (r < np)%nat -> coarse_part d P diffusion source neumann r grid = Some (M r, V r)) <->
   exists r, walk d P diffusion source neumann (fun _ _ => 0) (fun _ => 0) (all_cells _ grid) = Some r).
Proof.
  intros np grid L. rewrite walk_some. split.
  - intros (M & V & H) c fs I. apply all_in in I. destruct I as (x & Ix & E).
    specialize (H (pl_owner _ x) (L x Ix)).
    apply (proj1 (walk_some d P diffusion source neumann (interior_cells _ (pl_owner _ x) grid) (fun _ _ => 0) (fun _ => 0))) with (fs := fs).
    + unfold coarse_part in H. eauto.
    + apply interior_in. eauto.
  - intros H.
    exists (fun r => match coarse_part d P diffusion source neumann r grid with Some (M, _) => M | None => fun _ _ => 0 end).
    exists (fun r => match coarse_part d P diffusion source neumann r grid with Some (_, V) => V | None => fun _ => 0 end).
    intros r Lr. unfold coarse_part.
    destruct (proj2 (walk_some d P diffusion source neumann (interior_cells _ r grid) (fun _ _ => 0) (fun _ => 0))) as ((M & V) & E).
    + intros c fs I. apply interior_in in I. destruct I as (x & Ix & _ & Ex). apply (H c fs). apply all_in. eauto.
    + now rewrite E.
Qed.

Lemma part_val : forall r grid M V, coarse_part d P diffusion source neumann r grid = Some (M, V) ->
  (forall a b, M a b = lsum (interior_cells _ r grid) (fun cf => cpart (fst cf) a b)) /\
  (forall a, V a = lsum (interior_cells _ r grid) (fun cf => rpart cf a)).
Proof.
  intros r grid M V E. destruct (walk_val _ _ _ _ _ _ _ _ _ _ E) as (A & B). split; intros; [rewrite A|rewrite B]; ring.
Qed.
Lemma whole_val : forall grid M V, walk d P diffusion source neumann (fun _ _ => 0) (fun _ => 0) (all_cells _ grid) = Some (M, V) ->
  (forall a b, M a b = lsum (all_cells _ grid) (fun cf => cpart (fst cf) a b)) /\
  (forall a, V a = lsum (all_cells _ grid) (fun cf => rpart cf a)).
Proof.
  intros grid M V E. destruct (walk_val _ _ _ _ _ _ _ _ _ _ E) as (A & B). split; intros; [rewrite A|rewrite B]; ring.
Qed.

Lemma coarse_sum : forall np N con g grid sol, (0 < np)%nat ->
  (forall x, In x grid -> (pl_owner ccell x < np)%nat) ->
  (coarse_parallel d P diffusion source neumann (by_sum N np) np N con g grid sol <->
   coarse_solution d P diffusion source neumann N con g (all_cells _ grid) sol).
Proof.
  intros np N con g grid sol NP L. unfold coarse_parallel, coarse_solution.
  assert (K : forall M V MM VV,
     (forall r, (r < np)%nat -> coarse_part d P diffusion source neumann r grid = Some (M r, V r)) ->
     walk d P diffusion source neumann (fun _ _ => 0) (fun _ => 0) (all_cells _ grid) = Some (MM, VV) ->
     (solves_bvp N con (fun a b => rsum np (fun r => M r a b)) (fun a => rsum np (fun r => V r a)) g sol <->
      solves_bvp N con MM VV g sol)).
  { intros M V MM VV H W. apply whole_val in W. destruct W as (A & B). apply solves_bvp_ext; intros.
    - rewrite A, <- (sum_owned _ np) by auto. apply rsum_ext. intros r Lr. apply (part_val r grid _ _ (H r Lr)).
    - rewrite B, <- (sum_owned _ np) by auto. apply rsum_ext. intros r Lr. apply (part_val r grid _ _ (H r Lr)). }
  split.
  - intros (M & V & x & H & T & S).
    destruct (proj1 (coarse_parts np grid L)) as ((MM & VV) & W); [eauto|].
    exists MM, VV. split; auto. apply coarse_bvp. apply (K M V MM VV H W).
    apply (sum_bvp N con np M V g (fun _ => 0) sol NP). eauto.
  - intros (MM & VV & W & S). destruct (proj2 (coarse_parts np grid L)) as (M & V & H); [eauto|].
    apply coarse_bvp in S. apply (K M V MM VV H W) in S.
    apply (sum_bvp N con np M V g (fun _ => 0) sol NP) in S. destruct S as (x & T & S). exists M, V, x. auto.
Qed.

Lemma coarse_rows : forall np N con g grid sol owner,
  (forall x, In x grid -> (pl_owner ccell x < np)%nat) -> (forall a, (a < N)%nat -> (owner a < np)%nat) ->
  (forall c fs i, In (c, fs) (all_cells _ grid) -> (i < cc_n P c)%nat -> (cc_index P c i < N)%nat) ->
  (forall c fs, In (c, fs) (all_cells _ grid) -> (cc_slots P c = cc_n P c + 2)%nat) ->
  (coarse_parallel d P diffusion source neumann (by_rows N owner) np N con g grid sol <->
   forall a, (a < N)%nat -> if con a then sol a = g a else
     lsum (interior_cells _ (owner a) grid) (fun cf => rsum (cc_n P (fst cf)) (fun i => ind (Nat.eqb (cc_index P (fst cf) i) a) *
       lsum (covered P (fst cf)) (fun l => ms_energy d P diffusion sol (fst cf) l (used_grad P (fst cf) l i)))) =
     lsum (interior_cells _ (owner a) grid) (fun cf => rsum (cc_n P (fst cf)) (fun i => ind (Nat.eqb (cc_index P (fst cf) i) a) *
       (lsum (covered P (fst cf)) (fun l => load P source l (used_val P (fst cf) l i))
        + boundary_load P neumann (snd cf) (cc_val P (fst cf) i))))).
Proof.
  intros np N con g grid sol owner L LO LI LS.
  destruct (proj2 (coarse_parts np grid L)) as (M & V & H); [apply walk_some; auto|].
  assert (K : solves_bvp N con (fun a b => M (owner a) a b) (fun a => V (owner a) a) g sol <->
    forall a, (a < N)%nat -> if con a then sol a = g a else
     lsum (interior_cells _ (owner a) grid) (fun cf => rsum (cc_n P (fst cf)) (fun i => ind (Nat.eqb (cc_index P (fst cf) i) a) *
       lsum (covered P (fst cf)) (fun l => ms_energy d P diffusion sol (fst cf) l (used_grad P (fst cf) l i)))) =
     lsum (interior_cells _ (owner a) grid) (fun cf => rsum (cc_n P (fst cf)) (fun i => ind (Nat.eqb (cc_index P (fst cf) i) a) *
       (lsum (covered P (fst cf)) (fun l => load P source l (used_val P (fst cf) l i))
        + boundary_load P neumann (snd cf) (cc_val P (fst cf) i))))).
  { assert (B : forall a, (a < N)%nat -> _) by
      (intros a La; exact (balance d P diffusion source neumann (interior_cells _ (owner a) grid) (M (owner a)) (V (owner a)) N sol a
        (fun c fs i I => LI c fs i (let '(ex_intro _ x (conj Ix (conj _ Ex))) := proj1 (interior_in _ _ _ _) I in
           proj2 (all_in _ _ _) (ex_intro _ x (conj Ix Ex)))) (H (owner a) (LO a La)))).
    unfold solves_bvp. split; intros S a La; specialize (S a La); destruct (con a); auto; now apply (B a La). }
  rewrite <- K. rewrite <- (rows_bvp N con owner M V g (fun _ => 0) sol). unfold coarse_parallel. split.
  - intros (M' & V' & x & H' & T & S). exists x. split; auto.
    intros a La. specialize (T a La). cbn beta in *. pose proof (H (owner a) (LO a La)) as E. rewrite (H' (owner a) (LO a La)) in E.
    injection E as <- <-. exact T.
  - intros (x & T & S). exists M, V, x. auto.
Qed.

Lemma reference_rows : forall np N con g start grid sol owner,
  (forall a x, (a < N)%nat -> con a = false -> In x grid -> touches_fine (fst (pl_cell _ x)) a -> pl_held _ x (owner a) = true) ->
  (reference_parallel d P diffusion source neumann (by_rows N owner) np N con g start grid sol <->
   fem_solution d P diffusion source neumann N con g start (all_cells _ grid) sol).
Proof.
  intros np N con g start grid sol owner HE. unfold reference_parallel.
  rewrite (rows_bvp N con owner (fun r => fst (reference_part d P diffusion source neumann r grid))
    (fun r => snd (reference_part d P diffusion source neumann r grid)) g start sol).
  unfold fem_solution. rewrite fem_bvp.
  assert (F : forall a (x : placed (fcell P * list (cface P))), (a < N)%nat -> con a = false -> In x grid ->
     pl_held _ x (owner a) = false -> ~ touches (bare P (fst (pl_cell _ x))) a).
  { intros a x La Ca Ix Hx (i & Li & Ei). rewrite (HE a x La Ca Ix) in Hx; [discriminate|]. exists i. auto. }
  apply solves_bvp_ext.
  - intros a b La Lb Ca. unfold reference_part.
    rewrite (proj1 (fem_walk_val _ _ _ _ _ _)), (proj1 (fem_walk_val _ _ _ _ _ _)), !lsum_bares.
    unfold held_cells. apply (part_sum _ (fun x => pl_held _ x (owner a)) grid
      (fun cf => cpart (fst (bare P (fst cf), snd cf)) a b)).
    intros x Ix Hx. cbn [fst]. apply cpart_none. now apply F.
  - intros a La Ca. unfold reference_part.
    rewrite (proj2 (fem_walk_val _ _ _ _ _ _)), (proj2 (fem_walk_val _ _ _ _ _ _)), !lsum_bares.
    unfold held_cells. apply (part_sum _ (fun x => pl_held _ x (owner a)) grid
      (fun cf => rpart (bare P (fst cf), snd cf) a)).
    intros x Ix Hx. apply rpart_none. now apply F.
Qed.

Lemma reference_sum : forall np N con g start grid sol, (0 < np)%nat ->
  (reference_parallel d P diffusion source neumann (by_sum N np) np N con g start grid sol <->
   fem_solution d P diffusion source neumann N con g start (flat_map (fun r => held_cells _ r grid) (seq 0 np)) sol).
Proof.
  intros np N con g start grid sol NP. unfold reference_parallel.
  rewrite (sum_bvp N con np (fun r => fst (reference_part d P diffusion source neumann r grid))
    (fun r => snd (reference_part d P diffusion source neumann r grid)) g start sol NP).
  unfold fem_solution. rewrite fem_bvp.
  apply solves_bvp_ext.
  - intros a b _ _ _. rewrite (proj1 (fem_walk_val _ _ _ _ _ _)), lsum_bares, lsum_flat_map, lsum_seq.
    apply rsum_ext. intros r _. unfold reference_part. now rewrite (proj1 (fem_walk_val _ _ _ _ _ _)), lsum_bares.
  - intros a _ _. rewrite (proj2 (fem_walk_val _ _ _ _ _ _)), lsum_bares, lsum_flat_map, lsum_seq.
    apply rsum_ext. intros r _. unfold reference_part. now rewrite (proj2 (fem_walk_val _ _ _ _ _ _)), lsum_bares.
Qed.
End P.

(** Cells sharing a corner are near. *)
Lemma corner_bounds : forall cs js, In js (corners cs) -> Forall2 (fun c j => (c <= j <= S c)%nat) cs js.
Proof.
  induction cs as [|c cs IH]; intros js I; simpl in I.
  - destruct I as [<-|[]]. constructor.
  - apply in_app_or in I. destruct I as [I|I]; apply in_map_iff in I; destruct I as (t & <- & I);
      (constructor; [lia|now apply IH]).
Qed.
Lemma shared_near : forall cs cs' js, In js (corners cs) -> In js (corners cs') -> near cs cs'.
Proof.
  intros cs cs' js I I'. apply corner_bounds in I, I'. unfold near. revert cs' I'.
  induction I as [|c j cs js B I IH]; intros cs' I'; inversion I'; subst; constructor; auto. lia.
Qed.
