(** Theorems about bounds for the coarse matrix: C119. *)
From Coq Require Import Reals List Arith Bool Lra Lia.
From Verif Require Import Util RSum BoundaryModel CoarseModel CoarseSpec LinModel LinSpec LinProofs.
From Verif Require Import SystemModel SystemSpec SystemProofs QuadModel PatchSpec PatchProofs PatchProps SolveSpec SolveProofs SolveProps.
From Verif Require Import FemModel EnergySpec EnergyProofs LayerSpec LayerProofs LayerProps WholeProps MaxSpec MaxProofs MaxProps BoundsSpec BoundsProofs.
Import ListNotations.
Open Scope R_scope.

Lemma average_bsum : forall d o p F, sound d p ->
  INR (length (cells (pa_cells p))) * average d o p F = bsum (pa_cells p) (line_rule (gauss_points o)) (fun f xs => F (pa_global p f xs)).
Proof.
  intros d o p F (Lc & _ & _ & Fc & _). pose proof (cells_some _ Fc). unfold average, bsum, cube_rule. rewrite Lc. field. lra.
Qed.

(** The matrix of the coarse problem on a linear function with gradient [g]:
    without oversampling and with all outer nodes of the local grids constrained,
    its energy is at most what the mean of the diffusion would give, and not
    less than what the mean of the inverse would give ([b cs y] is the inverse
    applied to [s cs], which can be chosen freely). *)
Theorem C119_matrix_between_means :
  forall ns hs num n diffusion order rhs_order o pa rquad x fs source neumann M V ss v u,
  length hs = length ns -> Forall (Rlt 0) hs -> length ss = length ns -> numbering ns num n ->
  (forall y, symmetric_nonnegative (length ns) (diffusion y)) ->
  (2 <= gauss_points order <= 3)%nat -> (2 <= gauss_points o <= 3)%nat ->
  (forall cs, In cs (cells ns) -> no_oversampling hs (pa cs) /\
     same_energies (length ns) [order; rhs_order; o] diffusion (pa cs) /\
     corrected hs num diffusion order rhs_order (pa cs) cs (x cs)) ->
  linear ss v -> (forall js, node ns js -> u (num js) = v js) ->
  walk (length ns) (list R) diffusion source neumann (fun _ _ => 0) (fun _ => 0)
    (patched ns hs num pa (line_rule (gauss_points o)) rquad x fs) = Some (M, V) ->
  let d := length ns in
  let g := fun k => nth k ss 0 / nth k hs 1 in
  qform n M u <= lsum (cells ns) (fun cs => volume hs * average d o (pa cs) (fun y => dot d (mv d (diffusion y) g) g)) /\
  forall s b, (forall cs y k, In cs (cells ns) -> (k < d)%nat -> mv d (diffusion y) (b cs y) k = s cs k) ->
    lsum (cells ns) (fun cs => volume hs * (2 * dot d (s cs) g - average d o (pa cs) (fun y => dot d (s cs) (b cs y)))) <=
    qform n M u.
Proof.
  intros ns hs num n diffusion order rhs_order o pa rquad x fs source neumann M V ss v u Lh Fh Ls Nu Sn Og Oo H Lv Uv W d g.
  assert (Hp : forall cs, In cs (cells ns) -> sound (length ns) (pa cs) /\ forall f, pa_inside (pa cs) f = true).
  { intros cs I. destruct (H cs I) as ((So & _ & In_ & _) & _). rewrite Lh in So. auto. }
  rewrite (coarse_form ns hs num n diffusion o pa rquad x fs source neumann M V ss v u) by auto. fold d. fold g. split.
  - apply lsum_le. intros cs I. destruct (H cs I) as ((So & Fi & In_ & Oc) & Se & Co).
    rewrite <- (fills_volume hs (pa cs) So Fi). rewrite Lh in So. fold d in So.
    rewrite (Rmult_comm (INR _)), Rmult_assoc, (average_bsum d o) by auto.
    eapply Rle_trans; [apply (cell_minimal ns hs num n diffusion order rhs_order o (pa cs) cs (x cs) u ss) with (v := v) (z := fun _ => 0); auto|].
    { intros i _ _. reflexivity. }
    fold d. fold g. apply Req_le. unfold cell_form. f_equal. apply bsum_ext. intros f xs If Lx.
    assert (Z : forall k, sloped d g (pa cs) (nodal (pa_num (pa cs)) (fun _ => 0)) f xs k = g k).
    { intros k. unfold sloped. unfold nodal. rewrite grad_zero. ring. }
    apply dot_ext; auto. intros k Lk. apply mv_ext. auto.
  - intros s b B. apply lsum_le. intros cs I. destruct (H cs I) as ((So & Fi & In_ & Oc) & Se & Co).
    rewrite <- (fills_volume hs (pa cs) So Fi). rewrite Lh in So. fold d in So.
    eapply Rle_trans; [|apply (cell_lower d o diffusion g (pa cs) _ (s cs) (b cs)); auto].
    + rewrite <- (average_bsum d o (pa cs) (fun y => dot d (s cs) (b cs y))) by auto. apply Req_le. ring.
    + intros js Nj Oj. unfold added_part. apply (added_vanishes hs num diffusion order rhs_order (pa cs) cs (x cs) u); auto.
      * now apply So.
      * rewrite Oc by auto. exact Oj.
Qed.
Print Assumptions C119_matrix_between_means.

(** Diagonal diffusion: in every coarse cell and every direction the matrix acts
    like a diffusion between the harmonic and the arithmetic mean. *)
Theorem C119_between_harmonic_and_arithmetic_mean :
  forall ns hs num n diffusion order rhs_order o pa rquad x fs source neumann M V ss v u,
  length hs = length ns -> Forall (Rlt 0) hs -> length ss = length ns -> numbering ns num n ->
  (forall y i j, (i < length ns)%nat -> (j < length ns)%nat -> if Nat.eqb i j then 0 < diffusion y i j else diffusion y i j = 0) ->
  (2 <= gauss_points order <= 3)%nat -> (2 <= gauss_points o <= 3)%nat ->
  (forall cs, In cs (cells ns) -> no_oversampling hs (pa cs) /\
     same_energies (length ns) [order; rhs_order; o] diffusion (pa cs) /\
     corrected hs num diffusion order rhs_order (pa cs) cs (x cs)) ->
  linear ss v -> (forall js, node ns js -> u (num js) = v js) ->
  walk (length ns) (list R) diffusion source neumann (fun _ _ => 0) (fun _ => 0)
    (patched ns hs num pa (line_rule (gauss_points o)) rquad x fs) = Some (M, V) ->
  let d := length ns in
  let g := fun k => nth k ss 0 / nth k hs 1 in
  lsum (cells ns) (fun cs => volume hs * rsum d (fun k => g k * g k / average d o (pa cs) (fun y => / diffusion y k k))) <=
  qform n M u <=
  lsum (cells ns) (fun cs => volume hs * rsum d (fun k => g k * g k * average d o (pa cs) (fun y => diffusion y k k))).
Proof.
  intros ns hs num n diffusion order rhs_order o pa rquad x fs source neumann M V ss v u Lh Fh Ls Nu Dg Og Oo H Lv Uv W d g.
  assert (Mv : forall y w k, (k < d)%nat -> mv d (diffusion y) w k = diffusion y k k * w k).
  { intros y w k Lk. unfold mv. rewrite (rsum_single d k); auto. intros j Lj D. specialize (Dg y k j Lk Lj).
    destruct (Nat.eqb_spec k j); [congruence|]. rewrite Dg. ring. }
  assert (Pd : forall y k, (k < d)%nat -> 0 < diffusion y k k).
  { intros y k Lk. specialize (Dg y k k Lk Lk). now rewrite Nat.eqb_refl in Dg. }
  assert (Sn : forall y, symmetric_nonnegative (length ns) (diffusion y)).
  { intros y. split.
    - intros i j Li Lj. pose proof (Dg y i j Li Lj) as D1. pose proof (Dg y j i Lj Li) as D2. rewrite Nat.eqb_sym in D2.
      destruct (Nat.eqb_spec i j); [now subst|congruence].
    - intros z. unfold dot. apply rsum_nonneg. intros k Lk. fold d. rewrite Mv by auto. pose proof (Pd y k Lk).
      rewrite Rmult_assoc. apply Rmult_le_pos; [lra|]. apply Rle_0_sqr. }
  destruct (C119_matrix_between_means ns hs num n diffusion order rhs_order o pa rquad x fs source neumann M V ss v u) as (Up & Lo); auto.
  fold d in Up, Lo. fold g in Up, Lo. split.
  - pose (s := fun cs k => g k / average d o (pa cs) (fun y => / diffusion y k k)).
    specialize (Lo s (fun cs y k => s cs k / diffusion y k k)).
    eapply Rle_trans; [|apply Lo].
    + apply lsum_le. intros cs I. destruct (H cs I) as ((So & Fi & In_ & Oc) & _). rewrite Lh in So. fold d in So.
      pose proof So as (Lc & Le & Ll & Fc & Fe & Np). pose proof (cells_some _ Fc) as Nc.
      apply Req_le. f_equal.
      assert (Av : average d o (pa cs) (fun y => dot d (s cs) (fun k => s cs k / diffusion y k k)) =
        rsum d (fun k => s cs k * s cs k * average d o (pa cs) (fun y => / diffusion y k k))).
      { apply (Rmult_eq_reg_l (INR (length (cells (pa_cells (pa cs)))))); [|lra]. rewrite average_bsum by auto.
        unfold dot. rewrite bsum_rsum, <- rsum_scale. apply rsum_ext. intros k Lk.
        rewrite <- Rmult_assoc, (Rmult_comm (INR _)), Rmult_assoc, average_bsum by auto. rewrite <- bsum_scale.
        apply bsum_ext. intros. unfold Rdiv. ring. }
      rewrite Av. unfold dot. rewrite <- rsum_scale, <- rsum_minus. apply rsum_ext. intros k Lk. unfold s.
      assert (Ap : 0 < average d o (pa cs) (fun y => / diffusion y k k)).
      { apply (Rmult_lt_reg_l (INR (length (cells (pa_cells (pa cs)))))); [lra|]. rewrite Rmult_0_r, average_bsum by auto.
        unfold bsum. apply lsum_pos.
        - intros E. rewrite E in Nc. cbn in Nc. lra.
        - intros f If. destruct (gauss_two _ Oo) as (Fw & x1 & w1 & _ & _ & I1 & _).
          apply lsum_pos.
          + intros E. clear -E I1. revert E. generalize (line_rule (gauss_points o)) I1. intros l Il.
            induction (length (pa_cells (pa cs))) as [|m IHm]; cbn [product_rule]; [discriminate|].
            intros E. destruct (product_rule l m) as [|q r]; [now apply IHm|].
            apply in_split in Il. destruct Il as (l1 & l2 & ->). rewrite flat_map_app in E. apply app_eq_nil in E. destruct E as (_ & E). discriminate.
          + intros q J. apply Rmult_lt_0_compat; [now apply (rule_positive _ _ _ Fw J)|]. apply Rinv_0_lt_compat. auto. }
      field. lra.
    + intros cs y k _ Lk. rewrite Mv by auto. pose proof (Pd y k Lk). field. lra.
  - eapply Rle_trans; [exact Up|]. apply lsum_le. intros cs I. apply Req_le. f_equal.
    destruct (H cs I) as ((So & _) & _). rewrite Lh in So. fold d in So.
    pose proof So as (Lc & Le & Ll & Fc & Fe & Np). pose proof (cells_some _ Fc) as Nc.
    apply (Rmult_eq_reg_l (INR (length (cells (pa_cells (pa cs)))))); [|lra]. rewrite average_bsum by auto.
    rewrite <- rsum_scale. unfold dot. rewrite bsum_rsum. apply rsum_ext. intros k Lk.
    rewrite <- Rmult_assoc, (Rmult_comm (INR _)), Rmult_assoc, average_bsum by auto. rewrite <- bsum_scale.
    apply bsum_ext. intros. rewrite Mv by auto. ring.
Qed.
Print Assumptions C119_between_harmonic_and_arithmetic_mean.

(** More diffusion never lowers the matrix on linear functions, whatever nodes
    of the local grids are constrained. *)
Theorem C119_matrix_grows_with_the_diffusion :
  forall ns hs num n diffusion diffusion' order rhs_order o pa rquad x x' fs source neumann M V M' V' ss v u,
  length hs = length ns -> Forall (Rlt 0) hs -> length ss = length ns -> numbering ns num n ->
  (forall y, symmetric_nonnegative (length ns) (diffusion y)) ->
  (forall y z, dot (length ns) (mv (length ns) (diffusion y) z) z <= dot (length ns) (mv (length ns) (diffusion' y) z) z) ->
  (2 <= gauss_points order <= 3)%nat -> (2 <= gauss_points o <= 3)%nat ->
  (forall cs, In cs (cells ns) -> sound (length ns) (pa cs) /\ (forall f, pa_inside (pa cs) f = true) /\
     same_energies (length ns) [order; rhs_order; o] diffusion (pa cs) /\
     corrected hs num diffusion order rhs_order (pa cs) cs (x cs) /\
     corrected hs num diffusion' order rhs_order (pa cs) cs (x' cs)) ->
  linear ss v -> (forall js, node ns js -> u (num js) = v js) ->
  walk (length ns) (list R) diffusion source neumann (fun _ _ => 0) (fun _ => 0)
    (patched ns hs num pa (line_rule (gauss_points o)) rquad x fs) = Some (M, V) ->
  walk (length ns) (list R) diffusion' source neumann (fun _ _ => 0) (fun _ => 0)
    (patched ns hs num pa (line_rule (gauss_points o)) rquad x' fs) = Some (M', V') ->
  qform n M u <= qform n M' u.
Proof.
  intros ns hs num n diffusion diffusion' order rhs_order o pa rquad x x' fs source neumann M V M' V' ss v u Lh Fh Ls Nu Sn Le_ Og Oo H Lv Uv W W'.
  assert (Hp : forall cs, In cs (cells ns) -> sound (length ns) (pa cs) /\ forall f, pa_inside (pa cs) f = true).
  { intros cs I. destruct (H cs I) as (So & In_ & _). auto. }
  rewrite (coarse_form ns hs num n diffusion o pa rquad x fs source neumann M V ss v u) by auto.
  rewrite (coarse_form ns hs num n diffusion' o pa rquad x' fs source neumann M' V' ss v u) by auto.
  apply lsum_le. intros cs I. destruct (H cs I) as (So & In_ & Se & Co & Co').
  set (z := fun i => rsum (length (corners cs)) (fun m => u (num (nth m (corners cs) [])) * x' cs m i)).
  eapply Rle_trans; [apply (cell_minimal ns hs num n diffusion order rhs_order o (pa cs) cs (x cs) u ss) with (v := v) (z := z); auto|].
  { intros i Li Ci. apply (added_vanishes hs num diffusion' order rhs_order (pa cs)); auto. }
  change (nodal (pa_num (pa cs)) z) with (added_part num (pa cs) cs (x' cs) u).
  unfold cell_form. destruct So as (_ & _ & _ & _ & Fe & _). apply Rmult_le_compat_l; [apply Rlt_le; now apply volume_pos|].
  apply bsum_le; [now apply gauss_positive|]. intros. apply Le_.
Qed.
Print Assumptions C119_matrix_grows_with_the_diffusion.

(** The quadratures agree for matrices that are constant inside the fine cells,
    and always if all orders mean the same rule. *)
Theorem C119_quadratures_agree : forall d os diffusion p,
  (exists A, sound d p /\ cell_tensor p diffusion A /\ forall o, In o os -> (2 <= o <= 5)%nat) \/
  (exists m, forall o, In o os -> gauss_points o = m) ->
  same_energies d os diffusion p.
Proof.
  intros d os diffusion p [(A & So & Ct & Ho)|(m & Hm)].
  - now apply (tensor_energies d os diffusion p A).
  - intros o o' y z I I'. unfold patch_points, grid_points, cube_rule. now rewrite (Hm o I), (Hm o' I').
Qed.
Print Assumptions C119_quadratures_agree.

(** 2 x 2 coarse cells, each divided into 2 x 2 boxes; the diffusion is 1 in the
    left and 3 in the right half of every coarse cell.  On the function x the
    matrix has an energy between 3/2 and 2. *)
Definition stripe (t : R) : R := if Rlt_dec t (1/4) then 1 else if Rlt_dec t (1/2) then 3 else if Rlt_dec t (3/4) then 1 else 3.
Definition stripes (x : list R) : nat -> nat -> R := crossed (fun _ => match x with t :: _ => stripe t | [] => 1 end).
Lemma stripe_positive : forall t, 0 < stripe t.
Proof. intros t. unfold stripe. repeat destruct (Rlt_dec _ _); lra. Qed.
Lemma stripes_positive : forall x, positive 2 (stripes x).
Proof. intros x. apply crossed_positive. intros _ _. destruct x; [lra|apply stripe_positive]. Qed.
Definition halves (f : list nat) : R := match f with [0; _]%nat => 1 | _ => 3 end.
Lemma stripes_halves : forall cs f xs k, In cs (cells [2; 2]%nat) -> In f (cells [2; 2]%nat) -> length xs = 2%nat -> Forall (fun x => 0 < x < 1) xs ->
  stripes (pa_global (exact_patch outer9 cs) f xs) k k = halves f.
Proof.
  intros cs f xs k I If L F. destruct xs as [|s [|t [|? ?]]]; try discriminate.
  apply Forall_cons_iff in F. destruct F as (Hx & _). unfold stripes, crossed. rewrite Nat.eqb_refl.
  cbn in I, If. repeat (destruct I as [<-|I]; [repeat (destruct If as [<-|If]; [cbn; unfold stripe; repeat destruct (Rlt_dec _ _); first [reflexivity|exfalso; lra]|]); destruct If|]). destruct I.
Qed.
Example C119_case : exists x M V,
  (forall cs, In cs (cells [2; 2]%nat) -> corrected half num3 stripes 2 3 (exact_patch outer9 cs) cs (x cs)) /\
  walk 2 (list R) stripes (fun _ => 0) (fun _ => 0) (fun _ _ => 0) (fun _ => 0)
    (patched [2; 2]%nat half num3 (exact_patch outer9) (line_rule 3) (fun _ _ => []) x (fun _ => [])) = Some (M, V) /\
  3/2 <= qform 9 M (fun i => INR (i mod 3) / 2) <= 2.
Proof.
  assert (E : exists x, forall cs, In cs (cells [2; 2]%nat) -> corrected half num3 stripes 2 3 (exact_patch outer9 cs) cs (x cs)).
  { apply (choose_cells [2; 2]%nat (fun cs x => corrected half num3 stripes 2 3 (exact_patch outer9 cs) cs x)). intros cs I. apply patch_corrected; auto using exact_sound, stripes_positive; cbn; lia. }
  destruct E as (x & X).
  assert (W : exists r, walk 2 (list R) stripes (fun _ => 0) (fun _ => 0) (fun _ _ => 0) (fun _ => 0)
    (patched [2; 2]%nat half num3 (exact_patch outer9) (line_rule 3) (fun _ _ => []) x (fun _ => [])) = Some r).
  { apply walk_some. intros c f I. destruct (patched_in _ _ _ _ _ _ _ _ _ _ I) as (cs & J & -> & _). reflexivity. }
  destruct W as ((M, V) & W). exists x, M, V. split; [exact X|split; [exact W|]].
  pose proof (C119_between_harmonic_and_arithmetic_mean [2; 2]%nat half num3 9 stripes 2 3 4 (exact_patch outer9) (fun _ _ => []) x (fun _ => [])
    (fun _ => 0) (fun _ => 0) M V [1/2; 0] (fun js => INR (nth 0 js 0%nat) / 2) (fun i => INR (i mod 3) / 2)) as B.
  assert (A1 : forall cs k, In cs (cells [2; 2]%nat) -> average 2 4 (exact_patch outer9 cs) (fun y => / stripes y k k) = 2/3).
  { intros cs k I. rewrite (average_cells 2 4 _ _ (fun f => / halves f)); auto using exact_sound; [|cbn; lia|].
    - cbn. lra.
    - intros f xs If L F. now rewrite stripes_halves. }
  assert (A2 : forall cs k, In cs (cells [2; 2]%nat) -> average 2 4 (exact_patch outer9 cs) (fun y => stripes y k k) = 2).
  { intros cs k I. rewrite (average_cells 2 4 _ _ halves); auto using exact_sound; [|cbn; lia|].
    - cbn. lra.
    - intros f xs If L F. now rewrite stripes_halves. }
  cbv zeta in B. change (length [2; 2]%nat) with 2%nat in B.
  rewrite (lsum_ext _ (cells [2; 2]%nat) _ (fun _ => 3/8)) in B.
  2:{ intros cs I. cbn [rsum]. rewrite !A1 by auto. unfold half. cbn [nth volume fold_right]. field. }
  rewrite (lsum_ext _ (cells [2; 2]%nat) (fun cs => _ * rsum 2 (fun k => _ * average _ _ _ _)) (fun _ => 1/2)) in B.
  2:{ intros cs I. cbn [rsum]. rewrite !A2 by auto. unfold half. cbn [nth volume fold_right]. field. }
  cbn [cells seq flat_map map app lsum] in B. 
  assert (Q : 3 / 8 + (3 / 8 + (3 / 8 + (3 / 8 + 0))) <= qform 9 M (fun i => INR (i mod 3) / 2) <= 1 / 2 + (1 / 2 + (1 / 2 + (1 / 2 + 0)))); [|lra].
  apply B; auto using half_pos, num3_numbering; try (cbn; lia); clear B.
  - intros y i j _ _. unfold stripes, crossed. destruct (Nat.eqb i j); [|reflexivity]. destruct y; [lra|apply stripe_positive].
  - intros cs I. split; [|split; [|now apply X]].
    + split; [apply exact_sound|]. split; [|split; [reflexivity|]].
      * intros k L. destruct k as [|[|k]]; [| |cbn in L; lia]; cbn; lra.
      * intros js Nj. inversion Nj as [|a ? ? ? La T]; subst. inversion T as [|b ? ? ? Lb T']; subst. inversion T'; subst.
        cbn [exact_patch pa_num pa_con pa_cells]. destruct a as [|[|[|a]]]; [| | |lia]; (destruct b as [|[|[|b]]]; [| | |lia]); reflexivity.
    + apply C119_quadratures_agree. left. exists (fun f => crossed (fun _ => halves f)). split; [apply exact_sound|]. split.
      * intros f xs i j If L F Li Lj. unfold crossed. destruct (Nat.eqb_spec i j) as [->|N].
        -- now apply stripes_halves.
        -- unfold stripes, crossed. destruct (Nat.eqb_spec i j); [congruence|reflexivity].
      * intros o [<-|[<-|[<-|[]]]]; lia.
  - cbn [linear]. split; [split; [exact I|]|]; intros; cbn [nth]; [cbn; lra|]. cbn [INR]. lra.
  - intros js Nj. inversion Nj as [|a ? ? ? La T]; subst. inversion T as [|b ? ? ? Lb T']; subst. inversion T'; subst.
    cbn [num3 nth]. f_equal. f_equal. rewrite (Nat.mul_comm 3). rewrite Nat.mod_add by lia. apply Nat.mod_small. lia.
Qed.
