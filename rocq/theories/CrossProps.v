(** C135: the multiscale solution on the faces of coarse cells. *)
From Coq Require Import Reals List Arith Bool Lra Lia.
From Verif Require Import Util RSum SpeModel BoundaryModel BoundarySpec BoundaryProofs LinModel LinSpec QuadModel QuadProps.
From Verif Require Import CoarseModel CoarseSpec SystemModel SystemSpec FemModel FemSpec EnergySpec PatchSpec PatchProofs PatchProps.
From Verif Require Import SolveSpec SolveProofs SolveProps LayerSpec LayerProofs LayerProps WholeSpec WholeProofs WholeProps.
From Verif Require Import StrataSpec StrataProofs StrataProps CrossSpec CrossProofs.
From Verif Require MaxProofs MaxProps BoundsProps.
Import ListNotations.
Open Scope R_scope.

(** At the outer nodes of its local grid the multiscale function of a coarse cell
    is the coarse function.  Neither the correctors of the corner functions nor
    the boundary correctors change it there. *)
Theorem C135_faces_are_not_corrected :
  forall ns hs num n con pa diffusion order rhs_order line rquad extra fs source neumann g x u cs js,
  ns <> [] -> length hs = length ns -> numbering ns num n -> (2 <= gauss_points order <= 3)%nat -> In cs (cells ns) ->
  sound (length ns) (pa cs) -> outer_constrained (pa_cells (pa cs)) (pa_num (pa cs)) (pa_con (pa cs)) ->
  result ns hs num n con pa diffusion order rhs_order line rquad extra fs source neumann g x u ->
  node (pa_cells (pa cs)) js -> outer_node (pa_cells (pa cs)) js = true ->
  multiscale_node hs num (pa cs) cs (x cs) u js = restricted hs (pa cs) (fun js' => u (num js')) cs js.
Proof.
  intros ns hs num n con pa diffusion order rhs_order line rquad extra fs source neumann g x u cs js Ne Lh Nu Or I Sn Co Rs N O.
  eapply (uncorrected_node ns hs num n Lh Nu Ne); [exact Or|auto|auto|exact Rs|auto|now rewrite Co].
Qed.
Print Assumptions C135_faces_are_not_corrected.

(** Along a face it is straight, whatever the diffusion does there: for any
    three equally spaced outer nodes on a line parallel to an axis, the error
    against any function [r] is at one of them a quarter of the second
    difference of [r] at least. *)
Theorem C135_straight_on_faces :
  forall ns hs num n con pa diffusion order rhs_order line rquad extra fs source neumann g x u cs k m js1 js2 js3,
  ns <> [] -> length hs = length ns -> numbering ns num n -> (2 <= gauss_points order <= 3)%nat -> In cs (cells ns) ->
  sound (length ns) (pa cs) -> outer_constrained (pa_cells (pa cs)) (pa_num (pa cs)) (pa_con (pa cs)) ->
  result ns hs num n con pa diffusion order rhs_order line rquad extra fs source neumann g x u ->
  (k < length ns)%nat -> ahead k m js1 js2 -> ahead k m js2 js3 ->
  (forall js, In js [js1; js2; js3] -> node (pa_cells (pa cs)) js /\ outer_node (pa_cells (pa cs)) js = true) ->
  let U := multiscale_node hs num (pa cs) cs (x cs) u in
  U js1 + U js3 = 2 * U js2 /\
  forall r : list nat -> R, Rabs (r js1 - 2 * r js2 + r js3) / 4 <= worst (U js1 - r js1) (U js2 - r js2) (U js3 - r js3).
Proof.
  intros ns hs num n con pa diffusion order rhs_order line rquad extra fs source neumann g x u cs k m js1 js2 js3
    Ne Lh Nu Or I Sn Co Rs Lk A1 A2 N U.
  assert (E : U js1 + U js3 = 2 * U js2).
  { unfold U. pose proof (N js1 ltac:(cbn; auto)) as (N1 & O1). pose proof (N js2 ltac:(cbn; auto)) as (N2 & O2).
    pose proof (N js3 ltac:(cbn; auto)) as (N3 & O3).
    rewrite (C135_faces_are_not_corrected ns hs num n con pa diffusion order rhs_order line rquad extra fs source neumann g x u cs js1) by auto.
    rewrite (C135_faces_are_not_corrected ns hs num n con pa diffusion order rhs_order line rquad extra fs source neumann g x u cs js2) by auto.
    rewrite (C135_faces_are_not_corrected ns hs num n con pa diffusion order rhs_order line rquad extra fs source neumann g x u cs js3) by auto.
    apply (restricted_line ns hs Lh) with (k := k) (m := m); auto.
    destruct Sn as (Lc & _). rewrite <- Lc. unfold node in N1. clear -N1. induction N1; cbn; auto. }
  split; auto. intros r. now apply off_line.
Qed.
Print Assumptions C135_straight_on_faces.

(** With layers across a direction, no source and the values of the flow across
    the layers on the boundary, the reference solution is this flow: the same
    flux in all layers. *)
Theorem C135_reference_solution_across_layers :
  forall ns hs num n con diffusion global line rquad fs source neumann g start k a q w u,
  length hs = length ns -> Forall (fun m => (0 < m)%nat) ns -> Forall (Rlt 0) hs ->
  numbering ns num n -> outer_constrained ns num con -> two_points line -> Forall (fun p => 0 < fst p < 1) line ->
  (forall y, positive (length ns) (diffusion y)) -> (k < length ns)%nat -> layers ns global diffusion k a ->
  (forall c, (c < nth k ns 0)%nat -> a c * (w (S c) - w c) = q) -> (forall y, source y = 0) ->
  (forall cs f, In cs (cells ns) -> In f (fs cs) -> cf_neumann _ f = false) ->
  (forall js, node ns js -> outer_node ns js = true -> g (num js) = w (nth k js 0%nat)) ->
  fem_solution (length ns) (list R) diffusion source neumann n con g start
    (fine_boxes ns hs num global (product_rule line (length ns)) rquad fs) u ->
  forall js, node ns js -> u (num js) = w (nth k js 0%nat).
Proof.
  intros ns hs num n con diffusion global line rquad fs source neumann g start k a q w u
    Lh Fn Fh Nu Con Tp Op Po Lk La Fl So Nf Gv S js N.
  destruct (nodal_values ns num n (fun js => w (nth k js 0%nat)) Nu) as (y & Y).
  pose proof (across_reference ns hs num n con diffusion global line rquad fs source neumann g start k a q w y Lh Nu Con Op Lk La Fl So Nf Gv Y) as T.
  rewrite <- (Y js N).
  apply (C110_reference_solution_exists_once ns hs num n diffusion global line rquad fs con source neumann g start); auto.
  - apply (some_outer ns num); auto. intros ->. cbn in Lk. lia.
  - now apply Nu.
Qed.
Print Assumptions C135_reference_solution_across_layers.

(** Without oversampling the multiscale solution misses this flow: on the faces
    of every coarse cell it is off by a quarter of the flux times the difference
    of the resistances of neighbouring packets of [m] layers.  This holds for
    every choice of coarse values, quadratures, boundary data of the coarse
    grid and boundary correctors, however fine the local grids are.  Every
    coarse cell is divided into [ms] cells, the fine grid has all of them. *)
Theorem C135_flow_across_layers_is_missed :
  forall ns hs num n con ms pa diffusion order rhs_order line rquad extra fs source neumann g x u
    fhs fnum fn fcon global fline frquad ffs fg start k a q w v cs m js1 js2 js3,
  let fns := map (fun p => fst p * snd p)%nat (combine ns ms) in
  (* the multiscale solution *)
  length hs = length ns -> numbering ns num n -> (2 <= gauss_points order <= 3)%nat -> In cs (cells ns) ->
  sound (length ns) (pa cs) -> pa_cells (pa cs) = ms ->
  outer_constrained (pa_cells (pa cs)) (pa_num (pa cs)) (pa_con (pa cs)) ->
  result ns hs num n con pa diffusion order rhs_order line rquad extra fs source neumann g x u ->
  (* the reference solution *)
  length fhs = length ns -> Forall (fun l => (0 < l)%nat) fns -> Forall (Rlt 0) fhs ->
  numbering fns fnum fn -> outer_constrained fns fnum fcon -> two_points fline -> Forall (fun p => 0 < fst p < 1) fline ->
  (forall y, positive (length ns) (diffusion y)) -> (k < length ns)%nat -> layers fns global diffusion k a -> (forall c, 0 < a c) ->
  (forall c, (c < nth k fns 0)%nat -> a c * (w (S c) - w c) = q) -> (forall y, source y = 0) ->
  (forall cs f, In cs (cells fns) -> In f (ffs cs) -> cf_neumann _ f = false) ->
  (forall js, node fns js -> outer_node fns js = true -> fg (fnum js) = w (nth k js 0%nat)) ->
  fem_solution (length ns) (list R) diffusion source neumann fn fcon fg start
    (fine_boxes fns fhs fnum global (product_rule fline (length ns)) frquad ffs) v ->
  (* three nodes on a face of the coarse cell *)
  ahead k m js1 js2 -> ahead k m js2 js3 ->
  (forall js, In js [js1; js2; js3] -> node ms js /\ outer_node ms js = true) ->
  let error js := multiscale_node hs num (pa cs) cs (x cs) u js - v (fnum (fine_node ms cs js)) in
  let first := (nth k cs 0 * nth k ms 0 + nth k js1 0)%nat in
  Rabs q * Rabs (resistance a (first + m) m - resistance a first m) / 4 <= worst (error js1) (error js2) (error js3).
Proof.
  intros ns hs num n con ms pa diffusion order rhs_order line rquad extra fs source neumann g x u
    fhs fnum fn fcon global fline frquad ffs fg start k a q w v cs m js1 js2 js3 fns
    Lh Nu Or I Sn Ec Co Rs Lf Fn Fh Fnu Fco Tp Op Po Lk La Pa Fl So Nf Gv V A1 A2 N error first.
  pose proof Sn as (Lc & _). rewrite Ec in Lc.
  assert (Lfn : length fns = length ns) by (unfold fns; rewrite map_length, combine_length; lia).
  assert (Ne : ns <> []) by (intros ->; cbn in Lk; lia).
  assert (R : forall js, node ms js -> v (fnum (fine_node ms cs js)) = w (nth k (fine_node ms cs js) 0%nat)).
  { intros js Nj. apply (C135_reference_solution_across_layers fns fhs fnum fn fcon diffusion global fline frquad ffs source neumann fg start k a q w v);
      rewrite ?Lfn; auto. apply fine_node_node; auto. }
  pose proof (N js1 ltac:(cbn; auto)) as (N1 & O1). pose proof (N js2 ltac:(cbn; auto)) as (N2 & O2). pose proof (N js3 ltac:(cbn; auto)) as (N3 & O3).
  assert (Ln : forall js, node ms js -> length js = length ms) by (unfold node; intros js Nj; clear -Nj; induction Nj; cbn; auto).
  pose proof (cells_length _ _ I) as Lcs.
  assert (W : forall js, node ms js -> v (fnum (fine_node ms cs js)) = w (nth k cs 0 * nth k ms 0 + nth k js 0)%nat).
  { intros js Nj. rewrite R by auto. rewrite fine_node_nth; auto; try lia. }
  destruct (C135_straight_on_faces ns hs num n con pa diffusion order rhs_order line rquad extra fs source neumann g x u cs k m js1 js2 js3)
    as (_ & B); auto.
  { now rewrite Ec. }
  specialize (B (fun js => v (fnum (fine_node ms cs js)))). cbv beta in B. eapply Rle_trans; [|exact B].
  rewrite !W by auto. destruct A1 as (_ & _ & E1). destruct A2 as (_ & _ & E2). rewrite E2, E1. rewrite !Nat.add_assoc. fold first.
  assert (Top : (first + m + m <= nth k fns 0)%nat).
  { unfold first. assert (En : nth k fns 0%nat = (nth k ns 0 * nth k ms 0)%nat).
    { unfold fns. exact (eq_trans (map_nth (fun p => fst p * snd p)%nat (combine ns ms) (0, 0)%nat k)
        (f_equal (fun p => fst p * snd p)%nat (combine_nth ns ms k 0%nat 0%nat ltac:(lia)))). }
    rewrite En. pose proof (cells_bound ns cs k I Lk). assert (nth k js3 0 <= nth k ms 0)%nat.
    { unfold node in N3. clear -N3. revert k. induction N3; intros [|k]; cbn; auto. }
    nia. }
  assert (D1 : w (first + m)%nat - w first = q * resistance a first m).
  { apply drop. intros i Li. split; [apply Rgt_not_eq, Pa|apply Fl; lia]. }
  assert (D2 : w (first + m + m)%nat - w (first + m)%nat = q * resistance a (first + m) m).
  { apply drop. intros i Li. split; [apply Rgt_not_eq, Pa|apply Fl; lia]. }
  replace (w first - 2 * w (first + m)%nat + w (first + m + m)%nat) with (q * (resistance a (first + m) m - resistance a first m)) by lra.
  rewrite Rabs_mult. lra.
Qed.
Print Assumptions C135_flow_across_layers_is_missed.

(** * Concrete cases *)
(** 2 x 2 coarse cells, each divided into 2 x 2 fine cells; layers with
    diffusion 1, 3, 1, 3 across the first direction. *)
Definition num5 (js : list nat) : nat := match js with [a; b] => a + 5 * b | _ => 25 end.
Definition outer25 (i : nat) : bool := outer_node [4; 4]%nat [i mod 5; i / 5]%nat.
Lemma num5_split : forall a b, (a <= 4)%nat -> ((a + 5 * b) mod 5 = a /\ (a + 5 * b) / 5 = b)%nat.
Proof.
  intros a b L. rewrite (Nat.mul_comm 5). rewrite Nat.mod_add, Nat.div_add by lia. rewrite Nat.mod_small, Nat.div_small by lia. lia.
Qed.
Lemma node4 : forall js, node [4; 4]%nat js -> exists a b, js = [a; b] /\ (a <= 4)%nat /\ (b <= 4)%nat.
Proof.
  intros js N. inversion N as [|a ? js1 ? La N1]; subst. inversion N1 as [|b ? js2 ? Lb N2]; subst. inversion N2; subst. eauto.
Qed.
Lemma num5_numbering : numbering [4; 4]%nat num5 25.
Proof.
  split; [|split].
  - intros js N. destruct (node4 _ N) as (a & b & -> & La & Lb). cbn. lia.
  - intros js js' N N' E. destruct (node4 _ N) as (a & b & -> & La & Lb). destruct (node4 _ N') as (a' & b' & -> & La' & Lb').
    unfold num5 in E. assert (a = a' /\ b = b')%nat as (-> & ->) by lia. auto.
  - intros i L. exists [i mod 5; i / 5]%nat. split.
    + constructor; [|constructor; [|constructor]].
      * pose proof (Nat.mod_upper_bound i 5). lia.
      * assert (i / 5 < 5)%nat by (apply Nat.div_lt_upper_bound; lia). lia.
    + unfold num5. pose proof (Nat.div_mod i 5). lia.
Qed.
Lemma outer25_constrained : outer_constrained [4; 4]%nat num5 outer25.
Proof.
  intros js N. destruct (node4 _ N) as (a & b & -> & La & Lb). unfold num5, outer25. destruct (num5_split a b La) as (-> & ->). auto.
Qed.

Definition sixteenths (f : list nat) (x : list R) : list R := map (fun t => (INR (fst t) + snd t) / 4) (combine f x).
Definition one_three (c : nat) : R := if Nat.even c then 1 else 3.
Lemma stripes_layers : layers [4; 4]%nat sixteenths BoundsProps.stripes 0 one_three.
Proof.
  intros cs xs i I L F Li. destruct xs as [|s [|t [|? ?]]]; try discriminate L. apply Forall_cons_iff in F. destruct F as (Hx & _).
  unfold BoundsProps.stripes, MaxProps.crossed. destruct (Nat.eqb i 0); auto.
  cbn in I.
  repeat (destruct I as [<-|I]; [cbn; unfold BoundsProps.stripe, one_three; cbn [Nat.even]; repeat destruct (Rlt_dec _ _); first [reflexivity|exfalso; lra]|]).
  destruct I.
Qed.
(** The flow with flux one. *)
Definition climb (c : nat) : R := match c with 0%nat => 0 | 1%nat => 1 | 2%nat => 4/3 | 3%nat => 7/3 | _ => 8/3 end.

(** Both solutions exist; on the edge between the two lower coarse cells and the
    upper ones they differ by a sixth somewhere, whatever is prescribed at the
    coarse nodes on the boundary.  The reference solution rises by 8/3. *)
Example C135_case : forall neumann g,
  let ms := result [2; 2]%nat half num3 9 outer9 (exact_patch outer9) BoundsProps.stripes 2 3 (line_rule 2) (fun _ _ => cube_rule 2 3)
    (fun _ _ _ => 0) (fun _ => []) (fun _ => 0) neumann g in
  let ref := fem_solution 2 (list R) BoundsProps.stripes (fun _ => 0) neumann 25 outer25 (fun i => climb (i mod 5)) (fun _ => 0)
    (fine_boxes [4; 4]%nat [1/4; 1/4] num5 sixteenths (product_rule (line_rule 2) 2) (fun _ => []) (fun _ => [])) in
  (exists x u, ms x u) /\ (exists v, ref v) /\
  forall x u v, ms x u -> ref v ->
    let error j := multiscale_node half num3 (exact_patch outer9 [0; 0]%nat) [0; 0]%nat (x [0; 0]%nat) u [j; 2]%nat - v (j + 10)%nat in
    1/6 <= worst (error 0%nat) (error 1%nat) (error 2%nat).
Proof.
  intros neumann g ms ref.
  assert (Pa : forall cs, In cs (cells [2; 2]%nat) -> sound 2 (exact_patch outer9 cs) /\ pa_cells (exact_patch outer9 cs) = [2; 2]%nat /\
    pa_edges (exact_patch outer9 cs) = [1/4; 1/4] /\ (forall f, In f (cells [2; 2]%nat) -> pa_inside (exact_patch outer9 cs) f = true) /\
    outer_constrained (pa_cells (exact_patch outer9 cs)) (pa_num (exact_patch outer9 cs)) (pa_con (exact_patch outer9 cs))).
  { intros cs I. split; [apply exact_sound|]. split; [auto|]. split; [auto|]. split; [auto|]. apply outer9_constrained. }
  assert (Q4 : Forall (Rlt 0) [1/4; 1/4]) by (repeat constructor; lra).
  assert (N4 : Forall (fun l => (0 < l)%nat) [4; 4]%nat) by (repeat constructor; lia).
  split; [|split].
  - destruct (local_exist [2; 2]%nat half num3 (exact_patch outer9) BoundsProps.stripes 2 3 (fun _ _ _ => 0)) as (x & X);
      auto using BoundsProps.stripes_positive; try (cbn; lia).
    { intros cs I. split; [apply exact_sound|]. exists 0%nat. split; [cbn; lia|reflexivity]. }
    destruct (patched_one [2; 2]%nat half num3 9 outer9 [2; 2]%nat [1/4; 1/4] (exact_patch outer9) BoundsProps.stripes 2 3 (line_rule 2)
      (fun _ _ => cube_rule 2 3) (fun _ => []) (fun _ => 0) neumann g x)
      as ((u & U) & _); auto using twos, half_pos, num3_numbering, two_gauss, BoundsProps.stripes_positive.
    + exists 0%nat. split; [lia|reflexivity].
    + intros cs I. now apply X.
    + exists x, u. split; auto.
  - destruct (C110_reference_solution_exists_once [4; 4]%nat [1/4; 1/4] num5 25 BoundsProps.stripes sixteenths (line_rule 2) (fun _ => []) (fun _ => [])
      outer25 (fun _ => 0) neumann (fun i => climb (i mod 5)) (fun _ => 0)) as (Ex & _); auto using num5_numbering, two_gauss, BoundsProps.stripes_positive.
    exists 0%nat. split; [lia|reflexivity].
  - intros x u v M V error.
    pose proof (C135_flow_across_layers_is_missed [2; 2]%nat half num3 9 outer9 [2; 2]%nat (exact_patch outer9) BoundsProps.stripes 2 3 (line_rule 2)
      (fun _ _ => cube_rule 2 3) (fun _ _ _ => 0) (fun _ => []) (fun _ => 0) neumann g x u
      [1/4; 1/4] num5 25 outer25 sixteenths (line_rule 2) (fun _ => []) (fun _ => []) (fun i => climb (i mod 5)) (fun _ => 0) 0 one_three 1 climb v
      [0; 0]%nat 1 [0; 2]%nat [1; 2]%nat [2; 2]%nat) as B.
    cbv zeta in B. eapply Rle_trans; [|apply B; clear B].
    + unfold resistance, one_three. cbn [rsum nth Nat.mul Nat.add Nat.even]. rewrite Rabs_R1, Rabs_left by lra. lra.
    + reflexivity.
    + apply num3_numbering.
    + cbn. lia.
    + cbn. auto.
    + apply exact_sound.
    + reflexivity.
    + apply outer9_constrained.
    + exact M.
    + reflexivity.
    + exact N4.
    + exact Q4.
    + apply num5_numbering.
    + apply outer25_constrained.
    + apply two_gauss.
    + apply MaxProofs.gauss_inside.
    + apply BoundsProps.stripes_positive.
    + cbn. lia.
    + apply stripes_layers.
    + intros c. unfold one_three. destruct (Nat.even c); lra.
    + intros c L. cbn in L. destruct c as [|[|[|[|c]]]]; [| | | |lia]; cbn; lra.
    + auto.
    + intros cs f _ [].
    + intros js N _. destruct (node4 _ N) as (a & b & -> & La & Lb). cbn [num5 nth]. now destruct (num5_split a b La) as (-> & _).
    + exact V.
    + split; [reflexivity|]. split; [|reflexivity]. intros [|[|l]] Nl; cbn; auto; congruence.
    + split; [reflexivity|]. split; [|reflexivity]. intros [|[|l]] Nl; cbn; auto; congruence.
    + intros js [<-|[<-|[<-|[]]]]; (split; [repeat constructor|reflexivity]).
Qed.
