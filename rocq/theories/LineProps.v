(** C127: on an interval the coarse system has the harmonic means, and its
    right hand side is the right one only for few sources. *)
From Coq Require Import Reals List Arith Bool Lra Lia.
From Verif Require Import Util RSum SpeModel BoundaryModel BoundarySpec BoundaryProofs LinModel LinSpec LinProofs QuadModel QuadProofs CoarseModel CoarseSpec SystemModel SystemSpec FemModel FemSpec.
From Verif Require Import PatchSpec PatchProofs SolveSpec SolveProofs SolveProps LayerSpec LayerProofs WholeSpec WholeProps LineSpec LineProofs.
Import ListNotations.
Open Scope R_scope.

(** The coarse solution is the solution of the scheme whose coefficients are the
    harmonic means of the diffusion over the coarse cells, for the right hand
    side the code assembles. *)
Theorem C127_coarse_system_has_harmonic_means : forall I u, sound_interval I ->
  (coarse_result I u <->
   (forall c, (c <= iv_n I)%nat -> iv_con I (iv_num I [c]) = true -> u (iv_num I [c]) = iv_g I (iv_num I [c])) /\
   forall v, (forall c, (c <= iv_n I)%nat -> iv_con I (iv_num I [c]) = true -> v (iv_num I [c]) = 0) ->
     rsum (iv_n I) (fun c => kappa I c / iv_H I * (v (iv_num I [S c]) - v (iv_num I [c])) * (u (iv_num I [S c]) - u (iv_num I [c]))) =
     lsum (coarse_line I) (fun cf => lsum (covered (list R) (fst cf)) (fun l => load (list R) (iv_source I) l (test_val (list R) v (fst cf) l))
       + boundary_load (list R) (iv_neumann I) (snd cf) (test_coarse (list R) v (fst cf)))).
Proof. exact line_scheme. Qed.
Print Assumptions C127_coarse_system_has_harmonic_means.

(** Difference between the coarse solution and the reference solution on the
    fine grid from one coarse node to the next. *)
Theorem C127_difference_to_the_reference : forall I start u uh, sound_interval I -> coarse_result I u -> fine_result I start uh -> exists C,
  (forall c, (c < iv_n I)%nat -> kappa I c / iv_H I * (difference_at I u uh (S c) - difference_at I u uh c) = iv_h I * mis I c - C) /\
  (~ left_constrained I \/ ~ right_constrained I -> C = 0) /\
  (left_constrained I -> difference_at I u uh 0 = 0) /\ (right_constrained I -> difference_at I u uh (iv_n I) = 0).
Proof. exact line_difference. Qed.
Print Assumptions C127_difference_to_the_reference.

(** The two agree at all coarse nodes exactly if the misplaced source is the
    same in all coarse cells, and zero if an end is free. *)
Theorem C127_agree_iff : forall I start u uh, sound_interval I -> coarse_result I u -> fine_result I start uh ->
  left_constrained I \/ right_constrained I ->
  ((forall c, (c <= iv_n I)%nat -> difference_at I u uh c = 0) <->
   (forall c, (c < iv_n I)%nat -> mis I c = mis I 0) /\ (~ left_constrained I \/ ~ right_constrained I -> mis I 0 = 0)).
Proof. exact line_exact_iff. Qed.
Print Assumptions C127_agree_iff.

(** They do without a source, without refinement, and for a constant source. *)
Theorem C127_agree : forall I start u uh, sound_interval I -> coarse_result I u -> fine_result I start uh ->
  left_constrained I \/ right_constrained I ->
  (forall y, iv_source I y = 0) \/ iv_m I = 1%nat \/ (exists y0 s0, affine_source I y0 s0 0) ->
  forall c, (c <= iv_n I)%nat -> u (iv_num I [c]) = uh (iv_numf I [(c * iv_m I)%nat]).
Proof.
  intros I start u uh S Su Sf E K c Lc.
  assert (M : forall c, (c < iv_n I)%nat -> mis I c = 0).
  { intros d Ld. destruct K as [K|[K|(y0 & s0 & K)]]; [now apply mis_zero|now apply mis_one|].
    rewrite (mis_affine I y0 s0 0 d S K Ld). field. }
  assert (Ln : (0 < iv_n I)%nat) by apply S.
  cut (difference_at I u uh c = 0); [unfold difference_at; lra|]. revert c Lc.
  apply (proj2 (line_exact_iff I start u uh S Su Sf E)). split; [|intros _; now apply M].
  intros d Ld. rewrite !M by auto. reflexivity.
Qed.
Print Assumptions C127_agree.

(** Affine source: they agree if both ends are constrained, not if one is free.
    The difference stays when the fine grid is refined. *)
Theorem C127_affine_source : forall I start u uh y0 s0 s1, sound_interval I -> coarse_result I u -> fine_result I start uh ->
  affine_source I y0 s0 s1 -> left_constrained I ->
  (right_constrained I -> forall c, (c <= iv_n I)%nat -> difference_at I u uh c = 0) /\
  (~ right_constrained I -> forall c, (c <= iv_n I)%nat -> difference_at I u uh c =
     - s1 * iv_H I ^ 3 * (1 - / INR (iv_m I)) / 12 * rsum c (fun j => / kappa I j)).
Proof.
  intros I start u uh y0 s0 s1 S Su Sf A L. assert (Ln : (0 < iv_n I)%nat) by apply S.
  assert (Lm : (0 < iv_m I)%nat) by apply S. assert (Mp : 0 < INR (iv_m I)) by now apply lt_0_INR. split.
  - intros Rc. apply (proj2 (line_exact_iff I start u uh S Su Sf (or_introl L))). split; [|tauto].
    intros c Lc. now rewrite !(mis_affine I y0 s0 s1 _ S A).
  - intros Rc c Lc. destruct (from_left I start u uh S Su Sf L) as (C & Z & D). rewrite D, Z by auto. rewrite <- rsum_scale.
    apply rsum_ext. intros j Lj. rewrite (mis_affine I y0 s0 s1 j S A) by lia. unfold iv_h.
    pose proof (kappa_pos I j S ltac:(lia)). field. lra.
Qed.
Print Assumptions C127_affine_source.

(** * Concrete case: one coarse cell of length 1 with two fine cells, diffusion 1
    and 3, source [y], value 0 at the left end, no flux at the right end.  The
    harmonic mean is 3/2, the value at the right end is by 1/36 too small. *)
Definition two_parts (y : list R) (i j : nat) : R :=
  if Nat.eqb i j then (if Rlt_dec (nth 0 y 0) (1/2) then 1 else 3) else 0.
Definition at_place (g : list nat) (t : list R) : list R := [0 + (INR (nth 0 g 0%nat) + nth 0 t 0) * (1/2)].
Definition first_node (js : list nat) : nat := nth 0 js 0%nat.
Definition one_patch (cs : list nat) : patch :=
  {| pa_cells := [2]%nat; pa_edges := [1/2]; pa_low := [0]; pa_num := first_node; pa_n := 3;
     pa_con := fun i => negb (Nat.eqb i 1); pa_inside := fun _ => true; pa_global := at_place |}.
Definition halves (source : list R -> R) (x : list nat -> nat -> nat -> R) : interval :=
  {| iv_n := 1; iv_m := 2; iv_N := 2; iv_Nf := 3; iv_H := 1; iv_num := first_node; iv_numf := first_node;
     iv_diffusion := two_parts; iv_source := source; iv_neumann := fun _ => 0;
     iv_global := at_place; iv_a := fun g => if Nat.eqb g 0 then 1 else 3;
     iv_order := 2; iv_rhs_order := 3; iv_o := 3; iv_fo := 3; iv_pa := one_patch; iv_x := x;
     iv_rq := fun _ => cube_rule 1 3; iv_rqf := fun _ => cube_rule 1 3;
     iv_nl := false; iv_nr := true; iv_left := [0]; iv_right := [1];
     iv_con := fun i => Nat.eqb i 0; iv_g := fun _ => 0; iv_conf := fun i => Nat.eqb i 0; iv_gf := fun _ => 0 |}.
Definition ramp : (list nat -> nat -> nat -> R) -> interval := halves (fun y => nth 0 y 0).

Lemma line_numbering : forall n, numbering [n] first_node (S n).
Proof.
  intros n. split; [|split].
  - intros js N. apply node_line in N. destruct N as (c & L & ->). cbn. lia.
  - intros js js' N N' E. apply node_line in N, N'. destruct N as (c & L & ->), N' as (c' & L' & ->). cbn in E. now subst.
  - intros i Li. exists [i]. split; [apply node_line; exists i; split; [lia|reflexivity]|reflexivity].
Qed.
Lemma two_parts_positive : forall y, positive 1 (two_parts y).
Proof.
  intros y z (k & Lk & Z). assert (k = 0)%nat by lia. subst. unfold dot, mv, two_parts. cbn [rsum Nat.eqb].
  assert (0 < z 0%nat * z 0%nat) by (destruct (Rlt_dec 0 (z 0%nat)); nra). destruct (Rlt_dec (nth 0 y 0) (1/2)); nra.
Qed.
Lemma sqrt3_bounds : 0 < sqrt 3 < 3.
Proof.
  split; [apply sqrt_lt_R0; lra|]. rewrite <- (sqrt_square 3) at 2 by lra. apply sqrt_lt_1; lra.
Qed.
Lemma means : forall g, (g < 2)%nat -> mean two_parts at_place (product_rule (line_rule 2) 1) g = if Nat.eqb g 0 then 1 else 3.
Proof.
  intros g L. pose proof sqrt3_bounds as B. unfold mean, two_parts, at_place. cbn [product_rule line_rule flat_map map app lsum fst snd nth Nat.eqb].
  destruct g as [|[|]]; try lia; cbn [Nat.eqb INR].
  - destruct (Rlt_dec _ _); [|lra]. destruct (Rlt_dec _ _); [|lra]. lra.
  - destruct (Rlt_dec _ _); [lra|]. destruct (Rlt_dec _ _); [lra|]. lra.
Qed.

Lemma halves_results : forall source, exists x u uh, sound_interval (halves source x) /\ coarse_result (halves source x) u /\
  fine_result (halves source x) (fun _ => 0) uh.
Proof.
  intros source.
  assert (Pn : numbering [1]%nat first_node 2) by apply (line_numbering 1).
  assert (Pf : numbering [2]%nat first_node 3) by apply (line_numbering 2).
  assert (Cp : forall js, node [2]%nat js -> negb (Nat.eqb (first_node js) 1) = outer_node [2]%nat js).
  { intros js N. apply node_line in N. destruct N as (c & L & ->). destruct c as [|[|[|]]]; try lia; reflexivity. }
  destruct (C112_exactly_one_result_without_oversampling PEr2007 none none all_dirichlet [1]%nat [1] first_node 2 (fun i => Nat.eqb i 0) [2]%nat [1/2]
    one_patch two_parts 2 3 (line_rule 2) (fun _ _ => cube_rule 1 3) (fun _ _ _ => 0) (end_faces 1 false true [0] [1])
    source (fun _ => 0) (fun _ => 0)) as ((x & u & (X & U)) & _); auto.
  - discriminate.
  - repeat constructor. lra.
  - exists 0%nat. auto.
  - intros y. apply two_parts_positive.
  - apply two_gauss.
  - intros cs _. split; [|split; [reflexivity|split; [reflexivity|split; [reflexivity|]]]].
    + repeat (split; [reflexivity|]). split; [repeat constructor|]. split; [repeat constructor; cbn; lra|exact Pf].
    + intros js N. apply node_line in N. destruct N as (c & L & ->). destruct c as [|[|[|]]]; try lia; reflexivity.
  - intros cs f q _ _ Q. now apply (rule_length _ _ _ Q).
  - destruct (C110_reference_solution_exists_once [2]%nat [1/2] first_node 3 two_parts at_place (line_rule 2) (fun _ => cube_rule 1 3)
      (end_faces 2 false true [0] [1]) (fun i => Nat.eqb i 0) source (fun _ => 0) (fun _ => 0) (fun _ => 0)) as ((uh & Uh) & _); auto.
    + repeat constructor. lra.
    + apply two_gauss.
    + intros y. apply two_parts_positive.
    + exists 0%nat. split; [lia|reflexivity].
    + assert (Hh : iv_h (halves source x) = 1/2) by (unfold iv_h; cbn; lra).
      assert (S : sound_interval (halves source x)).
      { unfold sound_interval. rewrite Hh. cbn [halves iv_n iv_m iv_N iv_Nf iv_H iv_num iv_numf iv_diffusion iv_source iv_neumann iv_global iv_a
          iv_order iv_rhs_order iv_o iv_fo iv_pa iv_x iv_rq iv_rqf iv_nl iv_nr iv_left iv_right iv_con iv_g iv_conf iv_gf].
        split; [lia|]. split; [lia|]. split; [lra|]. split; [exact Pn|]. split; [exact Pf|].
        split. { intros c Lc. assert (c = 0)%nat by lia. subst. split; [reflexivity|]. split; [reflexivity|]. split; [reflexivity|].
          split; [exact Pf|]. split; [exact Cp|]. split; [reflexivity|]. intros f y Lf. reflexivity. }
        split. { intros g Lg. split; [destruct (Nat.eqb g 0); lra|]. intros rule J. rewrite <- means by exact Lg.
          destruct J as [<-|[<-|[<-|[<-|[<-|[]]]]]]; reflexivity. }
        split. { intros c Lc. assert (c = 0)%nat by lia. subst. apply X. now left. }
        split. { intros c i Lc Hi. assert (c = 0)%nat by lia. subst. destruct (X [0]%nat) as (_ & Z); [now left|].
          specialize (Z i). cbn [corners map app length] in Z. specialize (Z ltac:(lia)). unfold local_problem, solves in Z.
          pose proof (Z 0%nat ltac:(cbn; lia)) as Z0. pose proof (Z 2%nat ltac:(cbn; lia)) as Z2. clear Z.
          unfold mv, constrain_matrix, constrain_vector in Z0, Z2. cbn in Z0, Z2. cbn. lra. }
        split. { intros g q [J|J]; now apply (rule_length _ _ _ J). }
        split; [reflexivity|].
        split. { intros c Lc. lia. }
        split. { intros c Lc. assert (c = 1)%nat by lia. now subst. }
        repeat split; reflexivity. }
      assert (Rs : coarse_result (halves source x) u) by exact U.
      assert (Rf : fine_result (halves source x) (fun _ => 0) uh) by (unfold fine_result, fine_line; rewrite Hh; exact Uh).
      exists x, u, uh. split; [exact S|]. split; [exact Rs|exact Rf].
Qed.

Example C127_case : exists x u uh, sound_interval (ramp x) /\ coarse_result (ramp x) u /\ fine_result (ramp x) (fun _ => 0) uh /\
  affine_source (ramp x) 0 0 1 /\ left_constrained (ramp x) /\ ~ right_constrained (ramp x) /\
  kappa (ramp x) 0 = 3/2 /\ u 1%nat - uh 2%nat = - (1/36).
Proof.
  destruct (halves_results (fun y => nth 0 y 0)) as (x & u & uh & S & Rs & Rf). fold (ramp x) in S, Rs, Rf.
  assert (Hh : iv_h (ramp x) = 1/2) by (unfold iv_h; cbn; lra).
  assert (A : affine_source (ramp x) 0 0 1).
  { split; [intros y; cbn; ring|]. split; [intros g t _; rewrite Hh; reflexivity|]. intros g. exists 3%nat. split; [lia|reflexivity]. }
  assert (K : kappa (ramp x) 0 = 3/2) by (unfold kappa, harmonic; cbn; field).
  exists x, u, uh. split; [exact S|]. split; [exact Rs|]. split; [exact Rf|]. split; [exact A|]. split; [reflexivity|].
  assert (F : ~ right_constrained (ramp x)) by (cbv; discriminate). split; [exact F|]. split; [exact K|].
  destruct (C127_affine_source (ramp x) (fun _ => 0) u uh 0 0 1 S Rs Rf A eq_refl) as (_ & D).
  specialize (D F 1%nat (le_n 1)). unfold difference_at in D. cbn [ramp halves iv_num iv_numf iv_m Nat.mul Nat.add first_node nth] in D.
  rewrite D. cbn [rsum]. rewrite K. cbn. field.
Qed.
