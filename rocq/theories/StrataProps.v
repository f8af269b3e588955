(** C132: linear functions whose flux does not change along the flow. *)
From Coq Require Import Reals List Arith Bool Lra Lia.
From Verif Require Import Util RSum SpeModel BoundaryModel BoundarySpec BoundaryProofs LinModel LinSpec QuadModel QuadProps.
From Verif Require Import CoarseModel CoarseSpec SystemModel SystemSpec FemModel FemSpec EnergySpec PatchSpec PatchProofs PatchProps.
From Verif Require Import SolveSpec SolveProofs SolveProps LayerSpec LayerProofs LayerProps WholeSpec WholeProofs WholeProps.
From Verif Require Import StrataSpec StrataProofs.
Import ListNotations.
Open Scope R_scope.

(** Such a function is not corrected: its correctors cancel, on local grids of
    any size around the coarse cell, for all quadratures of the right hand side. *)
Theorem C132_nothing_to_correct :
  forall ns hs ss num n diffusion order rhs_order p cs x v,
  ns <> [] -> length hs = length ns -> length ss = length ns -> Forall (Rlt 0) hs -> numbering ns num n -> In cs (cells ns) ->
  sound (length ns) p -> outer_constrained (pa_cells p) (pa_num p) (pa_con p) -> straight (pa_cells p) (pa_global p) ->
  (forall y, positive (length ns) (diffusion y)) -> (2 <= gauss_points order <= 3)%nat ->
  linear ss v -> steady (length ns) diffusion (slope ss hs) ->
  corrected hs num diffusion order rhs_order p cs x ->
  forall m, (m < pa_n p)%nat -> rsum (length (corners cs)) (fun i => v (nth i (corners cs) []) * x i m) = 0.
Proof.
  intros ns hs ss num n diffusion order rhs_order p cs x v Ne Lh Ls Fh Nu Ic So Con Sg Po Or Li St C m Lm.
  destruct (nodal_values ns num n v Nu) as (u & U).
  rewrite <- (patch_uncorrected ns hs ss num n diffusion order rhs_order p cs x v Lh Ls Fh Nu Ic So Con Ne Po Or Sg St Li u) with (m := m); auto.
  - apply rsum_ext. intros i Hi. rewrite U; auto. apply (corner_node ns cs); auto. now apply nth_In.
  - intros js J. apply U. now apply (corner_node ns cs).
Qed.
Print Assumptions C132_nothing_to_correct.

(** With its values prescribed on the boundary and no source, it is the
    reference solution, on every grid and with every quadrature ... *)
Theorem C132_reference_solution_is_linear :
  forall ns hs ss num n con diffusion global line rquad fs source neumann g start v u,
  ns <> [] -> length hs = length ns -> length ss = length ns -> Forall (fun m => (0 < m)%nat) ns -> Forall (Rlt 0) hs ->
  numbering ns num n -> outer_constrained ns num con -> two_points line -> (forall y, positive (length ns) (diffusion y)) ->
  straight ns global -> linear ss v -> steady (length ns) diffusion (slope ss hs) -> (forall y, source y = 0) ->
  (forall cs f, In cs (cells ns) -> In f (fs cs) -> cf_neumann _ f = false) ->
  (forall js, node ns js -> outer_node ns js = true -> g (num js) = v js) ->
  fem_solution (length ns) (list R) diffusion source neumann n con g start
    (fine_boxes ns hs num global (product_rule line (length ns)) rquad fs) u ->
  forall js, node ns js -> u (num js) = v js.
Proof.
  intros ns hs ss num n con diffusion global line rquad fs source neumann g start v u
    Ne Lh Ls Fn Fh Nu Con Tp Po Sg Li St So Nf Gv S js N.
  destruct (nodal_values ns num n v Nu) as (w & W).
  pose proof (linear_reference ns hs ss num n con diffusion global line rquad fs source neumann g start v w Lh Ls Nu Con Sg St Li So Nf Gv W) as T.
  rewrite <- (W js N).
  apply (C110_reference_solution_exists_once ns hs num n diffusion global line rquad fs con source neumann g start); auto.
  - now apply (some_outer ns num).
  - now apply Nu.
Qed.
Print Assumptions C132_reference_solution_is_linear.

(** ... and the multiscale solution: at the nodes of the coarse grid and, with
    all correctors, at the nodes of the local grids.  No oversampling, no
    boundary correctors; the grids need not resolve the diffusion. *)
Theorem C132_multiscale_solution_is_linear :
  forall ns hs ss num n con ms gs pa diffusion order rhs_order line rquad extra fs source neumann g x u v,
  ns <> [] -> length hs = length ns -> length ss = length ns -> Forall (fun m => (0 < m)%nat) ns -> Forall (Rlt 0) hs ->
  numbering ns num n -> outer_constrained ns num con -> two_points line -> (forall y, positive (length ns) (diffusion y)) ->
  (2 <= gauss_points order <= 3)%nat ->
  (forall cs, In cs (cells ns) -> sound (length ns) (pa cs) /\ pa_cells (pa cs) = ms /\ pa_edges (pa cs) = gs /\
     (forall f, In f (cells ms) -> pa_inside (pa cs) f = true) /\
     outer_constrained (pa_cells (pa cs)) (pa_num (pa cs)) (pa_con (pa cs)) /\
     straight (pa_cells (pa cs)) (pa_global (pa cs))) ->
  (forall f, In f (cells ms) -> straight ns (fun cs => pa_global (pa cs) f)) ->
  (forall cs f q, In cs (cells ns) -> In f (cells ms) -> In q (rquad cs f) -> length (fst q) = length ns) ->
  linear ss v -> steady (length ns) diffusion (slope ss hs) -> (forall y, source y = 0) ->
  (forall cs f, In cs (cells ns) -> In f (fs cs) -> cf_neumann _ f = false) ->
  (forall js, node ns js -> outer_node ns js = true -> g (num js) = v js) ->
  (forall cs i m, In cs (cells ns) -> (length (corners cs) <= i < length (corners cs) + 2)%nat -> (m < pa_n (pa cs))%nat ->
     pa_con (pa cs) m = false -> extra cs i m = 0) ->
  result ns hs num n con pa diffusion order rhs_order line rquad extra fs source neumann g x u ->
  (forall js, node ns js -> u (num js) = v js) /\
  forall cs js, In cs (cells ns) -> node ms js ->
    multiscale_node hs num (pa cs) cs (x cs) u js = restricted hs (pa cs) v cs js.
Proof.
  intros ns hs ss num n con ms gs pa diffusion order rhs_order line rquad extra fs source neumann g x u v
    Ne Lh Ls Fn Fh Nu Con Tp Po Or Pa Sc Lr Li St So Nf Gv Ex (C & S).
  assert (Bc : forall cs i m, In cs (cells ns) -> (length (corners cs) <= i < length (corners cs) + 2)%nat -> (m < pa_n (pa cs))%nat ->
    x cs i m = 0).
  { intros cs i m I Hi Lm. destruct (Pa cs I) as (Sn & _ & _ & _ & Cp & Sg).
    apply (coercive_problem (length ns) (patch_points (length ns) order diffusion (pa cs)) (pa_n (pa cs)) (pa_con (pa cs)) (extra cs i))
      with (y := fun _ => 0); auto.
    - exact (outer_coercive ns hs ss num n diffusion order (pa cs) cs Lh Ls Nu I Sn Cp Ne Po Or Sg St).
    - now apply C.
    - apply corrector_bvp. intros j Lj. destruct (pa_con (pa cs) j) eqn:E; auto. rewrite Ex by auto. apply rsum_0. intros. ring. }
  destruct (nodal_values ns num n v Nu) as (w & W).
  assert (U : forall js, node ns js -> u (num js) = v js).
  { intros js N. rewrite <- (W js N). destruct (first_cell ns Fn) as (c0 & I0).
    destruct (Pa c0 I0) as ((Lm & Lg & _ & Fm & Fg & _) & E1 & E2 & _). rewrite E1 in Lm, Fm. rewrite E2 in Lg, Fg.
    apply (patched_one ns hs num n con ms gs pa diffusion order rhs_order line rquad fs source neumann g x); auto.
    - now apply (some_outer ns num).
    - intros cs I. destruct (Pa cs I) as (? & ? & ? & ? & ? & ?). auto.
    - intros cs I. now apply C.
    - apply (linear_solves ns hs ss num n con ms gs pa diffusion order rhs_order line rquad fs source neumann g x v w); auto.
      intros cs I. now apply C.
    - now apply Nu. }
  split; auto. intros cs js I N. destruct (Pa cs I) as (Sn & Ec & Ee & _ & Cp & Sg). pose proof Sn as (Lc & Le & Ll & Fc & Fe & Np).
  rewrite <- Ec in N. unfold multiscale_node. rewrite !Bc by (auto; try lia; now apply Np).
  rewrite (rsum_ext _ _ (fun i => u (num (nth i (corners cs) [])) * restricted hs (pa cs) (one_at num (num (nth i (corners cs) []))) cs js
    + u (num (nth i (corners cs) [])) * x cs i (pa_num (pa cs) js))) by (intros; ring).
  rewrite rsum_plus.
  rewrite (patch_uncorrected ns hs ss num n diffusion order rhs_order (pa cs) cs (x cs) v Lh Ls Fh Nu I Sn Cp Ne Po Or Sg St Li u)
    by (try (now apply C); try (now apply Np); intros js' J'; apply U; now apply (corner_node ns cs)).
  assert (L0 : (0 < length ns)%nat) by (destruct ns; [congruence|cbn; lia]).
  rewrite (restricted_sum hs num ns n order 0 true (pa cs) cs Lh Nu I L0 Sn Or u js N).
  transitivity (restricted hs (pa cs) (nodal num u) cs js); [ring|]. unfold restricted. apply value_ext.
  - assert (Lj : length js = length ns) by (rewrite <- Lc; unfold node in N; clear -N; induction N; cbn; auto).
    pose proof (cells_length _ _ I). rewrite place_length; try lia. rewrite at0_length. lia.
  - intros js' J'. unfold nodal. apply U. now apply (corner_node ns cs).
Qed.
Print Assumptions C132_multiscale_solution_is_linear.

(** * Concrete cases *)
(** Two layers meeting at one third, where no grid below has a node. *)
Definition layered (y : list R) : nat -> nat -> R := scalar (if Rle_dec (nth 0 y 0) (1/3) then 1 else 1000).
Lemma layered_positive : forall d y, positive d (layered y).
Proof. intros d y. apply scalar_positive. destruct (Rle_dec _ _); lra. Qed.
Lemma layered_steady : forall s hs, steady 2 layered (slope [0; s] hs).
Proof.
  intros s hs k y z Lk Be. unfold mv, layered, slope. cbn [rsum nth].
  destruct k as [|[|k]]; [| |lia].
  - unfold scalar. cbn [Nat.eqb]. unfold Rdiv. ring.
  - assert (E : nth 0 y 0 = nth 0 z 0).
    { specialize (Be 0%nat ltac:(lia)). destruct y, z; cbn in Be; try discriminate; auto. now injection Be. }
    now rewrite E.
Qed.
(** The function 3 + s j on the nodes of the coarse grid, j the number of the
    node in the second direction. *)
Definition tilted (s : R) (js : list nat) : R := 3 + INR (nth 1 js 0%nat) * s.
Lemma tilted_linear : forall s, linear [0; s] (tilted s).
Proof. intros s. split; [split; [exact I|]|]; intros; unfold tilted; cbn [nth INR]; ring. Qed.

Lemma square_cell : forall cs, In cs (cells [2; 2]%nat) -> exists a b, cs = [a; b].
Proof. intros cs I. cbn in I. destruct I as [<-|[<-|[<-|[<-|[]]]]]; eauto. Qed.
Lemma pair_beside : forall k (a b a' b' : R), (k <> 0%nat -> a = a') -> (k <> 1%nat -> b = b') -> beside k [a; b] [a'; b'].
Proof. intros k a b a' b' A B [|[|m]] N; cbn; [rewrite A; auto|rewrite B; auto|auto]. Qed.
Lemma beside_pair : forall k (a b a' b' : nat), beside k [a; b] [a'; b'] -> (k <> 0%nat -> a = a') /\ (k <> 1%nat -> b = b').
Proof.
  intros k a b a' b' Be. split; intros N.
  - specialize (Be 0%nat ltac:(auto)). now injection Be.
  - specialize (Be 1%nat ltac:(auto)). now injection Be.
Qed.
Lemma exact_straight : forall con cs, In cs (cells [2; 2]%nat) -> straight [2; 2]%nat (pa_global (exact_patch con cs)).
Proof.
  intros con cs I k f f' xs J J' L Be. destruct (square_cell _ I) as (a & b & ->). destruct (square_cell _ J) as (c & e & ->).
  destruct (square_cell _ J') as (c' & e' & ->). destruct xs as [|x [|y [|]]]; try discriminate L. apply beside_pair in Be. destruct Be as (P & Q).
  apply pair_beside; intros N; [now rewrite P|now rewrite Q].
Qed.
Lemma exact_rows : forall con f, In f (cells [2; 2]%nat) -> straight [2; 2]%nat (fun cs => pa_global (exact_patch con cs) f).
Proof.
  intros con f I k cs cs' xs J J' L Be. destruct (square_cell _ I) as (a & b & ->). destruct (square_cell _ J) as (c & e & ->).
  destruct (square_cell _ J') as (c' & e' & ->). destruct xs as [|x [|y [|]]]; try discriminate L. apply beside_pair in Be. destruct Be as (P & Q).
  apply pair_beside; intros N; [now rewrite P|now rewrite Q].
Qed.

(** Flow along the layers: 2 x 2 coarse cells, each divided into 2 x 2 fine cells. *)
Example C132_case : forall s neumann,
  let res := result [2; 2]%nat half num3 9 outer9 (exact_patch outer9) layered 2 3 (line_rule 2) (fun _ _ => cube_rule 2 3)
    (fun _ _ _ => 0) (fun _ => []) (fun _ => 0) neumann (fun i => tilted s [i mod 3; i / 3]%nat) in
  (exists x u, res x u) /\
  forall x u, res x u -> u 4%nat = 3 + s /\
    forall cs js, In cs (cells [2; 2]%nat) -> node [2; 2]%nat js ->
      multiscale_node half num3 (exact_patch outer9 cs) cs (x cs) u js = restricted half (exact_patch outer9 cs) (tilted s) cs js.
Proof.
  intros s neumann res.
  assert (Pa : forall cs, In cs (cells [2; 2]%nat) -> sound 2 (exact_patch outer9 cs) /\ pa_cells (exact_patch outer9 cs) = [2; 2]%nat /\
    pa_edges (exact_patch outer9 cs) = [1/4; 1/4] /\ (forall f, In f (cells [2; 2]%nat) -> pa_inside (exact_patch outer9 cs) f = true) /\
    outer_constrained (pa_cells (exact_patch outer9 cs)) (pa_num (exact_patch outer9 cs)) (pa_con (exact_patch outer9 cs)) /\
    straight (pa_cells (exact_patch outer9 cs)) (pa_global (exact_patch outer9 cs))).
  { intros cs I. split; [apply exact_sound|]. split; [auto|]. split; [auto|]. split; [auto|].
    split; [apply outer9_constrained|now apply exact_straight]. }
  split.
  - destruct (local_exist [2; 2]%nat half num3 (exact_patch outer9) layered 2 3 (fun _ _ _ => 0)) as (x & X); auto using layered_positive; try (cbn; lia).
    { intros cs I. split; [apply exact_sound|]. exists 0%nat. split; [cbn; lia|reflexivity]. }
    destruct (patched_one [2; 2]%nat half num3 9 outer9 [2; 2]%nat [1/4; 1/4] (exact_patch outer9) layered 2 3 (line_rule 2)
      (fun _ _ => cube_rule 2 3) (fun _ => []) (fun _ => 0) neumann (fun i => tilted s [i mod 3; i / 3]%nat) x)
      as ((u & U) & _); auto using twos, half_pos, num3_numbering, two_gauss, layered_positive.
    + repeat constructor; lra.
    + exists 0%nat. split; [lia|reflexivity].
    + intros cs I. destruct (Pa cs I) as (? & ? & ? & ? & ? & ?). auto.
    + intros cs I. now apply X.
    + exists x, u. split; auto.
  - intros x u Rs.
    destruct (C132_multiscale_solution_is_linear [2; 2]%nat half [0; s] num3 9 outer9 [2; 2]%nat [1/4; 1/4] (exact_patch outer9) layered 2 3
      (line_rule 2) (fun _ _ => cube_rule 2 3) (fun _ _ _ => 0) (fun _ => []) (fun _ => 0) neumann (fun i => tilted s [i mod 3; i / 3]%nat) x u (tilted s))
      as (U & V); auto using twos, half_pos, num3_numbering, two_gauss, layered_positive, outer9_constrained, tilted_linear, exact_rows.
    + discriminate.
    + intros cs f q _ _ Q. now apply (rule_length _ _ _ Q).
    + apply layered_steady.
    + intros cs f _ [].
    + intros js N _. inversion N as [|a ? js1 ? La N1]; subst. inversion N1 as [|b ? js2 ? Lb N2]; subst. inversion N2; subst.
      cbn [num3]. unfold tilted. cbn [nth].
      replace ((a + 3 * b) / 3)%nat with b; auto. rewrite Nat.mul_comm, Nat.div_add by lia. rewrite Nat.div_small; lia.
    + split; [|exact V]. change (u (num3 [1; 1]%nat) = 3 + s). rewrite U by (repeat constructor). unfold tilted. cbn. ring.
Qed.
