(** C112: the method as a whole has exactly one result. *)
From Coq Require Import Reals List Arith Bool Lra Lia.
From Verif Require Import Util RSum SpeModel BoundaryModel BoundarySpec BoundaryProofs LinModel LinSpec QuadModel QuadProps.
From Verif Require Import CoarseModel CoarseSpec SystemModel SystemSpec EnergySpec PatchSpec PatchProofs PatchProps.
From Verif Require Import SolveSpec SolveProofs SolveProps LayerSpec LayerProofs LayerProps WholeSpec WholeProofs.
Import ListNotations.
Open Scope R_scope.

(** Local grids with at least one constrained node each, any oversampling:
    local functions exist, and two results have the same. *)
Theorem C112_local_functions_are_determined :
  forall ns hs num n con pa diffusion order rhs_order line rquad extra fs source neumann g,
  length hs = length ns -> (forall y, positive (length ns) (diffusion y)) -> (2 <= gauss_points order <= 3)%nat ->
  (forall cs, In cs (cells ns) -> sound (length ns) (pa cs) /\ exists m, (m < pa_n (pa cs))%nat /\ pa_con (pa cs) m = true) ->
  (exists x, forall cs, In cs (cells ns) -> corrected hs num diffusion order rhs_order (pa cs) cs (x cs) /\
     forall i, (length (corners cs) <= i < length (corners cs) + 2)%nat ->
     local_problem (length ns) (patch_points (length ns) order diffusion (pa cs))
         (pa_n (pa cs)) (pa_con (pa cs)) (extra cs i) (x cs i)) /\
  forall x u x' u',
  result ns hs num n con pa diffusion order rhs_order line rquad extra fs source neumann g x u ->
  result ns hs num n con pa diffusion order rhs_order line rquad extra fs source neumann g x' u' ->
  forall cs i m, In cs (cells ns) -> (i < length (corners cs) + 2)%nat -> (m < pa_n (pa cs))%nat -> x cs i m = x' cs i m.
Proof.
  intros. split; [eapply local_exist|intros; eapply local_agree]; eauto.
Qed.
Print Assumptions C112_local_functions_are_determined.

(** The whole method has exactly one result exactly if its coarse system has
    exactly one solution. *)
Theorem C112_one_result_iff_one_coarse_solution :
  forall ns hs num n con pa diffusion order rhs_order line rquad extra fs source neumann g x,
  length hs = length ns -> numbering ns num n -> (forall y, positive (length ns) (diffusion y)) -> (2 <= gauss_points order <= 3)%nat ->
  (forall cs, In cs (cells ns) -> sound (length ns) (pa cs) /\ exists m, (m < pa_n (pa cs))%nat /\ pa_con (pa cs) m = true) ->
  (forall cs f q, In cs (cells ns) -> In f (cells (pa_cells (pa cs))) -> In q (rquad cs f) -> length (fst q) = length ns) ->
  (forall cs, In cs (cells ns) -> corrected hs num diffusion order rhs_order (pa cs) cs (x cs) /\
     forall i, (length (corners cs) <= i < length (corners cs) + 2)%nat ->
     local_problem (length ns) (patch_points (length ns) order diffusion (pa cs))
         (pa_n (pa cs)) (pa_con (pa cs)) (extra cs i) (x cs i)) ->
  let res := result ns hs num n con pa diffusion order rhs_order line rquad extra fs source neumann g in
  (one_solution n (coarse_solution (length ns) (list R) diffusion source neumann n con g (patched ns hs num pa line rquad x fs)) <->
   (exists y u, res y u) /\ forall y u y' u', res y u -> res y' u' -> same_result ns n pa y y' u u').
Proof. intros. now apply result_once. Qed.
Print Assumptions C112_one_result_iff_one_coarse_solution.

(** Synthetic, Random and ER2007 without oversampling: exactly one result, for
    every source, boundary data and boundary corrector. *)
Theorem C112_exactly_one_result_without_oversampling :
  forall p global own k ns hs num n con ms gs pa diffusion order rhs_order line rquad extra fs source neumann g,
  (p = PSynthetic \/ p = PRandom \/ p = PEr2007) -> sub_boundary_info p (length ns) global own = Some k ->
  ns <> [] -> length hs = length ns -> Forall (fun m => (0 < m)%nat) ns -> Forall (Rlt 0) hs -> numbering ns num n ->
  (exists i, (i < n)%nat /\ con i = true) ->
  (forall y, positive (length ns) (diffusion y)) -> (2 <= gauss_points order <= 3)%nat -> two_points line ->
  (forall cs, In cs (cells ns) -> sound (length ns) (pa cs) /\ pa_cells (pa cs) = ms /\ pa_edges (pa cs) = gs /\
     (forall f, In f (cells ms) -> pa_inside (pa cs) f = true) /\
     (forall js, node ms js -> pa_con (pa cs) (pa_num (pa cs) js) = constrained_node k ms js)) ->
  (forall cs f q, In cs (cells ns) -> In f (cells ms) -> In q (rquad cs f) -> length (fst q) = length ns) ->
  let res := result ns hs num n con pa diffusion order rhs_order line rquad extra fs source neumann g in
  (exists x u, res x u) /\ forall x u x' u', res x u -> res x' u' -> same_result ns n pa x x' u u'.
Proof.
  intros p global own k ns hs num n con ms gs pa diffusion order rhs_order line rquad extra fs source neumann g
    Hp K Ne Lh Fn Fh Nu Cn Po Or Tp H Lr res.
  assert (On : forall js, node ms js -> constrained_node k ms js = outer_node ms js).
  { intros js N. assert (L : length js = length ms) by (unfold node in N; clear -N; induction N; cbn; auto).
    pose proof (local_all p (length ns) global own k ms js Hp K) as A. pose proof (outer_boundary ms js L) as B.
    destruct (constrained_node k ms js), (outer_node ms js); auto; [symmetry; tauto|tauto]. }
  destruct (in_dec (list_eq_dec Nat.eq_dec) (map (fun _ => 0%nat) ns) (cells ns)) as [I0|I0].
  2:{ exfalso. apply I0. clear -Fn. induction Fn as [|m r P F IH]; [now left|]. cbn [map cells]. apply in_flat_map. exists 0%nat.
      split; [apply in_seq; lia|now apply in_map]. }
  destruct (H _ I0) as ((Lm & Lg & _ & Fm & Fg & _) & E1 & E2 & _). rewrite E1 in Lm, Fm. rewrite E2 in Lg, Fg.
  assert (So : forall cs, In cs (cells ns) -> sound (length ns) (pa cs) /\ exists m, (m < pa_n (pa cs))%nat /\ pa_con (pa cs) m = true).
  { intros cs I. destruct (H cs I) as (So & Ec & Ee & _ & Cp). split; auto.
    assert (N0 : node ms ms) by (clear; unfold node; induction ms; constructor; auto).
    exists (pa_num (pa cs) ms). destruct So as (_ & _ & _ & _ & _ & N). rewrite Ec in N. split; [now apply N|].
    rewrite Cp, On by auto. destruct ms as [|m r]; [destruct ns; [congruence|discriminate]|]. cbn. now rewrite Nat.eqb_refl, orb_true_r. }
  destruct (local_exist ns hs num pa diffusion order rhs_order extra Lh Po Or So) as (x & X).
  apply (proj1 (result_once ns hs num n con pa diffusion order rhs_order line rquad extra fs source neumann g Lh Nu Po Or So
    (fun cs f q I => ltac:(destruct (H cs I) as (_ & -> & _); now apply Lr)) x X)).
  replace (patched ns hs num pa line rquad x fs) with
    (map (fun cs => (box_cell hs num cs (inner_elements ms gs line (pa_global (pa cs)) (rquad cs)
       (fun f i xs => value (fun js => x cs i (pa_num (pa cs) js)) f xs) (fun i js => x cs i (pa_num (pa cs) js))), fs cs)) (cells ns)).
  - apply (C110_coarse_solution_exists_once_without_oversampling ns hs num n ms gs diffusion line
      (fun cs i js => x cs i (pa_num (pa cs) js)) (fun cs => pa_global (pa cs)) rquad
      (fun cs f i xs => value (fun js => x cs i (pa_num (pa cs) js)) f xs)); auto.
    intros cs i js I Li N O. destruct (H cs I) as ((_ & _ & _ & _ & _ & Np) & Ec & _ & _ & Cp).
    apply (corrected_fixed hs num diffusion order rhs_order (pa cs) cs (x cs)); auto; [apply X; auto| |].
    + apply Np. now rewrite Ec.
    + rewrite Cp, On; auto.
  - unfold patched. apply map_ext_in. intros cs I. f_equal. f_equal. destruct (H cs I) as (_ & Ec & Ee & In & _).
    unfold inner_elements, patch_elements. rewrite Ec, Ee. apply map_ext_in. intros f J. now rewrite (In f J).
Qed.
Print Assumptions C112_exactly_one_result_without_oversampling.

(** SPE10 and Tarbert, with or without oversampling: never. *)
Theorem C112_never_exactly_one_result :
  forall p own kc k ns hs num n con pa diffusion order rhs_order line rquad extra fs source neumann g,
  (p = PSpe10 \/ p = PTarbert) -> (2 <= length ns <= 3)%nat ->
  boundary_info p (length ns) none own = Some kc -> sub_boundary_info p (length ns) none own = Some k ->
  length hs = length ns -> Forall (fun m => (0 < m)%nat) ns -> Forall (Rlt 0) hs -> numbering ns num n ->
  (forall js, node ns js -> con (num js) = constrained_node kc ns js) ->
  (forall y, positive (length ns) (diffusion y)) -> (2 <= gauss_points order <= 3)%nat ->
  (forall cs, In cs (cells ns) -> sound (length ns) (pa cs) /\
     (forall js, node (pa_cells (pa cs)) js -> pa_con (pa cs) (pa_num (pa cs) js) = constrained_node k (pa_cells (pa cs)) js) /\
     (forall y, same_products (length ns) (patch_points (length ns) order diffusion (pa cs))
        (patch_points (length ns) rhs_order diffusion (pa cs)) (pa_n (pa cs)) (pa_con (pa cs)) (field_of (pa_n (pa cs)) y))) ->
  (forall cs f q, In cs (cells ns) -> In f (cells (pa_cells (pa cs))) -> In q (rquad cs f) -> length (fst q) = length ns) ->
  let res := result ns hs num n con pa diffusion order rhs_order line rquad extra fs source neumann g in
  ~ ((exists x u, res x u) /\ forall x u x' u', res x u -> res x' u' -> same_result ns n pa x x' u u').
Proof.
  intros p own kc k ns hs num n con pa diffusion order rhs_order line rquad extra fs source neumann g
    Hp D Kc K Lh Fn Fh Nu Cn Po Or H Lr res One.
  destruct (one_side p own k ns Hp D K) as (up & Up).
  assert (So : forall cs, In cs (cells ns) -> sound (length ns) (pa cs) /\ exists m, (m < pa_n (pa cs))%nat /\ pa_con (pa cs) m = true).
  { intros cs I. destruct (H cs I) as (So & Cp & _). split; auto. pose proof So as (Lc & _ & _ & _ & _ & N).
    destruct (side_node ns 1 up (pa cs) So) as (js & Nj & E); [intros; rewrite Cp by auto; now apply Up|]. exists (pa_num (pa cs) js). split; [now apply N|].
    rewrite Cp by auto. apply Up; auto. }
  destruct (local_exist ns hs num pa diffusion order rhs_order extra Lh Po Or So) as (x & X).
  apply (result_once ns hs num n con pa diffusion order rhs_order line rquad extra fs source neumann g Lh Nu Po Or So Lr x X) in One.
  revert One. apply (C111_coarse_system_is_singular p own kc k ns hs num n con pa diffusion order rhs_order); auto.
  intros cs I. destruct (H cs I) as (S & Cp & Sp). repeat (split; auto). apply X; auto.
Qed.
Print Assumptions C112_never_exactly_one_result.

(** * Concrete cases *)
(** 2 x 2 coarse cells, each divided into 2 x 2 fine cells; every coarse cell
    keeps its own place in the domain. *)
Definition exact_patch (con : nat -> bool) (cs : list nat) : patch :=
  {| pa_cells := [2; 2]%nat; pa_edges := [1/4; 1/4]; pa_low := [0; 0]; pa_num := num3; pa_n := 9; pa_con := con;
     pa_inside := fun _ => true;
     pa_global := fun fs x => map (fun t => fst t / 2 + snd t / 4)
       (combine (map INR cs) (map (fun t => INR (fst t) + snd t) (combine fs x))) |}.
Lemma exact_sound : forall con cs, sound 2 (exact_patch con cs).
Proof.
  intros con cs. unfold sound. cbn [exact_patch pa_cells pa_edges pa_low pa_num pa_n].
  split; [auto|split; [auto|split; [auto|split; [apply twos|split; [|apply num3_numbering]]]]]. repeat constructor; lra.
Qed.

Example C112_case : forall p k extra source neumann g,
  (p = PSynthetic \/ p = PRandom \/ p = PEr2007) -> sub_boundary_info p 2 none none = Some k ->
  let res := result [2; 2]%nat half num3 9 outer9 (exact_patch (side9 k)) board_at 2 3 (line_rule 2)
    (fun _ _ => cube_rule 2 3) extra (fun _ => []) source neumann g in
  (exists x u, res x u) /\ forall x u x' u', res x u -> res x' u' -> same_result [2; 2]%nat 9 (exact_patch (side9 k)) x x' u u'.
Proof.
  intros p k extra source neumann g Hp K.
  apply (C112_exactly_one_result_without_oversampling p none none k [2; 2]%nat half num3 9 outer9 [2; 2]%nat [1/4; 1/4]); auto.
  - discriminate.
  - apply half_pos.
  - apply num3_numbering.
  - exists 0%nat. split; [lia|reflexivity].
  - intros. apply board_at_positive.
  - apply two_gauss.
  - intros cs I. split; [apply exact_sound|]. repeat (split; auto). apply side9_node.
  - intros cs f q _ _ Q. now apply (rule_length _ _ _ Q).
Qed.
Example C112_case_one_side : forall p k extra source neumann g,
  (p = PSpe10 \/ p = PTarbert) -> sub_boundary_info p 2 none none = Some k ->
  let res := result [2; 2]%nat half num3 9 (side9 k) (exact_patch (side9 k)) board_at 2 3 (line_rule 2)
    (fun _ _ => cube_rule 2 3) extra (fun _ => []) source neumann g in
  ~ ((exists x u, res x u) /\ forall x u x' u', res x u -> res x' u' -> same_result [2; 2]%nat 9 (exact_patch (side9 k)) x x' u u').
Proof.
  intros p k extra source neumann g Hp K.
  apply (C112_never_exactly_one_result p none k k [2; 2]%nat half num3 9 (side9 k)); auto.
  - destruct Hp as [->| ->]; exact K.
  - apply half_pos.
  - apply num3_numbering.
  - apply side9_node.
  - intros. apply board_at_positive.
  - intros cs I. split; [apply exact_sound|]. split; [apply side9_node|].
    intros y. apply (C107_local_quadratures_are_the_same PSpe10 2 _ 2 9). now left.
  - intros cs f q _ _ Q. now apply (rule_length _ _ _ Q).
Qed.
