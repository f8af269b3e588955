(** Proofs for C112. *)
From Coq Require Import Reals List Arith Bool Lra Lia.
From Verif Require Import Util RSum LinModel LinSpec LinProofs QuadModel CoarseModel CoarseSpec SystemModel SystemSpec SystemProofs.
From Verif Require Import FemProofs EnergySpec EnergyProofs PatchSpec PatchProofs SolveSpec SolveProofs LayerSpec LayerProofs WholeSpec.
Import ListNotations.
Open Scope R_scope.

(** The coarse system reads the local functions at nodes only. *)
Section Ext.
Variables (ns : list nat) (hs : list R) (num : list nat -> nat) (n : nat) (con : nat -> bool) (pa : list nat -> patch).
Variable diffusion : list R -> nat -> nat -> R.
Variable line : list (R * R).
Variable rquad : list nat -> list nat -> list (list R * R).
Variable fs : list nat -> list (cface (list R)).
Variables (source neumann : list R -> R) (g : nat -> R).
Variables x x' : list nat -> nat -> nat -> R.
Hypothesis Nu : numbering ns num n.
Hypothesis So : forall cs, In cs (cells ns) -> sound (length ns) (pa cs).
Hypothesis Lr : forall cs f q, In cs (cells ns) -> In f (cells (pa_cells (pa cs))) -> In q (rquad cs f) -> length (fst q) = length ns.
Hypothesis Eq : forall cs i m, In cs (cells ns) -> (i < length (corners cs) + 2)%nat -> (m < pa_n (pa cs))%nat -> x cs i m = x' cs i m.

Let el (y : list nat -> nat -> nat -> R) cs f : local_cell (list R) :=
  {| lc_covered := pa_inside (pa cs) f; lc_global := pa_global (pa cs) f; lc_factor := fun _ => volume (pa_edges (pa cs));
     lc_grad := fun i xs => grad (pa_edges (pa cs)) (fun js => y cs i (pa_num (pa cs) js)) f xs;
     lc_val := fun i xs => value (fun js => y cs i (pa_num (pa cs) js)) f xs;
     lc_quad := product_rule line (length (pa_cells (pa cs))); lc_rquad := rquad cs f |}.
Let cell (y : list nat -> nat -> nat -> R) cs := box_cell hs num cs (patch_elements (pa cs) line (rquad cs) (y cs)).

Lemma el_grad : forall cs f i xs k, In cs (cells ns) -> In f (cells (pa_cells (pa cs))) -> (i < length (corners cs) + 2)%nat ->
  length xs = length ns -> lc_grad _ (el x cs f) i xs k = lc_grad _ (el x' cs f) i xs k.
Proof.
  intros cs f i xs k I J Li L. destruct (So cs I) as (Lc & _ & _ & _ & _ & N). cbn [el lc_grad]. apply grad_ext.
  - rewrite (cells_length _ _ J). lia.
  - intros js K. apply Eq; auto. apply N. now apply (corner_node _ f).
Qed.
Lemma el_val : forall cs f i xs, In cs (cells ns) -> In f (cells (pa_cells (pa cs))) -> (i < length (corners cs) + 2)%nat ->
  length xs = length ns -> lc_val _ (el x cs f) i xs = lc_val _ (el x' cs f) i xs.
Proof.
  intros cs f i xs I J Li L. destruct (So cs I) as (Lc & _ & _ & _ & _ & N). cbn [el lc_val]. apply value_ext.
  - rewrite (cells_length _ _ J). lia.
  - intros js K. apply Eq; auto. apply N. now apply (corner_node _ f).
Qed.
Lemma el_test : forall cs f v xs k, In cs (cells ns) -> In f (cells (pa_cells (pa cs))) -> length xs = length ns ->
  test_grad _ v (cell x cs) (el x cs f) xs k = test_grad _ v (cell x' cs) (el x' cs f) xs k.
Proof.
  intros cs f v xs k I J L. unfold test_grad, used_grad. cbn [cell box_cell cc_n cc_index cc_grad]. apply rsum_ext. intros i Li.
  rewrite (el_grad cs f i xs k); auto; lia.
Qed.
Lemma el_test_val : forall cs f v xs, In cs (cells ns) -> In f (cells (pa_cells (pa cs))) -> length xs = length ns ->
  test_val _ v (cell x cs) (el x cs f) xs = test_val _ v (cell x' cs) (el x' cs f) xs.
Proof.
  intros cs f v xs I J L. unfold test_val, used_val. cbn [cell box_cell cc_n cc_index cc_val]. apply rsum_ext. intros i Li.
  rewrite (el_val cs f i xs); auto; lia.
Qed.
Lemma el_boundary : forall cs f xs k, In cs (cells ns) -> In f (cells (pa_cells (pa cs))) -> length xs = length ns ->
  boundary_grad _ (cell x cs) (el x cs f) xs k = boundary_grad _ (cell x' cs) (el x' cs f) xs k.
Proof.
  intros cs f xs k I J L. unfold boundary_grad. cbn [cell box_cell cc_n]. rewrite !(el_grad cs f); auto; lia.
Qed.

Lemma covered_sum : forall y cs (F : local_cell (list R) -> R),
  lsum (covered _ (cell y cs)) F = lsum (cells (pa_cells (pa cs))) (fun f => if pa_inside (pa cs) f then F (el y cs f) else 0).
Proof.
  intros y cs F. unfold covered, cell. cbn [box_cell cc_locals]. rewrite lsum_filter. unfold patch_elements. rewrite lsum_map.
  apply lsum_ext. intros f _. reflexivity.
Qed.

Lemma patched_walk : forall y, exists r,
  walk (length ns) (list R) diffusion source neumann (fun _ _ => 0) (fun _ => 0) (patched ns hs num pa line rquad y fs) = Some r.
Proof.
  intros y. apply walk_some. intros c f I. destruct (patched_in _ _ _ _ _ _ _ _ _ _ I) as (cs & _ & -> & _). reflexivity.
Qed.

Lemma patched_ext : forall u,
  coarse_solution (length ns) (list R) diffusion source neumann n con g (patched ns hs num pa line rquad x fs) u ->
  coarse_solution (length ns) (list R) diffusion source neumann n con g (patched ns hs num pa line rquad x' fs) u.
Proof.
  intros u S.
  apply weak_form in S; [|now apply patched_index|apply patched_walk].
  apply weak_form; [now apply patched_index|apply patched_walk|]. destruct S as (B & S). split; auto. intros v Z.
  specialize (S v Z). unfold patched in *. rewrite !lsum_map in *. cbn [fst snd] in *.
  transitivity (lsum (cells ns) (fun cs => lsum (covered _ (cell x cs)) (fun l =>
    ms_energy (length ns) _ diffusion u (cell x cs) l (test_grad _ v (cell x cs) l)))).
  - apply lsum_ext. intros cs I. fold (cell x' cs). rewrite !covered_sum. apply lsum_ext. intros f J.
    destruct (pa_inside (pa cs) f); auto. unfold ms_energy, CoarseSpec.energy, rhs_energy. f_equal.
    + apply lsum_ext. intros q Q. cbn [el lc_factor lc_global lc_quad] in *.
      assert (L : length (fst q) = length ns) by (rewrite (rule_length _ _ _ Q); apply So; auto).
      f_equal. apply dot_ext; intros; [apply mv_ext; intros|]; symmetry; now apply el_test.
    + apply lsum_ext. intros q Q. cbn [el lc_factor lc_global lc_rquad] in *.
      assert (L : length (fst q) = length ns) by (now apply (Lr cs f)).
      f_equal. apply dot_ext; intros; [apply mv_ext; intros; symmetry; now apply el_boundary|symmetry; now apply el_test].
  - etransitivity; [exact S|]. apply lsum_ext. intros cs I. fold (cell x cs) (cell x' cs). f_equal.
    rewrite !covered_sum. apply lsum_ext. intros f J. destruct (pa_inside (pa cs) f); auto. unfold load. apply lsum_ext. intros q Q.
    cbn [el lc_factor lc_global lc_rquad] in *. f_equal. f_equal. apply el_test_val; auto. now apply (Lr cs f).
Qed.
End Ext.

(** Correctors of a cell are determined at the nodes. *)
Lemma corrected_agree : forall ns hs num diffusion order rhs_order p cs x x', length hs = length ns -> In cs (cells ns) ->
  sound (length ns) p -> coercive (length ns) (patch_points (length ns) order diffusion p) (pa_n p) (pa_con p) ->
  corrected hs num diffusion order rhs_order p cs x -> corrected hs num diffusion order rhs_order p cs x' ->
  forall i m, (i < length (corners cs))%nat -> (m < pa_n p)%nat -> x i m = x' i m.
Proof.
  intros ns hs num diffusion order rhs_order p cs x x' Lh I (Lc & _ & _ & _ & _ & N) Co C C' i m Li Lm. rewrite <- Lh in Co.
  destruct (C i Li) as (y & Y & S). destruct (C' i Li) as (y' & Y' & S').
  apply (corrector_unique (length hs) (patch_points (length hs) order diffusion p) (patch_points (length hs) rhs_order diffusion p) (pa_n p) (pa_con p) (field_of (pa_n p) y)); auto.
  apply corrector_field with (f := field_of (pa_n p) y'); auto. intros q k _ _. unfold field_of. apply rsum_ext. intros j Lj. f_equal.
  destruct (proj2 (proj2 N) j Lj) as (js & Nj & <-). now rewrite Y, Y'.
Qed.
Lemma corrected_fixed : forall hs num diffusion order rhs_order p cs x, corrected hs num diffusion order rhs_order p cs x ->
  forall i m, (i < length (corners cs))%nat -> (m < pa_n p)%nat -> pa_con p m = true -> x i m = 0.
Proof.
  intros hs num diffusion order rhs_order p cs x C i m Li Lm Z. destruct (C i Li) as (y & _ & S).
  apply corrector_orthogonal in S. now apply S.
Qed.

Section One.
Variables (ns : list nat) (hs : list R) (num : list nat -> nat) (n : nat) (con : nat -> bool) (pa : list nat -> patch).
Variable diffusion : list R -> nat -> nat -> R.
Variables order rhs_order : nat.
Variable line : list (R * R).
Variable rquad : list nat -> list nat -> list (list R * R).
Variable extra : list nat -> nat -> nat -> R.
Variable fs : list nat -> list (cface (list R)).
Variables (source neumann : list R -> R) (g : nat -> R).
Hypothesis Lh : length hs = length ns.
Hypothesis Nu : numbering ns num n.
Hypothesis Po : forall y, positive (length ns) (diffusion y).
Hypothesis Or : (2 <= gauss_points order <= 3)%nat.
Hypothesis So : forall cs, In cs (cells ns) -> sound (length ns) (pa cs) /\
  exists m, (m < pa_n (pa cs))%nat /\ pa_con (pa cs) m = true.
Hypothesis Lr : forall cs f q, In cs (cells ns) -> In f (cells (pa_cells (pa cs))) -> In q (rquad cs f) -> length (fst q) = length ns.
Notation res := (result ns hs num n con pa diffusion order rhs_order line rquad extra fs source neumann g).

Lemma patch_coercive : forall cs, In cs (cells ns) ->
  coercive (length ns) (patch_points (length ns) order diffusion (pa cs)) (pa_n (pa cs)) (pa_con (pa cs)).
Proof.
  intros cs I. destruct (So cs I) as ((Lc & Le & Ll & Fc & Fe & N) & C). unfold patch_points. rewrite <- Lc.
  apply varied_coercive; auto; try lia.
  - now apply gauss_two.
  - intros. rewrite Lc. apply Po.
Qed.

Lemma local_agree : forall x u x' u', res x u -> res x' u' ->
  forall cs i m, In cs (cells ns) -> (i < length (corners cs) + 2)%nat -> (m < pa_n (pa cs))%nat -> x cs i m = x' cs i m.
Proof.
  intros x u x' u' (C & _) (C' & _) cs i m I Li Lm. destruct (C cs I) as (A & B). destruct (C' cs I) as (A' & B').
  destruct (Nat.lt_ge_cases i (length (corners cs))) as [L|L].
  - apply (corrected_agree ns hs num diffusion order rhs_order (pa cs) cs); auto; [apply So; auto|now apply patch_coercive].
  - apply (coercive_problem (length ns) (patch_points (length ns) order diffusion (pa cs))
      (pa_n (pa cs)) (pa_con (pa cs)) (extra cs i)); auto. now apply patch_coercive.
Qed.

Lemma local_exist : exists x, forall cs, In cs (cells ns) ->
  corrected hs num diffusion order rhs_order (pa cs) cs (x cs) /\
  forall i, (length (corners cs) <= i < length (corners cs) + 2)%nat ->
    local_problem (length ns) (patch_points (length ns) order diffusion (pa cs))
         (pa_n (pa cs)) (pa_con (pa cs)) (extra cs i) (x cs i).
Proof.
  apply (choose_cells ns (fun cs x => corrected hs num diffusion order rhs_order (pa cs) cs x /\
  forall i, (length (corners cs) <= i < length (corners cs) + 2)%nat ->
    local_problem (length ns) (patch_points (length ns) order diffusion (pa cs))
         (pa_n (pa cs)) (pa_con (pa cs)) (extra cs i) (x i))). intros cs I.
  apply corrected_exists; auto; [apply So; auto|now apply patch_coercive].
Qed.

(** One coarse system suffices. *)
Lemma result_once : forall x, (forall cs, In cs (cells ns) ->
  corrected hs num diffusion order rhs_order (pa cs) cs (x cs) /\
  forall i, (length (corners cs) <= i < length (corners cs) + 2)%nat ->
    local_problem (length ns) (patch_points (length ns) order diffusion (pa cs))
         (pa_n (pa cs)) (pa_con (pa cs)) (extra cs i) (x cs i)) ->
  (one_solution n (coarse_solution (length ns) (list R) diffusion source neumann n con g (patched ns hs num pa line rquad x fs)) <->
   (exists y u, res y u) /\ forall y u y' u', res y u -> res y' u' -> same_result ns n pa y y' u u').
Proof.
  intros x X. split.
  - intros ((u & U) & Un). split; [exists x, u; split; auto|].
    intros y v y' v' Y Y'. split; [|now apply (local_agree y v y' v')].
    assert (T : forall y v, res y v ->
      coarse_solution (length ns) (list R) diffusion source neumann n con g (patched ns hs num pa line rquad x fs) v).
    { intros z w Z. pose proof (local_agree z w x u Z (conj X U)) as E. destruct Z as (_ & S).
      apply (patched_ext ns hs num n con pa diffusion line rquad fs source neumann g z x); auto. intros cs I. apply So; auto. }
    intros i Li. apply Un; auto; [now apply (T y)|now apply (T y')].
  - intros ((y & u & Y) & Un). split.
    + exists u. destruct Y as (C & S). 
      apply (patched_ext ns hs num n con pa diffusion line rquad fs source neumann g y x); auto; [intros; apply So; auto|].
      intros cs i m I Li Lm. destruct (C cs I) as (A & B). destruct (X cs I) as (A' & B').
      destruct (Nat.lt_ge_cases i (length (corners cs))) as [L|L].
      * apply (corrected_agree ns hs num diffusion order rhs_order (pa cs) cs); auto; [apply So; auto|now apply patch_coercive].
      * apply (coercive_problem (length ns) (patch_points (length ns) order diffusion (pa cs))
          (pa_n (pa cs)) (pa_con (pa cs)) (extra cs i)); auto. now apply patch_coercive.
    + intros v w V W i Li. apply (Un x v x w); auto; now split.
Qed.
End One.

Lemma outer_boundary : forall ms js, length js = length ms ->
  (outer_node ms js = true <-> BoundarySpec.on_boundary ms js).
Proof.
  unfold BoundarySpec.on_boundary. induction ms as [|m ms IH]; intros [|j js] L; try discriminate.
  - split; [discriminate|]. intros (i & Li & _). cbn in Li. lia.
  - cbn [outer_node]. injection L as L. rewrite !orb_true_iff, !Nat.eqb_eq, (IH js L). split.
    + intros [[E|E]|(i & Li & E)].
      * exists 0%nat. cbn. split; [lia|now left].
      * exists 0%nat. cbn. split; [lia|now right].
      * exists (S i). cbn. split; [lia|exact E].
    + intros ([|i] & Li & E); cbn in *; [tauto|]. right. exists i. split; [lia|exact E].
Qed.
