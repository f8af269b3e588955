(** Proofs for C132. *)
From Coq Require Import Reals List Arith Bool Lra Lia.
From Verif Require Import Util RSum LinModel LinSpec LinProofs QuadModel CoarseModel CoarseSpec SystemModel SystemSpec SystemProofs.
From Verif Require Import FemModel FemSpec FemProofs EnergySpec EnergyProofs PatchSpec PatchProofs SolveSpec SolveProofs LayerSpec LayerProofs.
From Verif Require Import WholeSpec WholeProofs StrataSpec.
From Verif Require FoldProofs.
Import ListNotations.
Open Scope R_scope.

Lemma beside_cons : forall X k (c : X) a b, beside k a b -> beside (S k) (c :: a) (c :: b).
Proof. intros X k c a b H [|m] N; cbn; auto. Qed.
Lemma beside_head : forall X (c c' : X) a, beside 0 (c :: a) (c' :: a).
Proof. intros X c c' a [|m] N; cbn; auto. congruence. Qed.

(** Derivatives of a function vanishing on the boundary cancel along every
    column of cells. *)
Lemma column : forall ns hs line k w (B : list nat -> list R -> R), vanishing ns w ->
  (forall cs cs' xs, In cs (cells ns) -> In cs' (cells ns) -> length xs = length ns -> beside k cs cs' -> B cs xs = B cs' xs) ->
  bsum ns line (fun cs xs => B cs xs * grad hs w cs xs k) = 0.
Proof.
  induction ns as [|n ns IH]; intros hs line k w B V Sb.
  { apply bsum_0. intros [|c cs] [|x xs] I L; try discriminate L; destruct hs; try (cbn; ring); destruct I as [I|[]]; discriminate. }
  assert (In_ : forall c cs, (c < n)%nat -> In cs (cells ns) -> In (c :: cs) (cells (n :: ns))).
  { intros c cs L I. cbn [cells]. apply in_flat_map. exists c. split; [apply in_seq; lia|now apply in_map]. }
  rewrite bsum_cons. apply lsum_0. intros p _. destruct hs as [|h hs].
  { rewrite rsum_0; [ring|]. intros c L. apply bsum_0. intros. cbn. ring. }
  destruct k as [|k]; cbn [grad].
  - destruct n as [|n0]; [cbn; ring|]. set (n := S n0) in *.
    set (g := fun c => bsum ns line (fun cs xs => B (0%nat :: cs) (fst p :: xs) * (/ h * value (fun js => w (c :: js)) cs xs))).
    rewrite (rsum_ext n _ (fun c => g (S c) - g c)).
    + rewrite telescope. unfold g. rewrite !bsum_0; [ring| |].
      * intros cs xs I L. rewrite (value_ext cs xs _ (fun _ => 0)); [rewrite value_zero; ring|auto|].
        intros js J. apply (vanishing_end n ns w 0); auto. now apply (corner_node ns cs).
      * intros cs xs I L. rewrite (value_ext cs xs _ (fun _ => 0)); [rewrite value_zero; ring|auto|].
        intros js J. apply (vanishing_end n ns w n); auto. now apply (corner_node ns cs).
    + intros c L. unfold g. rewrite <- bsum_minus. apply bsum_ext. intros cs xs I Lx.
      rewrite (Sb (c :: cs) (0%nat :: cs) (fst p :: xs)).
      * unfold Rdiv. ring.
      * now apply In_.
      * apply In_; auto. unfold n. lia.
      * cbn. rewrite Lx, (cells_length _ _ I). reflexivity.
      * apply beside_head.
  - rewrite rsum_0; [ring|]. intros c L.
    assert (T : forall c', (c' <= n)%nat ->
      bsum ns line (fun cs xs => B (c :: cs) (fst p :: xs) * grad hs (fun js => w (c' :: js)) cs xs k) = 0).
    { intros c' L'. apply (IH hs line k (fun js => w (c' :: js)) (fun cs xs => B (c :: cs) (fst p :: xs))).
      - now apply (vanishing_slice n).
      - intros cs cs' xs I I' Lx Be. apply Sb; auto; [cbn; now rewrite Lx|now apply beside_cons]. }
    rewrite (bsum_ext ns line _ (fun cs xs =>
      (1 - fst p) * (B (c :: cs) (fst p :: xs) * grad hs (fun js => w (c :: js)) cs xs k)
      + fst p * (B (c :: cs) (fst p :: xs) * grad hs (fun js => w (S c :: js)) cs xs k))) by (intros; ring).
    rewrite bsum_lin, !T by lia. ring.
Qed.

(** The flux of a linear function balances. *)
Lemma steady_balanced : forall ns hs line diffusion global s w, steady (length ns) diffusion s -> straight ns global -> vanishing ns w ->
  bsum ns line (fun cs xs => dot (length ns) (mv (length ns) (diffusion (global cs xs)) s) (grad hs w cs xs)) = 0.
Proof.
  intros ns hs line diffusion global s w St Sg V. unfold dot. rewrite bsum_rsum. apply rsum_0. intros k Lk.
  apply (column ns hs line k w (fun cs xs => mv (length ns) (diffusion (global cs xs)) s k)); auto.
Qed.

Lemma slope_grad : forall ss hs v cs xs k, linear ss v -> length hs = length ss -> length cs = length ss -> length xs = length ss ->
  (k < length ss)%nat -> grad hs v cs xs k = slope ss hs k.
Proof. intros. unfold slope. now apply linear_grad. Qed.

(** * Correctors *)
Section Patch.
Variables (ns : list nat) (hs ss : list R) (num : list nat -> nat) (n : nat).
Variable diffusion : list R -> nat -> nat -> R.
Variables order rhs_order : nat.
Variables (p : patch) (cs : list nat) (x : nat -> nat -> R) (v : list nat -> R).
Let d := length ns.
Hypothesis Lh : length hs = d.
Hypothesis Ls : length ss = d.
Hypothesis Fh : Forall (Rlt 0) hs.
Hypothesis Nu : numbering ns num n.
Hypothesis Ic : In cs (cells ns).
Hypothesis So : sound d p.
Hypothesis Con : outer_constrained (pa_cells p) (pa_num p) (pa_con p).
Hypothesis Ne : ns <> [].
Hypothesis Po : forall y, positive d (diffusion y).
Hypothesis Or : (2 <= gauss_points order <= 3)%nat.
Hypothesis Sg : straight (pa_cells p) (pa_global p).
Hypothesis St : steady d diffusion (slope ss hs).
Hypothesis Li : linear ss v.

Lemma some_constrained : exists m, (m < pa_n p)%nat /\ pa_con p m = true.
Proof.
  destruct So as (Lc & _ & _ & _ & _ & N). assert (N0 : node (pa_cells p) (pa_cells p)).
  { clear. unfold node. induction (pa_cells p); constructor; auto. }
  exists (pa_num p (pa_cells p)). split; [now apply N|]. rewrite Con by auto.
  destruct (pa_cells p) as [|m r] eqn:E; [unfold d in Lc; destruct ns; [congruence|discriminate Lc]|].
  cbn. now rewrite Nat.eqb_refl, orb_true_r.
Qed.
Lemma outer_coercive : coercive d (patch_points d order diffusion p) (pa_n p) (pa_con p).
Proof.
  pose proof some_constrained as Sc. destruct So as (Lc & Le & _ & Fc & Fe & N). unfold patch_points. rewrite <- Lc.
  apply varied_coercive; auto; try lia.
  - now apply gauss_two.
  - intros. rewrite Lc. apply Po.
Qed.

Lemma restricted_slope : forall f xs k, length f = d -> length xs = d -> (k < d)%nat ->
  grad (pa_edges p) (restricted hs p v cs) f xs k = slope ss hs k.
Proof.
  intros f xs k Lf Lx Lk. destruct So as (Lc & Le & Ll & Fc & Fe & N). pose proof (cells_length _ _ Ic) as Lcs. fold d in Lcs.
  unfold restricted. rewrite grad_affine; auto; try lia. apply slope_grad; auto; try lia.
  rewrite place_length; lia.
Qed.

Lemma patch_uncorrected : forall u, (forall js, In js (corners cs) -> u (num js) = v js) ->
  corrected hs num diffusion order rhs_order p cs x ->
  forall m, (m < pa_n p)%nat -> rsum (length (corners cs)) (fun i => u (num (nth i (corners cs) [])) * x i m) = 0.
Proof.
  intros u U C. pose proof outer_coercive as Co. pose proof So as (Lc & Le & Ll & Fc & Fe & N).
  assert (Lcs : length cs = d) by (now apply cells_length).
  assert (L0 : (0 < length ns)%nat) by (destruct ns; [congruence|cbn; lia]).
  assert (Ex : exists y : nat -> nat -> R, forall i, (i < length (corners cs))%nat ->
    (forall js, node (pa_cells p) js -> y i (pa_num p js) = restricted hs p (one_at num (num (nth i (corners cs) []))) cs js) /\
    corrector (length hs) (patch_points (length hs) order diffusion p) (patch_points (length hs) rhs_order diffusion p)
      (pa_n p) (pa_con p) (field_of (pa_n p) (y i)) (x i)).
  { apply (choose (length (corners cs)) (fun i y => (forall js, node (pa_cells p) js ->
       y (pa_num p js) = restricted hs p (one_at num (num (nth i (corners cs) []))) cs js) /\
       corrector (length hs) (patch_points (length hs) order diffusion p) (patch_points (length hs) rhs_order diffusion p)
      (pa_n p) (pa_con p) (field_of (pa_n p) y) (x i))). exact C. }
  destruct Ex as (y & Hy). rewrite Lh in Hy.
  pose proof (corrector_sum d (patch_points d order diffusion p) (patch_points d rhs_order diffusion p) (pa_n p) (pa_con p)
    (length (corners cs)) (fun i => u (num (nth i (corners cs) []))) (fun i => field_of (pa_n p) (y i)) x
    (fun i L => proj2 (Hy i L))) as K.
  apply (corrector_zero _ _ _ _ _ _ _ Co K). intros z Z.
  pose proof (vanishes_nodal _ _ _ _ _ N Con Z) as Vz.
  unfold LinSpec.energy, patch_points, grid_points, varied_elements. rewrite lsum_flat_map, lsum_map.
  transitivity (volume (pa_edges p) * bsum (pa_cells p) (line_rule (gauss_points rhs_order)) (fun f xs =>
    dot d (mv d (diffusion (pa_global p f xs)) (slope ss hs)) (grad (pa_edges p) (nodal (pa_num p) z) f xs))).
  2:{ rewrite <- Lc in St |- *. rewrite (steady_balanced _ _ _ _ _ _ _ St Sg Vz). ring. }
  unfold bsum. rewrite <- lsum_scale. apply lsum_ext. intros f I. rewrite lsum_map, <- lsum_scale. unfold cube_rule.
  rewrite <- Lc at 1. apply lsum_ext. intros q J. cbn [q_w q_A el_factor el_A].
  assert (L : length (fst q) = length (pa_cells p)) by (apply (rule_length _ _ _ J)).
  rewrite <- Rmult_assoc. f_equal. apply dot_ext.
  - intros k Lk. apply mv_ext. intros m Lm. cbn [el_grad].
    rewrite (rsum_ext _ _ (fun i => u (num (nth i (corners cs) [])) * grad (pa_edges p) (nodal (pa_num p) (y i)) f (fst q) m)).
    + rewrite (grad_sum _ (pa_edges p) f (fst q) m (fun i => u (num (nth i (corners cs) []))) (fun i => nodal (pa_num p) (y i)))
        by (rewrite (cells_length _ _ I); exact L).
      rewrite <- (restricted_slope f (fst q) m) by (auto; rewrite ?(cells_length _ _ I); lia).
      apply grad_ext; [rewrite (cells_length _ _ I); exact L|]. intros js Jc.
      assert (Nj : node (pa_cells p) js) by (now apply (corner_node _ f)).
      rewrite (rsum_ext _ _ (fun i => u (num (nth i (corners cs) [])) * restricted hs p (one_at num (num (nth i (corners cs) []))) cs js))
        by (intros i Hi; unfold nodal; now rewrite (proj1 (Hy i Hi))).
      rewrite (restricted_sum hs num ns n order 0 true p cs Lh Nu Ic L0 So Or u js Nj). unfold restricted. apply value_ext.
      * assert (Lj : length js = d) by (rewrite <- Lc; unfold node in Nj; clear -Nj; induction Nj; cbn; auto).
        rewrite place_length; try lia. rewrite at0_length. lia.
      * intros js' J'. unfold nodal. now apply U.
    + intros i _. f_equal. now apply (nodal_point (pa_cells p) _ _ _ _ (fun f x => diffusion (pa_global p f x))).
  - intros k Lk. now apply (nodal_point (pa_cells p) _ _ _ _ (fun f x => diffusion (pa_global p f x))).
Qed.
End Patch.

(** * The coarse system *)
Section Whole.
Variables (ns : list nat) (hs ss : list R) (num : list nat -> nat) (n : nat) (con : nat -> bool).
Variables (ms : list nat) (gs : list R) (pa : list nat -> patch).
Variable diffusion : list R -> nat -> nat -> R.
Variables order rhs_order : nat.
Variable line : list (R * R).
Variable rquad : list nat -> list nat -> list (list R * R).
Variable fs : list nat -> list (cface (list R)).
Variables (source neumann : list R -> R) (g : nat -> R).
Variable x : list nat -> nat -> nat -> R.
Variables (v : list nat -> R) (u : nat -> R).
Let d := length ns.
Hypothesis Ne : ns <> [].
Hypothesis Lh : length hs = d.
Hypothesis Ls : length ss = d.
Hypothesis Fn : Forall (fun m => (0 < m)%nat) ns.
Hypothesis Fh : Forall (Rlt 0) hs.
Hypothesis Nu : numbering ns num n.
Hypothesis Con : outer_constrained ns num con.
Hypothesis Po : forall y, positive d (diffusion y).
Hypothesis Or : (2 <= gauss_points order <= 3)%nat.
Hypothesis Tp : two_points line.
Hypothesis Pa : forall cs, In cs (cells ns) -> sound d (pa cs) /\ pa_cells (pa cs) = ms /\ pa_edges (pa cs) = gs /\
  (forall f, In f (cells ms) -> pa_inside (pa cs) f = true) /\
  outer_constrained (pa_cells (pa cs)) (pa_num (pa cs)) (pa_con (pa cs)) /\
  straight (pa_cells (pa cs)) (pa_global (pa cs)).
Hypothesis Sc : forall f, In f (cells ms) -> straight ns (fun cs => pa_global (pa cs) f).
Hypothesis Lr : forall cs f q, In cs (cells ns) -> In f (cells ms) -> In q (rquad cs f) -> length (fst q) = d.
Hypothesis St : steady d diffusion (slope ss hs).
Hypothesis Li : linear ss v.
Hypothesis So : forall y, source y = 0.
Hypothesis Nf : forall cs f, In cs (cells ns) -> In f (fs cs) -> cf_neumann _ f = false.
Hypothesis Gv : forall js, node ns js -> outer_node ns js = true -> g (num js) = v js.
Hypothesis Cr : forall cs, In cs (cells ns) -> corrected hs num diffusion order rhs_order (pa cs) cs (x cs).
Hypothesis Bc : forall cs i m, In cs (cells ns) -> (length (corners cs) <= i < length (corners cs) + 2)%nat -> (m < pa_n (pa cs))%nat ->
  x cs i m = 0.
Notation el cs f := ({| lc_covered := pa_inside (pa cs) f; lc_global := pa_global (pa cs) f; lc_factor := fun _ => volume (pa_edges (pa cs));
     lc_grad := fun i xs => grad (pa_edges (pa cs)) (fun js => x cs i (pa_num (pa cs) js)) f xs;
     lc_val := fun i xs => value (fun js => x cs i (pa_num (pa cs) js)) f xs;
     lc_quad := product_rule line (length (pa_cells (pa cs))); lc_rquad := rquad cs f |}).
Notation cell cs := (box_cell hs num cs (patch_elements (pa cs) line (rquad cs) (x cs))).

Lemma zero_grad : forall cs f (w : nat -> R) xs k, In cs (cells ns) -> In f (cells (pa_cells (pa cs))) -> length xs = d ->
  (forall m, (m < pa_n (pa cs))%nat -> w m = 0) -> grad (pa_edges (pa cs)) (fun js => w (pa_num (pa cs) js)) f xs k = 0.
Proof.
  intros cs f w xs k I J L Z. destruct (Pa cs I) as ((Lc & _ & _ & _ & _ & N) & _).
  rewrite (grad_ext _ f xs k _ (fun _ => 0)); [apply grad_zero|rewrite (cells_length _ _ J); lia|].
  intros js K. apply Z. apply N. now apply (corner_node _ f).
Qed.

Lemma linear_solves : (forall js, node ns js -> u (num js) = v js) ->
  coarse_solution d (list R) diffusion source neumann n con g (patched ns hs num pa line rquad x fs) u.
Proof.
  intros U. apply weak_form; [now apply patched_index|apply patched_walk|]. split.
  { intros i L C. destruct (proj2 (proj2 Nu) i L) as (js & N & <-). rewrite Con in C by auto. rewrite U, Gv; auto. }
  intros w W. transitivity 0.
  2:{ symmetry. unfold patched. rewrite lsum_map. apply lsum_0. intros cs I. cbn [fst snd].
    rewrite lsum_0 by (intros l _; unfold load; apply lsum_0; intros; rewrite So; ring). unfold boundary_load.
    assert (F : filter (cf_neumann (list R)) (fs cs) = []).
    { specialize (fun f => Nf cs f I). induction (fs cs) as [|f r IH]; auto. cbn [filter]. rewrite Nf by now left.
      apply IH. intros f' I'. apply Nf. now right. }
    rewrite F. cbn. ring. }
  assert (Vw : vanishing ns (nodal num w)).
  { intros js N O. apply W; [now apply Nu|]. now rewrite Con. }
  set (z := fun cs m => rsum (length (corners cs)) (fun i => w (num (nth i (corners cs) [])) * x cs i m)).
  set (flux := fun cs f xs => mv d (diffusion (pa_global (pa cs) f xs)) (slope ss hs)).
  transitivity (lsum (cells ns) (fun cs => lsum (cells ms) (fun f => lsum (product_rule line d) (fun q =>
    volume gs * snd q * (dot d (flux cs f (fst q)) (grad hs (nodal num w) cs (fst q)) +
                         dot d (flux cs f (fst q)) (grad gs (fun js => z cs (pa_num (pa cs) js)) f (fst q))))))).
  - unfold patched. rewrite lsum_map. apply lsum_ext. intros cs I. cbn [fst].
    destruct (Pa cs I) as (Sn & Ec & Ee & Ins & Cp & Sp). pose proof Sn as (Lc & Le & Ll & Fc & Fe & N).
    rewrite covered_sum. rewrite <- Ec, <- Ee. apply lsum_ext. intros f J'. assert (J : In f (cells ms)) by (now rewrite <- Ec).
    rewrite (Ins f J). unfold ms_energy, CoarseSpec.energy, rhs_energy.
    assert (Lf : length f = d) by (rewrite (cells_length _ _ J'); exact Lc).
    rewrite (lsum_0 _ (lc_rquad (list R) (el cs f))).
    2:{ intros q Q. cbn [lc_rquad] in Q. pose proof (Lr cs f q I J Q) as L. unfold dot. rewrite rsum_0; [ring|]. intros k Lk.
      unfold mv. rewrite rsum_0; [ring|]. intros m Lm. unfold boundary_grad. cbn [box_cell cc_n lc_grad].
      rewrite (zero_grad cs f (x cs (length (corners cs) + 1)%nat)), (zero_grad cs f (x cs (length (corners cs)))); auto; [ring| |];
        intros; apply Bc; auto; lia. }
    rewrite Rplus_0_r. cbn [lc_quad lc_factor lc_global].
    replace (product_rule line d) with (product_rule line (length (pa_cells (pa cs)))) by (now rewrite Lc). apply lsum_ext. intros q Q.
    assert (L : length (fst q) = d) by (now rewrite (rule_length _ _ _ Q)). f_equal.
    assert (G : forall t k, test_grad (list R) t (cell cs) (el cs f) (fst q) k =
      grad hs (nodal num t) cs (fst q) k +
      grad (pa_edges (pa cs)) (fun js => rsum (length (corners cs)) (fun i => t (num (nth i (corners cs) [])) * x cs i (pa_num (pa cs) js))) f (fst q) k).
    { intros t k. now apply (patch_grad ns hs num n (pa cs) cs _ t f (fst q) k line (rquad cs) (x cs)). }
    rewrite (Ins f J) in G.
    rewrite (dot_ext d _ (flux cs f (fst q)) _ (fun k => grad hs (nodal num w) cs (fst q) k +
      grad (pa_edges (pa cs)) (fun js => z cs (pa_num (pa cs) js)) f (fst q) k)).
    + unfold dot. rewrite <- rsum_plus. apply rsum_ext. intros. ring.
    + intros k Lk. unfold flux. apply mv_ext. intros m Lm. rewrite G.
      rewrite (zero_grad cs f (fun j => rsum (length (corners cs)) (fun i => u (num (nth i (corners cs) [])) * x cs i j))); auto.
      * rewrite Rplus_0_r. rewrite <- (slope_grad ss hs v cs (fst q) m) by (auto; rewrite ?(cells_length _ _ I), ?Ls; auto).
        apply grad_ext; [rewrite (cells_length _ _ I); exact L|]. intros js Jc. unfold nodal. apply U. now apply (corner_node ns cs).
      * apply (patch_uncorrected ns hs ss num n diffusion order rhs_order (pa cs) cs (x cs) v); auto.
        intros js Jc. apply U. now apply (corner_node ns cs).
    + intros k _. apply G.
  - transitivity (volume gs * lsum (cells ms) (fun f => bsum ns line (fun cs xs => dot d (flux cs f xs) (grad hs (nodal num w) cs xs))) +
      volume gs * lsum (cells ns) (fun cs => bsum ms line (fun f xs => dot d (flux cs f xs) (grad gs (fun js => z cs (pa_num (pa cs) js)) f xs)))).
    + rewrite <- !lsum_scale. unfold bsum. fold d.
      rewrite (lsum_ext _ (cells ms) _ (fun f => lsum (cells ns) (fun cs => volume gs * lsum (product_rule line d)
        (fun q => snd q * dot d (flux cs f (fst q)) (grad hs (nodal num w) cs (fst q))))))
        by (intros f _; now rewrite <- lsum_scale).
      rewrite (FoldProofs.lsum_swap _ _ (cells ms) (cells ns)), <- lsum_plus. apply lsum_ext. intros cs I. rewrite <- lsum_scale, <- lsum_plus.
      destruct (Pa cs I) as ((Lc & _) & Ec & _). rewrite Ec in Lc. rewrite Lc.
      apply lsum_ext. intros f J. rewrite <- !lsum_scale, <- lsum_plus. apply lsum_ext. intros q Q. ring.
    + rewrite (lsum_0 _ (cells ms)).
      2:{ intros f J. unfold flux. apply (steady_balanced ns hs line diffusion (fun cs => pa_global (pa cs) f)); auto. }
      rewrite (lsum_0 _ (cells ns)); [ring|]. intros cs I. destruct (Pa cs I) as ((Lc & _ & _ & _ & _ & N) & Ec & Ee & _ & Cp & Sp).
      unfold flux. rewrite Ec in Lc, Sp, Cp, N. unfold d in St |- *. fold d in St |- *. rewrite <- Lc in St |- *.
      apply (steady_balanced ms gs line diffusion (pa_global (pa cs))); auto.
      intros js Nj O. unfold z. apply rsum_0. intros i Hi.
      rewrite (corrected_fixed hs num diffusion order rhs_order (pa cs) cs (x cs)); auto; [ring|now apply N|].
      rewrite Cp; auto.
Qed.

End Whole.

(** * Uniqueness *)
Lemma patched_one : forall ns hs num n con ms gs pa diffusion order rhs_order line rquad fs source neumann g x,
  length hs = length ns -> length ms = length ns -> length gs = length ns ->
  Forall (fun m => (0 < m)%nat) ns -> Forall (fun m => (0 < m)%nat) ms -> Forall (Rlt 0) hs -> Forall (Rlt 0) gs ->
  numbering ns num n -> two_points line -> (forall y, positive (length ns) (diffusion y)) ->
  (exists i, (i < n)%nat /\ con i = true) ->
  (forall cs, In cs (cells ns) -> sound (length ns) (pa cs) /\ pa_cells (pa cs) = ms /\ pa_edges (pa cs) = gs /\
     (forall f, In f (cells ms) -> pa_inside (pa cs) f = true) /\
     outer_constrained (pa_cells (pa cs)) (pa_num (pa cs)) (pa_con (pa cs))) ->
  (forall cs, In cs (cells ns) -> corrected hs num diffusion order rhs_order (pa cs) cs (x cs)) ->
  one_solution n (coarse_solution (length ns) (list R) diffusion source neumann n con g (patched ns hs num pa line rquad x fs)).
Proof.
  intros ns hs num n con ms gs pa diffusion order rhs_order line rquad fs source neumann g x Lh Lm Lg Fn Fm Fh Fg Nu Tp Po Ex H X.
  replace (patched ns hs num pa line rquad x fs) with
    (map (fun cs => (box_cell hs num cs (inner_elements ms gs line (pa_global (pa cs)) (rquad cs)
       (fun f i xs => value (fun js => x cs i (pa_num (pa cs) js)) f xs) (fun i js => x cs i (pa_num (pa cs) js))), fs cs)) (cells ns)).
  - apply (inner_one ns hs num n ms gs diffusion line (fun cs i js => x cs i (pa_num (pa cs) js))); auto.
    intros cs i js I Li N O. destruct (H cs I) as ((_ & _ & _ & _ & _ & Np) & Ec & _ & _ & Cp).
    apply (corrected_fixed hs num diffusion order rhs_order (pa cs) cs (x cs)); auto.
    + apply Np. now rewrite Ec.
    + rewrite Cp; rewrite Ec; auto.
  - unfold patched. apply map_ext_in. intros cs I. f_equal. f_equal. destruct (H cs I) as (_ & Ec & Ee & In & _).
    unfold inner_elements, patch_elements. rewrite Ec, Ee. apply map_ext_in. intros f J. now rewrite (In f J).
Qed.

Lemma first_cell : forall ns, Forall (fun m => (0 < m)%nat) ns -> exists cs, In cs (cells ns).
Proof.
  intros ns F. induction F as [|m r P F (cs & I)]; [exists []; now left|]. exists (0%nat :: cs). cbn [cells]. apply in_flat_map.
  exists 0%nat. split; [apply in_seq; lia|now apply in_map].
Qed.
Lemma some_outer : forall ns num n con, ns <> [] -> numbering ns num n -> outer_constrained ns num con ->
  exists i, (i < n)%nat /\ con i = true.
Proof.
  intros ns num n con Ne N C. assert (N0 : node ns ns) by (clear; unfold node; induction ns; constructor; auto).
  exists (num ns). split; [now apply N|]. rewrite C by auto. destruct ns; [congruence|]. cbn. now rewrite Nat.eqb_refl, orb_true_r.
Qed.

(** * The reference solution *)
Lemma linear_reference : forall ns hs ss num n con diffusion global line rquad fs source neumann g start v u,
  length hs = length ns -> length ss = length ns -> numbering ns num n -> outer_constrained ns num con ->
  straight ns global -> steady (length ns) diffusion (slope ss hs) -> linear ss v -> (forall y, source y = 0) ->
  (forall cs f, In cs (cells ns) -> In f (fs cs) -> cf_neumann _ f = false) ->
  (forall js, node ns js -> outer_node ns js = true -> g (num js) = v js) ->
  (forall js, node ns js -> u (num js) = v js) ->
  fem_solution (length ns) (list R) diffusion source neumann n con g start
    (fine_boxes ns hs num global (product_rule line (length ns)) rquad fs) u.
Proof.
  intros ns hs ss num n con diffusion global line rquad fs source neumann g start v u Lh Ls Nu Con Sg St Li So Nf Gv U.
  apply fem_weak_form.
  { intros c f i I L. apply in_map_iff in I. destruct I as (cs & E & I). injection E as <- <-. cbn in L |- *.
    apply (proj1 Nu). apply (corner_node ns cs); auto. now apply nth_In. }
  split.
  { intros i L C. destruct (proj2 (proj2 Nu) i L) as (js & N & <-). rewrite Con in C by auto. rewrite U, Gv; auto. }
  intros w W. assert (Vw : vanishing ns (nodal num w)).
  { intros js N O. apply W; [now apply Nu|]. now rewrite Con. }
  transitivity 0.
  2:{ symmetry. unfold fine_boxes. rewrite lsum_map. apply lsum_0. intros cs I. cbn [fst snd]. unfold fine_load, boundary_load.
    rewrite lsum_0 by (intros; rewrite So; ring).
    assert (F : filter (cf_neumann (list R)) (fs cs) = []).
    { specialize (fun f => Nf cs f I). induction (fs cs) as [|f r IH]; auto. cbn [filter]. rewrite Nf by now left.
      apply IH. intros f' I'. apply Nf. now right. }
    rewrite F. cbn. ring. }
  transitivity (volume hs * bsum ns line (fun cs xs => dot (length ns) (mv (length ns) (diffusion (global cs xs)) (slope ss hs))
    (grad hs (nodal num w) cs xs))).
  2:{ rewrite steady_balanced by auto. ring. }
  unfold fine_boxes, bsum. rewrite lsum_map, <- lsum_scale. apply lsum_ext. intros cs I. cbn [fst]. unfold fine_energy.
  cbn [fem_cell fc_quad fc_factor fc_global]. rewrite <- lsum_scale. apply lsum_ext. intros q Q.
  assert (L : length (fst q) = length cs) by (rewrite (rule_length _ _ _ Q); symmetry; now apply cells_length).
  rewrite <- Rmult_assoc. f_equal. apply dot_ext.
  - intros k Lk. apply mv_ext. intros m Lm.
    pose proof (box_fine_grad ns hs num n u cs [] (global cs) (volume hs) (product_rule line (length ns)) (rquad cs) (fst q) m Nu I L) as B.
    etransitivity; [exact B|]. pose proof (cells_length _ _ I).
    rewrite <- (slope_grad ss hs v cs (fst q) m) by (auto; lia).
    apply grad_ext; auto. intros js J. unfold nodal. apply U. now apply (corner_node ns cs).
  - intros k Lk. now apply (box_fine_grad ns hs num n w cs [] (global cs) (volume hs) (product_rule line (length ns)) (rquad cs) (fst q) k).
Qed.
