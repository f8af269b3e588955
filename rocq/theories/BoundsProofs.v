(** Proofs for C119. *)
From Coq Require Import Reals List Arith Bool Lra Lia.
From Verif Require Import Util RSum CoarseModel CoarseSpec CoarseProofs LinModel LinSpec LinProofs.
From Verif Require Import SystemModel SystemSpec SystemProofs FemModel EnergySpec EnergyProofs QuadModel QuadSpec QuadProofs.
From Verif Require Import PatchSpec PatchProofs SolveSpec SolveProofs LayerSpec LayerProofs MaxSpec MaxProofs BoundsSpec.
Import ListNotations.
Open Scope R_scope.

Lemma lsum_le : forall A (l : list A) f g, (forall a, In a l -> f a <= g a) -> lsum l f <= lsum l g.
Proof.
  induction l as [|a l IH]; intros f g H; cbn [lsum]; [lra|].
  pose proof (H a (or_introl eq_refl)). pose proof (IH f g (fun b I => H b (or_intror I))). lra.
Qed.

Lemma lsum_pos : forall A (l : list A) f, l <> [] -> (forall a, In a l -> 0 < f a) -> 0 < lsum l f.
Proof.
  intros A [|a l] f N H; [congruence|]. cbn [lsum]. pose proof (H a (or_introl eq_refl)).
  assert (0 <= lsum l f) by (apply lsum_nonneg; intros b I; apply Rlt_le; apply H; now right). lra.
Qed.

(** * The energy of a linear function plus a correction on one local grid *)
Definition sloped (d : nat) (g : nat -> R) (p : patch) (X : list nat -> R) (f : list nat) (xs : list R) : nat -> R :=
  fun k => g k + grad (pa_edges p) X f xs k.
Definition cell_form (d o : nat) (diffusion : list R -> nat -> nat -> R) (g : nat -> R) (p : patch) (X : list nat -> R) : R :=
  volume (pa_edges p) * bsum (pa_cells p) (line_rule (gauss_points o)) (fun f xs =>
    dot d (mv d (diffusion (pa_global p f xs)) (sloped d g p X f xs)) (sloped d g p X f xs)).

Lemma bsum_le : forall ns line f g, Forall (fun p => 0 < snd p) line ->
  (forall cs xs, In cs (cells ns) -> length xs = length cs -> f cs xs <= g cs xs) -> bsum ns line f <= bsum ns line g.
Proof.
  intros ns line f g F H. unfold bsum. apply lsum_le. intros cs I. apply lsum_le. intros q J.
  pose proof (rule_positive _ _ _ F J). apply Rmult_le_compat_l; [lra|]. apply H; auto.
  rewrite (rule_length _ _ _ J). symmetry. now apply cells_length.
Qed.

Lemma dot_sym_mv : forall d A u v, (forall i j, (i < d)%nat -> (j < d)%nat -> A i j = A j i) ->
  dot d (mv d A u) v = dot d (mv d A v) u.
Proof.
  intros d A u v S. unfold dot, mv.
  rewrite (rsum_ext d _ (fun i => rsum d (fun j => A i j * u j * v i))) by (intros; now rewrite <- rsum_scale_r).
  rewrite (rsum_ext d (fun i => _ * u i) (fun i => rsum d (fun j => A i j * v j * u i))) by (intros; now rewrite <- rsum_scale_r).
  rewrite rsum_swap. apply rsum_ext. intros i Li. apply rsum_ext. intros j Lj. rewrite (S i j) by auto. ring.
Qed.

(** Energy of a field is at least twice its product with [s] minus the energy
    of the field of flux [s]. *)
Lemma density_lower : forall d A w s b, symmetric_nonnegative d A -> (forall k, (k < d)%nat -> mv d A b k = s k) ->
  2 * dot d s w - dot d s b <= dot d (mv d A w) w.
Proof.
  intros d A w s b (S & P) B.
  pose proof (P (fun k => w k - b k)) as H.
  assert (M : forall k, mv d A (fun k => w k - b k) k = mv d A w k - mv d A b k).
  { intros k. unfold mv. rewrite <- rsum_minus. apply rsum_ext. intros. ring. }
  assert (E : dot d (mv d A (fun k => w k - b k)) (fun k => w k - b k) =
    dot d (mv d A w) w - dot d (mv d A w) b - dot d (mv d A b) w + dot d (mv d A b) b).
  { unfold dot. rewrite <- !rsum_minus, <- rsum_plus. apply rsum_ext. intros k _. rewrite M. ring. }
  rewrite E, (dot_sym_mv d A w b S) in H.
  rewrite (dot_ext d (mv d A b) s w w), (dot_ext d (mv d A b) s b b) in H by auto. lra.
Qed.

Lemma bsum_const : forall ns line c, lsum line snd = 1 -> bsum ns line (fun _ _ => c) = INR (length (cells ns)) * c.
Proof.
  intros ns line c E.
  assert (W : forall d, lsum (product_rule line d) (fun q => snd q * c) = c).
  { induction d as [|d IH]; [cbn; ring|]. rewrite rule_cons.
    rewrite (lsum_ext _ line _ (fun p => c * snd p)).
    - rewrite lsum_scale, E. ring.
    - intros p _. cbn [snd]. transitivity (snd p * lsum (product_rule line d) (fun q => snd q * c)); [|rewrite IH; ring].
      rewrite <- lsum_scale. apply lsum_ext. intros q _. ring. }
  unfold bsum. rewrite (lsum_ext _ _ _ (fun _ => c)) by (intros; apply W).
  induction (cells ns) as [|a l IH]; [cbn; ring|]. cbn [lsum length]. rewrite IH, S_INR. ring.
Qed.

Lemma gauss_weights : forall m, (2 <= m <= 3)%nat -> lsum (line_rule m) snd = 1.
Proof. intros m H. exact (proj1 (gauss_moments m H)). Qed.
Lemma gauss_positive : forall m, (2 <= m <= 3)%nat -> Forall (fun p => 0 < snd p) (line_rule m).
Proof. intros m H. exact (proj1 (gauss_two m H)). Qed.

(** ** Lower bound, for whatever vanishes on the outer nodes. *)
Lemma cell_lower : forall d o diffusion g p X s b, sound d p -> (2 <= gauss_points o <= 3)%nat ->
  (forall y, symmetric_nonnegative d (diffusion y)) -> (forall y k, (k < d)%nat -> mv d (diffusion y) (b y) k = s k) ->
  vanishing (pa_cells p) X ->
  volume (pa_edges p) * (INR (length (cells (pa_cells p))) * (2 * dot d s g) -
    bsum (pa_cells p) (line_rule (gauss_points o)) (fun f xs => dot d s (b (pa_global p f xs)))) <=
  cell_form d o diffusion g p X.
Proof.
  intros d o diffusion g p X s b So Or Sn B V. unfold cell_form. destruct So as (Lc & Le & Ll & Fc & Fe & Nu).
  apply Rmult_le_compat_l; [apply Rlt_le; now apply volume_pos|].
  assert (Z : bsum (pa_cells p) (line_rule (gauss_points o)) (fun f xs => dot d s (grad (pa_edges p) X f xs)) = 0).
  { unfold dot. rewrite bsum_rsum. apply rsum_0. intros k _. rewrite bsum_scale, mean_slope by auto. ring. }
  rewrite <- (bsum_const (pa_cells p) (line_rule (gauss_points o))) by now apply gauss_weights.
  rewrite <- bsum_minus. rewrite <- (Rplus_0_r (bsum _ _ (fun f xs => _ - _))).
  replace 0 with (2 * bsum (pa_cells p) (line_rule (gauss_points o)) (fun f xs => dot d s (grad (pa_edges p) X f xs))) by (rewrite Z; ring).
  rewrite <- (Rmult_1_l (bsum _ _ (fun f xs => _ - _))).
  rewrite <- (bsum_lin _ _ 1 2). apply bsum_le; [now apply gauss_positive|]. intros f xs _ _.
  pose proof (density_lower d (diffusion (pa_global p f xs)) (sloped d g p X f xs) s (b (pa_global p f xs)) (Sn _) (B _)) as H.
  assert (E : dot d s (sloped d g p X f xs) = dot d s g + dot d s (grad (pa_edges p) X f xs)).
  { unfold dot, sloped. rewrite <- rsum_plus. apply rsum_ext. intros. ring. }
  rewrite E in H. lra.
Qed.

(** ** Energies on the local grid *)
Lemma patch_energy : forall d o diffusion p y z, sound d p ->
  LinSpec.energy d (patch_points d o diffusion p) (field_of (pa_n p) y) (field_of (pa_n p) z) =
  volume (pa_edges p) * bsum (pa_cells p) (line_rule (gauss_points o)) (fun f xs =>
    dot d (mv d (diffusion (pa_global p f xs)) (grad (pa_edges p) (nodal (pa_num p) y) f xs)) (grad (pa_edges p) (nodal (pa_num p) z) f xs)).
Proof.
  intros d o diffusion p y z (Lc & Le & Ll & Fc & Fe & Nu). unfold LinSpec.energy, patch_points, grid_points, varied_elements, bsum.
  rewrite lsum_flat_map, lsum_map, <- lsum_scale. apply lsum_ext. intros f If.
  rewrite lsum_map, <- lsum_scale. unfold cube_rule. rewrite Lc. apply lsum_ext. intros q J. cbn [q_w q_A el_factor el_A el_grad].
  assert (L : length (fst q) = length f) by (rewrite (rule_length _ _ _ J), (cells_length _ _ If); auto).
  rewrite (dot_ext _ _ (mv d (diffusion (pa_global p f (fst q))) (grad (pa_edges p) (nodal (pa_num p) y) f (fst q))) _
    (grad (pa_edges p) (nodal (pa_num p) z) f (fst q))).
  - ring.
  - intros k _. apply mv_ext. intros m _. unfold field_of. cbn [q_grad el_grad]. now apply (nodal_grad (pa_cells p)).
  - intros k _. unfold field_of. cbn [q_grad el_grad]. now apply (nodal_grad (pa_cells p)).
Qed.

Lemma energy_field_ext : forall d qs u u' v v', (forall q k, In q qs -> (k < d)%nat -> u q k = u' q k) ->
  (forall q k, In q qs -> (k < d)%nat -> v q k = v' q k) -> LinSpec.energy d qs u v = LinSpec.energy d qs u' v'.
Proof.
  intros d qs u u' v v' U V. unfold LinSpec.energy. apply lsum_ext. intros q I. f_equal. apply dot_ext; auto.
  intros k _. apply mv_ext. auto.
Qed.

Lemma field_plus : forall n x y q k, field_of n (fun i => x i + y i) q k = field_of n x q k + field_of n y q k.
Proof. intros. unfold field_of. rewrite <- rsum_plus. apply rsum_ext. intros. ring. Qed.

Section Cell.
Variables (ns : list nat) (hs : list R) (num : list nat -> nat) (n : nat).
Variable diffusion : list R -> nat -> nat -> R.
Variables order rhs_order o : nat.
Variable p : patch.
Variable cs : list nat.
Variable x : nat -> nat -> R.
Variable u : nat -> R.
Variable ss : list R.
Let d := length ns.
Let g : nat -> R := fun k => nth k ss 0 / nth k hs 1.
Hypothesis Lh : length hs = length ns.
Hypothesis Fh : Forall (Rlt 0) hs.
Hypothesis Ls : length ss = length ns.
Hypothesis Num : numbering ns num n.
Hypothesis Ic : In cs (cells ns).
Hypothesis So : sound (length ns) p.
Hypothesis Og : (2 <= gauss_points order <= 3)%nat.
Hypothesis Sn : forall y, symmetric_nonnegative (length ns) (diffusion y).
Hypothesis Se : same_energies (length ns) [order; rhs_order; o] diffusion p.
Hypothesis Co : corrected hs num diffusion order rhs_order p cs x.
Variable v : list nat -> R.
Hypothesis Lv : linear ss v.
Hypothesis Uv : forall js, node ns js -> u (num js) = v js.

(** The part added to the coarse function. *)
Definition added_part : list nat -> R := fun js =>
  rsum (length (corners cs)) (fun i => u (num (nth i (corners cs) [])) * x i (pa_num p js)).

Lemma coarse_slope : forall y, (forall js, node (pa_cells p) js -> y (pa_num p js) = restricted hs p (nodal num u) cs js) ->
  forall f xs k, In f (cells (pa_cells p)) -> length xs = length ns -> (k < length ns)%nat ->
  grad (pa_edges p) (nodal (pa_num p) y) f xs k = g k.
Proof.
  intros y Y f xs k If Lx Lk. destruct So as (Lc & Le & Ll & Fc & Fe & Nu). pose proof (cells_length _ _ If) as Lf.
  pose proof (cells_length _ _ Ic) as Lcs.
  rewrite (grad_ext (pa_edges p) f xs k _ (restricted hs p (nodal num u) cs)); [|lia|intros js J; apply Y; now apply (corner_node (pa_cells p) f)].
  unfold restricted. rewrite (grad_affine (pa_low p) (pa_edges p) hs (nodal num u) cs f xs k) by (auto; lia).
  rewrite (grad_ext hs cs _ k _ v).
  - apply (linear_grad ss hs v cs); auto; try lia. rewrite place_length; lia.
  - rewrite place_length; lia.
  - intros js J. apply Uv. now apply (corner_node ns cs).
Qed.

(** It solves the local problem for one function with slope [g]. *)
Lemma cell_split : exists t,
  corrector d (patch_points d order diffusion p) (patch_points d rhs_order diffusion p) (pa_n p) (pa_con p)
    (field_of (pa_n p) t) (fun m => rsum (length (corners cs)) (fun i => u (num (nth i (corners cs) [])) * x i m)) /\
  forall r (X : list nat -> R), (forall js, node (pa_cells p) js -> X js = r (pa_num p js)) ->
    cell_form d o diffusion g p X = LinSpec.energy d (patch_points d order diffusion p)
      (plus (field_of (pa_n p) t) (field_of (pa_n p) r)) (plus (field_of (pa_n p) t) (field_of (pa_n p) r)).
Proof.
  pose proof So as (Lc & Le & Ll & Fc & Fe & Nu).
  destruct (choose (length (corners cs)) (fun i y => (forall js, node (pa_cells p) js ->
      y (pa_num p js) = restricted hs p (one_at num (num (nth i (corners cs) []))) cs js) /\
      corrector d (patch_points d order diffusion p) (patch_points d rhs_order diffusion p)
        (pa_n p) (pa_con p) (field_of (pa_n p) y) (x i))) as (y & Y).
  { intros i Li. destruct (Co i Li) as (y & Y). exists y. rewrite Lh in Y. exact Y. }
  set (w := fun i => u (num (nth i (corners cs) []))).
  set (t := fun m => rsum (length (corners cs)) (fun i => w i * y i m)).
  assert (Ct : corrector d (patch_points d order diffusion p) (patch_points d rhs_order diffusion p) (pa_n p) (pa_con p)
    (field_of (pa_n p) t) (fun m => rsum (length (corners cs)) (fun i => w i * x i m))).
  { apply corrector_field with (f := fun q k => rsum (length (corners cs)) (fun i => w i * field_of (pa_n p) (y i) q k)).
    - intros q k _ _. unfold field_of, t. rewrite (rsum_ext (pa_n p) (fun j => _ * q_grad q j k)
        (fun j => rsum (length (corners cs)) (fun i => w i * (y i j * q_grad q j k)))).
      + rewrite rsum_swap. apply rsum_ext. intros i _. now rewrite rsum_scale.
      + intros j _. rewrite <- rsum_scale_r. apply rsum_ext. intros. ring.
    - apply corrector_sum. intros i Li. apply (Y i Li). }
  assert (Tn : forall js, node (pa_cells p) js -> t (pa_num p js) = restricted hs p (nodal num u) cs js).
  { intros js Nj. rewrite <- (restricted_total ns hs num n p cs Lh Num Ic So u js Nj). unfold t.
    apply rsum_ext. intros i Li. now rewrite (proj1 (Y i Li)). }
  assert (Form : forall r (X : list nat -> R), (forall js, node (pa_cells p) js -> X js = r (pa_num p js)) ->
    cell_form d o diffusion g p X = LinSpec.energy d (patch_points d order diffusion p)
      (plus (field_of (pa_n p) t) (field_of (pa_n p) r)) (plus (field_of (pa_n p) t) (field_of (pa_n p) r))).
  { intros r X E.
    rewrite (energy_field_ext d _ _ (field_of (pa_n p) (fun i => t i + r i)) _ (field_of (pa_n p) (fun i => t i + r i)))
      by (intros; unfold plus; now rewrite field_plus).
    unfold d. rewrite (Se order o) by (cbn; auto). rewrite patch_energy by auto. unfold cell_form. f_equal.
    assert (K : forall f xs k, In f (cells (pa_cells p)) -> length xs = length f -> (k < length ns)%nat ->
      sloped d g p X f xs k = grad (pa_edges p) (nodal (pa_num p) (fun i => t i + r i)) f xs k).
    { intros f xs k If Lx Lk. unfold sloped. pose proof (cells_length _ _ If) as Lf.
      rewrite <- (coarse_slope t Tn f xs k) by (auto; lia).
      rewrite (grad_ext (pa_edges p) f xs k X (nodal (pa_num p) r));
        [|auto|intros js J; apply E; now apply (corner_node (pa_cells p) f)].
      rewrite (grad_ext (pa_edges p) f xs k (nodal (pa_num p) (fun i => t i + r i))
        (fun js => 1 * nodal (pa_num p) t js + 1 * nodal (pa_num p) r js)); [rewrite grad_lin; ring|auto|].
      intros js _. unfold nodal. ring. }
    apply bsum_ext. intros f xs If Lx. apply dot_ext; auto. intros k Lk. apply mv_ext. auto. }
  exists t. split; auto.
Qed.

(** Added to any function with slope [g], it has the least energy. *)
Lemma cell_minimal : forall z, vanishes (pa_n p) (pa_con p) z ->
  cell_form d o diffusion g p added_part <= cell_form d o diffusion g p (nodal (pa_num p) z).
Proof.
  intros z Z. pose proof So as (Lc & Le & Ll & Fc & Fe & Nu). destruct cell_split as (t & Ct & Form).
  set (w := fun i => u (num (nth i (corners cs) []))) in *.
  rewrite (Form (fun m => rsum (length (corners cs)) (fun i => w i * x i m)) added_part) by reflexivity.
  rewrite (Form z (nodal (pa_num p) z)) by reflexivity.
  apply corrector_minimal with (rs := patch_points d rhs_order diffusion p) (constrained := pa_con p); auto.
  - intros q I. unfold patch_points, grid_points, varied_elements in I. apply in_flat_map in I. destruct I as (e & Ie & I).
    apply in_map_iff in Ie. destruct Ie as (f & <- & _). apply in_map_iff in I. destruct I as (r & <- & _). cbn [q_A el_A]. apply Sn.
  - intros q I. unfold patch_points, grid_points, varied_elements in I. apply in_flat_map in I. destruct I as (e & Ie & I).
    apply in_map_iff in Ie. destruct Ie as (f & <- & _). apply in_map_iff in I. destruct I as (r & <- & Ir). cbn [q_w q_A el_factor el_A].
    split; [|apply Sn]. pose proof (rule_positive _ _ _ (gauss_positive _ Og) Ir). pose proof (volume_pos _ Fe). apply Rmult_le_pos; lra.
  - intros m Vm. apply Se; cbn; auto.
Qed.

Lemma added_vanishes : forall i, (i < pa_n p)%nat -> pa_con p i = true ->
  rsum (length (corners cs)) (fun m => u (num (nth m (corners cs) [])) * x m i) = 0.
Proof.
  intros i Li Ci. apply rsum_0. intros m Lm. destruct (Co m Lm) as (y & _ & C). apply corrector_orthogonal in C.
  rewrite (proj1 C i Li Ci). ring.
Qed.
End Cell.

(** * The assembled matrix on a linear function *)
Lemma coarse_form : forall ns hs num n diffusion o pa rquad x fs source neumann M V ss v u,
  length hs = length ns -> length ss = length ns -> numbering ns num n ->
  (forall cs, In cs (cells ns) -> sound (length ns) (pa cs) /\ forall f, pa_inside (pa cs) f = true) ->
  linear ss v -> (forall js, node ns js -> u (num js) = v js) ->
  walk (length ns) (list R) diffusion source neumann (fun _ _ => 0) (fun _ => 0)
    (patched ns hs num pa (line_rule (gauss_points o)) rquad x fs) = Some (M, V) ->
  qform n M u = lsum (cells ns) (fun cs =>
    cell_form (length ns) o diffusion (fun k => nth k ss 0 / nth k hs 1) (pa cs) (added_part num (pa cs) cs (x cs) u)).
Proof.
  intros ns hs num n diffusion o pa rquad x fs source neumann M V ss v u Lh Ls Nu Hp Lv Uv W.
  destruct (walk_val _ _ _ _ _ _ _ _ _ _ W) as (Mv & _).
  set (grid := patched ns hs num pa (line_rule (gauss_points o)) rquad x fs) in *.
  assert (Q : qform n M u = lsum grid (fun cf => qform n (cell_part (length ns) (list R) diffusion (fst cf)) u)).
  { unfold qform. rewrite lsum_rsum. apply rsum_ext. intros a _. rewrite lsum_rsum. apply rsum_ext. intros b _.
    rewrite Mv. rewrite Rplus_0_l.
    rewrite (lsum_ext _ grid (fun cf => _ * u a * u b) (fun cf => u a * u b * cell_part (length ns) (list R) diffusion (fst cf) a b)) by (intros; ring).
    rewrite lsum_scale. ring. }
  rewrite Q. unfold grid, patched. rewrite lsum_map. apply lsum_ext. intros cs I. cbn [fst].
  destruct (Hp cs I) as (So & In_). pose proof So as (Lc & Le & Ll & Fc & Fe & Np).
  rewrite cell_qform.
  2:{ intros i Li. cbn [box_cell cc_n cc_index] in *. apply (proj1 Nu). apply (corner_node ns cs); auto. now apply nth_In. }
  unfold covered. cbn [box_cell cc_locals]. unfold patch_elements.
  assert (All : forall l, filter (lc_covered (list R)) (map (fun f => {| lc_covered := pa_inside (pa cs) f; lc_global := pa_global (pa cs) f;
      lc_factor := fun _ => volume (pa_edges (pa cs)); lc_grad := fun i xs => grad (pa_edges (pa cs)) (fun js => x cs i (pa_num (pa cs) js)) f xs;
      lc_val := fun i xs => value (fun js => x cs i (pa_num (pa cs) js)) f xs;
      lc_quad := product_rule (line_rule (gauss_points o)) (length (pa_cells (pa cs))); lc_rquad := rquad cs f |}) l) =
    map (fun f => {| lc_covered := pa_inside (pa cs) f; lc_global := pa_global (pa cs) f;
      lc_factor := fun _ => volume (pa_edges (pa cs)); lc_grad := fun i xs => grad (pa_edges (pa cs)) (fun js => x cs i (pa_num (pa cs) js)) f xs;
      lc_val := fun i xs => value (fun js => x cs i (pa_num (pa cs) js)) f xs;
      lc_quad := product_rule (line_rule (gauss_points o)) (length (pa_cells (pa cs))); lc_rquad := rquad cs f |}) l).
  { induction l as [|f l IHl]; [reflexivity|]. cbn [map filter lc_covered]. rewrite In_. now rewrite IHl. }
  rewrite All, lsum_map. unfold cell_form, bsum. rewrite <- lsum_scale. apply lsum_ext. intros f If.
  unfold CoarseSpec.energy. cbn [lc_quad lc_factor lc_global]. rewrite <- lsum_scale. apply lsum_ext. intros q J.
  assert (Lq : length (fst q) = length ns) by (rewrite (rule_length _ _ _ J); exact Lc).
  pose proof (cells_length _ _ I) as Lcs.
  assert (G : forall k, (k < length ns)%nat ->
    rsum (length (corners cs)) (fun j => u (num (nth j (corners cs) [])) *
      used_grad (list R) (box_cell hs num cs (patch_elements (pa cs) (line_rule (gauss_points o)) (rquad cs) (x cs)))
        {| lc_covered := pa_inside (pa cs) f; lc_global := pa_global (pa cs) f;
      lc_factor := fun _ => volume (pa_edges (pa cs)); lc_grad := fun i xs => grad (pa_edges (pa cs)) (fun js => x cs i (pa_num (pa cs) js)) f xs;
      lc_val := fun i xs => value (fun js => x cs i (pa_num (pa cs) js)) f xs;
      lc_quad := product_rule (line_rule (gauss_points o)) (length (pa_cells (pa cs))); lc_rquad := rquad cs f |} j (fst q) k) =
    sloped (length ns) (fun k => nth k ss 0 / nth k hs 1) (pa cs) (added_part num (pa cs) cs (x cs) u) f (fst q) k).
  { intros k Lk.
    pose proof (patch_grad ns hs num n (pa cs) cs (patch_elements (pa cs) (line_rule (gauss_points o)) (rquad cs) (x cs)) u f (fst q) k
      (line_rule (gauss_points o)) (rquad cs) (x cs) Nu I So Lh If Lq) as P.
    unfold test_grad in P. cbn [box_cell cc_n cc_index] in P. rewrite P. unfold sloped, added_part. f_equal.
    rewrite (grad_ext hs cs (fst q) k (nodal num u) v); [|lia|intros js Jj; apply Uv; now apply (corner_node ns cs)].
    apply linear_grad; auto; lia. }
  rewrite (dot_ext (length ns) _ (mv (length ns) (diffusion (pa_global (pa cs) f (fst q)))
      (sloped (length ns) (fun k => nth k ss 0 / nth k hs 1) (pa cs) (added_part num (pa cs) cs (x cs) u) f (fst q))) _
    (sloped (length ns) (fun k => nth k ss 0 / nth k hs 1) (pa cs) (added_part num (pa cs) cs (x cs) u) f (fst q))).
  - ring.
  - intros k Lk. apply mv_ext. intros m Lm. now apply G.
  - intros k Lk. now apply G.
Qed.

(** * Volumes *)
Lemma cells_number : forall ns, INR (length (cells ns)) = volume (map INR ns).
Proof.
  induction ns as [|n ns IH]; [cbn; ring|]. cbn [cells map volume fold_right].
  assert (E : forall l, length (flat_map (fun c => map (cons c) (cells ns)) l) = (length l * length (cells ns))%nat).
  { induction l as [|a l IHl]; [reflexivity|]. cbn [flat_map length]. rewrite app_length, map_length, IHl. lia. }
  rewrite E, seq_length, mult_INR, IH. reflexivity.
Qed.
Lemma fills_volume : forall hs p, sound (length hs) p -> fills hs p ->
  INR (length (cells (pa_cells p))) * volume (pa_edges p) = volume hs.
Proof.
  intros hs p (Lc & Le & Ll & _) F. rewrite cells_number.
  assert (G : forall k, (k < length hs)%nat -> INR (nth k (pa_cells p) 0%nat) * nth k (pa_edges p) 0 = nth k hs 0)
    by (intros k L; apply (F k L)).
  clear F Ll. revert Lc Le G. generalize (pa_cells p) as ms, (pa_edges p) as es.
  induction hs as [|h hs IH]; intros [|m ms] [|e es] Lc Le G; try discriminate; [cbn; ring|].
  cbn [map volume fold_right]. pose proof (G 0%nat ltac:(cbn; lia)) as G0. cbn [nth] in G0.
  fold (volume es). fold (volume hs). fold (volume (map INR ms)).
  rewrite <- (IH ms es), <- G0 by (try (cbn in *; lia); intros k L; apply (G (S k)); cbn; lia). ring.
Qed.
Lemma cells_some : forall ns, Forall (fun m => (0 < m)%nat) ns -> 0 < INR (length (cells ns)).
Proof.
  intros ns F. rewrite cells_number. apply volume_pos. induction F; cbn; constructor; auto. now apply lt_0_INR.
Qed.

(** * Matrices that are constant in the fine cells *)
Lemma poly_cons : forall d m e f, (e <= m)%nat -> poly d m f -> poly (S d) m (fun xs => nth 0 xs 0 ^ e * f (tl xs)).
Proof.
  intros d m e f L (ts & H & E). exists (map (fun t => (fst t, e :: snd t)) ts). split.
  - intros t I. apply in_map_iff in I. destruct I as (t' & <- & I). destruct (H t' I) as (L1 & B). cbn [snd length].
    split; [lia|]. intros i [<-|J]; auto.
  - intros [|x xs] Lx; [discriminate|]. injection Lx as Lx. cbn [nth tl]. rewrite E by auto. rewrite lsum_map, <- lsum_scale.
    apply lsum_ext. intros t _. cbn [fst snd monomial]. ring.
Qed.
Lemma value_poly : forall cs v, poly (length cs) 1 (value v cs).
Proof.
  induction cs as [|c cs IH]; intros v.
  { apply (poly_ext 0 1 (fun _ => v [])); [intros [|x xs] L; [reflexivity|discriminate]|apply poly_const]. }
  cbn [length].
  apply (poly_ext (S (length cs)) 1 (fun xs => nth 0 xs 0 ^ 0 * value (fun js => v (c :: js)) cs (tl xs) +
    (nth 0 xs 0 ^ 1 * value (fun js => v (S c :: js)) cs (tl xs) + (-1) * (nth 0 xs 0 ^ 1 * value (fun js => v (c :: js)) cs (tl xs))))).
  - intros [|x xs] L; [discriminate|]. cbn [nth tl value pow]. ring.
  - apply poly_plus; [apply poly_cons; auto|]. apply poly_plus; [apply poly_cons; auto|]. apply poly_scale. apply poly_cons; auto.
Qed.
Lemma grad_poly : forall hs cs v k, length hs = length cs -> poly (length cs) 1 (fun xs => grad hs v cs xs k).
Proof.
  induction hs as [|h hs IH]; intros [|c cs] v k L; try discriminate.
  { apply (poly_ext 0 1 (fun _ => 0)); [reflexivity|apply poly_const]. }
  injection L as L. cbn [length]. destruct k as [|k].
  - apply (poly_ext (S (length cs)) 1 (fun xs => / h * (nth 0 xs 0 ^ 0 * value (fun js => v (S c :: js)) cs (tl xs)) +
      (- / h) * (nth 0 xs 0 ^ 0 * value (fun js => v (c :: js)) cs (tl xs)))).
    + intros [|x xs] Lx; [discriminate|]. cbn [nth tl grad pow]. unfold Rdiv. ring.
    + apply poly_plus; apply poly_scale; apply poly_cons; auto; apply value_poly.
  - apply (poly_ext (S (length cs)) 1 (fun xs => nth 0 xs 0 ^ 0 * grad hs (fun js => v (c :: js)) cs (tl xs) k +
      (nth 0 xs 0 ^ 1 * grad hs (fun js => v (S c :: js)) cs (tl xs) k + (-1) * (nth 0 xs 0 ^ 1 * grad hs (fun js => v (c :: js)) cs (tl xs) k)))).
    + intros [|x xs] Lx; [discriminate|]. cbn [nth tl grad pow]. ring.
    + apply poly_plus; [|apply poly_plus; [|apply poly_scale]]; (apply (poly_cons _ _ _ (fun ys => grad hs _ cs ys k)); [auto|now apply IH]).
Qed.

Lemma tensor_energies : forall d os diffusion p A, sound d p -> cell_tensor p diffusion A ->
  (forall o, In o os -> (2 <= o <= 5)%nat) -> same_energies d os diffusion p.
Proof.
  intros d os diffusion p A So Ct Ho o o' y z I I'. pose proof So as (Lc & Le & Ll & Fc & Fe & Nu).
  assert (E : forall o, LinSpec.energy d (patch_points d o diffusion p) (field_of (pa_n p) y) (field_of (pa_n p) z) =
    LinSpec.energy d (grid_points d o (varied_elements (pa_cells p) (pa_edges p) (pa_num p) (fun f _ => A f))) (field_of (pa_n p) y) (field_of (pa_n p) z)).
  { intros m. unfold LinSpec.energy, patch_points, grid_points, varied_elements. rewrite !lsum_flat_map, !lsum_map.
    apply lsum_ext. intros f If. rewrite !lsum_map. apply lsum_ext. intros q J. cbn [q_w q_A el_factor el_A el_grad]. f_equal.
    apply dot_ext; [|reflexivity]. intros k Lk. unfold mv. apply rsum_ext. intros j Lj.
    unfold cube_rule in J. rewrite Ct; try lia; auto.
    - rewrite (rule_length _ _ _ J). auto.
    - apply (rule_inside _ (gauss_inside _) _ _ J). }
  rewrite !E. apply (grid_products_agree d 0); try (destruct (Ho o I), (Ho o' I'); auto; lia).
  - pose proof (Ho o I). assert (O2 : (o = 2 \/ o = 3 \/ o = 4 \/ o = 5)%nat) by lia. destruct O2 as [->|[->|[->| ->]]]; cbn; lia.
  - pose proof (Ho o' I'). assert (O2 : (o' = 2 \/ o' = 3 \/ o' = 4 \/ o' = 5)%nat) by lia. destruct O2 as [->|[->|[->| ->]]]; cbn; lia.
  - intros e Ie. apply in_map_iff in Ie. destruct Ie as (f & <- & If). split; [|split]; cbn [el_factor el_A el_grad].
    + apply poly_const.
    + intros i j _ _. apply poly_const.
    + intros i _ k _. rewrite <- Lc, <- (cells_length _ _ If). apply grad_poly. rewrite (cells_length _ _ If). lia.
Qed.

(** Means of functions that are constant inside the fine cells. *)
Lemma average_cells : forall d o p F c, sound d p -> (2 <= gauss_points o <= 3)%nat ->
  (forall f xs, In f (cells (pa_cells p)) -> length xs = d -> Forall (fun x => 0 < x < 1) xs -> F (pa_global p f xs) = c f) ->
  average d o p F = lsum (cells (pa_cells p)) c / INR (length (cells (pa_cells p))).
Proof.
  intros d o p F c (Lc & _) Oo H. unfold average. f_equal. apply lsum_ext. intros f If.
  rewrite (lsum_ext _ _ _ (fun q => snd q * c f)).
  - pose proof (bsum_const (repeat 1%nat d) (line_rule (gauss_points o)) (c f) (gauss_weights _ Oo)) as B.
    unfold bsum, cube_rule in *. rewrite repeat_length in B.
    assert (E : forall m, cells (repeat 1%nat m) = [repeat 0%nat m]).
    { induction m as [|m IHm]; [reflexivity|]. cbn [repeat cells]. rewrite IHm. reflexivity. }
    rewrite E in B. cbn [lsum length INR] in B. rewrite Rplus_0_r in B. rewrite B. ring.
  - intros q J. unfold cube_rule in J. f_equal. apply H; auto.
    + now rewrite (rule_length _ _ _ J).
    + apply (rule_inside _ (gauss_inside _) _ _ J).
Qed.
