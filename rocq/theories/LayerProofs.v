(** Proofs for C111. *)
From Coq Require Import Reals List Arith Bool Lra Lia.
From Verif Require Import Util RSum LinModel LinSpec LinProofs QuadModel CoarseModel CoarseSpec SystemModel SystemSpec SystemProofs.
From Verif Require Import EnergySpec EnergyProofs PatchSpec PatchProofs SolutionProofs SolveSpec SolveProofs LayerSpec.
Import ListNotations.
Open Scope R_scope.

(** * Coarse functions on local grids *)
Lemma place_length : forall os gs hs fs xs, length gs = length os -> length hs = length os -> length fs = length os ->
  length xs = length os -> length (place os gs hs fs xs) = length os.
Proof.
  induction os as [|o os IH]; intros [|g gs] [|h hs] [|f fs] [|x xs] A B C D; try discriminate; cbn in *; auto.
Qed.
Lemma nth_place : forall os gs hs fs xs k, length gs = length os -> length hs = length os -> length fs = length os ->
  length xs = length os -> (k < length os)%nat ->
  nth k (place os gs hs fs xs) 0 = nth k os 0 + (INR (nth k fs 0%nat) + nth k xs 0) * (nth k gs 1 / nth k hs 1).
Proof.
  induction os as [|o os IH]; intros [|g gs] [|h hs] [|f fs] [|x xs] k A B C D L; try discriminate; cbn [length] in *; [lia|].
  destruct k as [|k]; cbn [place nth]; auto. apply IH; lia.
Qed.

(** Node values at zero offset. *)
Notation at0 js := (map (fun _ => 0) js).
Lemma at0_length : forall js : list nat, length (map (fun _ => 0) js) = length js.
Proof. intros. now rewrite map_length. Qed.

Lemma value_affine : forall os gs hs v cs fs xs, length os = length cs -> length gs = length cs -> length hs = length cs ->
  length fs = length cs -> length xs = length cs ->
  value (fun js => value v cs (place os gs hs js (at0 js))) fs xs = value v cs (place os gs hs fs xs).
Proof.
  intros os gs hs v cs. revert os gs hs v.
  induction cs as [|c cs IH]; intros [|o os] [|g gs] [|h hs] v [|f fs] [|x xs] L1 L2 L3 L4 L5; try discriminate; [reflexivity|].
  cbn [length] in *. cbn [value]. cbn [map place value].
  rewrite (value_lin fs xs (1 - (o + (INR f + 0) * (g / h))) (o + (INR f + 0) * (g / h))
    (fun js => value (fun js' => v (c :: js')) cs (place os gs hs js (at0 js)))
    (fun js => value (fun js' => v (S c :: js')) cs (place os gs hs js (at0 js)))).
  rewrite (value_lin fs xs (1 - (o + (INR (S f) + 0) * (g / h))) (o + (INR (S f) + 0) * (g / h))
    (fun js => value (fun js' => v (c :: js')) cs (place os gs hs js (at0 js)))
    (fun js => value (fun js' => v (S c :: js')) cs (place os gs hs js (at0 js)))).
  rewrite (IH os gs hs (fun js => v (c :: js))) by lia. rewrite (IH os gs hs (fun js => v (S c :: js))) by lia.
  rewrite S_INR. ring.
Qed.

Lemma grad_affine : forall os gs hs v cs fs xs k, length os = length cs -> length gs = length cs -> length hs = length cs ->
  length fs = length cs -> length xs = length cs -> Forall (Rlt 0) gs -> Forall (Rlt 0) hs ->
  grad gs (fun js => value v cs (place os gs hs js (at0 js))) fs xs k = grad hs v cs (place os gs hs fs xs) k.
Proof.
  intros os gs hs v cs. revert os gs hs v.
  induction cs as [|c cs IH]; intros [|o os] [|g gs] [|h hs] v [|f fs] [|x xs] k L1 L2 L3 L4 L5 Fg Fh; try discriminate; [reflexivity|].
  cbn [length] in *. inversion Fg; subst. inversion Fh; subst.
  destruct k as [|k]; cbn [grad]; cbn [map place value grad].
  - rewrite (value_lin fs xs (1 - (o + (INR f + 0) * (g / h))) (o + (INR f + 0) * (g / h))
      (fun js => value (fun js' => v (c :: js')) cs (place os gs hs js (at0 js)))
      (fun js => value (fun js' => v (S c :: js')) cs (place os gs hs js (at0 js)))).
    rewrite (value_lin fs xs (1 - (o + (INR (S f) + 0) * (g / h))) (o + (INR (S f) + 0) * (g / h))
      (fun js => value (fun js' => v (c :: js')) cs (place os gs hs js (at0 js)))
      (fun js => value (fun js' => v (S c :: js')) cs (place os gs hs js (at0 js)))).
    rewrite (value_affine os gs hs (fun js => v (c :: js))) by lia. rewrite (value_affine os gs hs (fun js => v (S c :: js))) by lia.
    rewrite S_INR. field. lra.
  - rewrite (grad_lin gs fs xs k (1 - (o + (INR f + 0) * (g / h))) (o + (INR f + 0) * (g / h))
      (fun js => value (fun js' => v (c :: js')) cs (place os gs hs js (at0 js)))
      (fun js => value (fun js' => v (S c :: js')) cs (place os gs hs js (at0 js)))).
    rewrite (grad_lin gs fs xs k (1 - (o + (INR (S f) + 0) * (g / h))) (o + (INR (S f) + 0) * (g / h))
      (fun js => value (fun js' => v (c :: js')) cs (place os gs hs js (at0 js)))
      (fun js => value (fun js' => v (S c :: js')) cs (place os gs hs js (at0 js)))).
    rewrite (IH os gs hs (fun js => v (c :: js))) by (auto; lia). rewrite (IH os gs hs (fun js => v (S c :: js))) by (auto; lia).
    rewrite S_INR. ring.
Qed.

(** * Functions of one coordinate *)
Lemma value_const : forall a cs xs, value (fun _ => a) cs xs = a.
Proof. intros a cs. induction cs as [|c cs IH]; intros [|x xs]; cbn [value]; auto. rewrite !IH. ring. Qed.

Lemma layer_value : forall a b cs xs v, length xs = length cs -> (a < length cs)%nat ->
  (forall js, In js (corners cs) -> v js = b (nth a js 0%nat)) ->
  value v cs xs = b (nth a cs 0%nat) + (b (S (nth a cs 0%nat)) - b (nth a cs 0%nat)) * nth a xs 0.
Proof.
  intros a b cs. revert a. induction cs as [|c cs IH]; intros a [|x xs] v L La E; cbn [length] in *; try lia.
  rewrite (value_ext (c :: cs) (x :: xs) v (fun js => b (nth a js 0%nat))) by (cbn [length]; auto; lia).
  cbn [value]. destruct a as [|a]; cbn [nth].
  - rewrite !value_const. ring.
  - rewrite (IH a xs (fun js => b (nth a js 0%nat))) by (auto; lia). ring.
Qed.

Lemma layer_grad : forall a b hs cs xs v k, length xs = length cs -> length hs = length cs -> (a < length cs)%nat ->
  (forall js, In js (corners cs) -> v js = b (nth a js 0%nat)) ->
  grad hs v cs xs k = if Nat.eqb k a then (b (S (nth a cs 0%nat)) - b (nth a cs 0%nat)) / nth a hs 1 else 0.
Proof.
  intros a b hs cs. revert a hs. induction cs as [|c cs IH]; intros a [|h hs] [|x xs] v k L Lh La E; cbn [length] in *; try lia.
  rewrite (grad_ext (h :: hs) (c :: cs) (x :: xs) k v (fun js => b (nth a js 0%nat))) by (cbn [length]; auto; lia).
  destruct k as [|k], a as [|a]; cbn [grad nth Nat.eqb].
  - now rewrite !value_const.
  - unfold Rdiv. ring.
  - rewrite (grad_ext hs cs xs k (fun _ => b c) (fun _ => b c * 1 + 0 * 0)) by (auto; intros; ring).
    rewrite (grad_ext hs cs xs k (fun _ => b (S c)) (fun _ => b (S c) * 1 + 0 * 0)) by (auto; intros; ring).
    rewrite !(grad_lin hs cs xs k _ 0 (fun _ => 1) (fun _ => 0)).
    rewrite (grad_const hs 1), grad_zero. ring.
  - rewrite (IH a hs xs (fun js => b (nth a js 0%nat))) by (auto; lia). destruct (Nat.eqb k a); ring.
Qed.

(** * Sums of correctors *)
Lemma corrector_field : forall d qs rs n con f g x, (forall q k, In q rs -> (k < d)%nat -> f q k = g q k) ->
  corrector d qs rs n con f x -> corrector d qs rs n con g x.
Proof.
  intros d qs rs n con f g x E C. apply corrector_orthogonal in C. apply corrector_orthogonal. destruct C as (V & C).
  split; auto. intros y Y. rewrite <- (C y Y). f_equal. apply energy_ext_l. intros. symmetry. auto.
Qed.
Lemma corrector_sum : forall d qs rs n con N w f x,
  (forall i, (i < N)%nat -> corrector d qs rs n con (f i) (x i)) ->
  corrector d qs rs n con (fun q k => rsum N (fun i => w i * f i q k)) (fun m => rsum N (fun i => w i * x i m)).
Proof.
  intros d qs rs n con N w f x. induction N as [|N IH]; intros C.
  - apply corrector_zero_always. intros y _. unfold LinSpec.energy. apply lsum_0. intros q _. unfold dot.
    rewrite rsum_0; [ring|]. intros k _. unfold mv. rewrite rsum_0; [ring|]. intros j _. cbn. ring.
  - pose proof (corrector_combine d qs rs n con 1 (w N) _ _ _ _ (IH (fun i L => C i (Nat.lt_lt_succ_r _ _ L))) (C N (Nat.lt_succ_diag_r N))) as K.
    unfold combine_fields, combine2 in K.
    apply corrector_field with (g := fun q k => rsum (S N) (fun i => w i * f i q k)) in K; [|intros; cbn [rsum]; ring].
    apply corrector_bvp in K. apply corrector_bvp. intros i Li. specialize (K i Li).
    destruct (con i); [cbn [rsum] in *; lra|]. rewrite <- K. apply rsum_ext. intros j _. cbn [rsum]. ring.
Qed.

Lemma ones_grad : forall ns hs num n (A : list nat -> list R -> nat -> nat -> R) order q k, numbering ns num n ->
  In q (grid_points (length ns) order (varied_elements ns hs num A)) -> rsum n (fun j => q_grad q j k) = 0.
Proof.
  intros ns hs num n A order q k Nu I. unfold grid_points, varied_elements in I. apply in_flat_map in I.
  destruct I as (e & I & J). apply in_map_iff in I. destruct I as (cs & <- & I). apply in_map_iff in J.
  destruct J as (r & <- & J). cbn [q_grad el_grad]. pose proof (rule_length _ _ _ J) as L.
  rewrite (rsum_ext n _ (fun j => 1 * grad hs (one_at num j) cs (fst r) k)) by (intros; ring).
  rewrite (nodal_grad ns hs num n (fun _ => 1)); auto; [|rewrite (cells_length _ _ I); exact L].
  unfold nodal. apply grad_const.
Qed.

(** * One constrained side *)
Section Side.
Variables (hs : list R) (num : list nat -> nat) (ns : list nat) (n : nat).
Variable diffusion : list R -> nat -> nat -> R.
Variables (order rhs_order a : nat) (up : bool).
Variable p : patch.
Variable cs : list nat.
Variable x : nat -> nat -> R.
Let d := length ns.
Hypothesis Lh : length hs = d.
Hypothesis Fh : Forall (Rlt 0) hs.
Hypothesis Num : numbering ns num n.
Hypothesis Ic : In cs (cells ns).
Hypothesis La : (a < d)%nat.
Hypothesis So : sound d p.
Hypothesis Po : forall y, positive d (diffusion y).
Hypothesis Or : (2 <= gauss_points order <= 3)%nat.
Hypothesis Si : forall js, node (pa_cells p) js ->
  (pa_con p (pa_num p js) = true <-> nth a js 0%nat = if up then nth a (pa_cells p) 0%nat else 0%nat).
Hypothesis Sp : forall y, same_products d (patch_points d order diffusion p) (patch_points d rhs_order diffusion p) (pa_n p) (pa_con p)
  (field_of (pa_n p) y).
Hypothesis Co : corrected hs num diffusion order rhs_order p cs x.

Let e := if up then nth a (pa_cells p) 0%nat else 0%nat.

Lemma side_node : exists js, node (pa_cells p) js /\ nth a js 0%nat = e.
Proof.
  destruct So as (Lc & _). subst e. destruct up.
  - exists (pa_cells p). split; auto. unfold node. clear. induction (pa_cells p); constructor; auto.
  - exists (map (fun _ => 0%nat) (pa_cells p)). split.
    + unfold node. clear. induction (pa_cells p); constructor; auto. lia.
    + clear. revert a. induction (pa_cells p) as [|m r IH]; intros [|a]; cbn; auto.
Qed.

Lemma side_coercive : coercive d (patch_points d order diffusion p) (pa_n p) (pa_con p).
Proof.
  destruct So as (Lc & Le & Ll & Fc & Fe & Nu). unfold patch_points. rewrite <- Lc.
  apply varied_coercive; auto; try lia.
  - now apply gauss_two.
  - intros. rewrite Lc. apply Po.
  - destruct side_node as (js & Nj & E). exists (pa_num p js). split; [now apply Nu|]. now apply Si.
Qed.

Lemma restricted_sum : forall (v : nat -> R) js, node (pa_cells p) js ->
  rsum (length (corners cs)) (fun i => v (num (nth i (corners cs) [])) * restricted hs p (one_at num (num (nth i (corners cs) []))) cs js) =
  restricted hs p (nodal num v) cs js.
Proof.
  intros v js Nj. destruct So as (Lc & Le & Ll & _). pose proof (cells_length _ _ Ic) as Lcs.
  assert (Lj : length js = d) by (rewrite <- Lc; unfold node in Nj; clear -Nj; induction Nj; cbn; auto).
  unfold restricted. rewrite value_sum; [apply value_ext|].
  - rewrite place_length; unfold d in *; try lia. rewrite at0_length. lia.
  - intros js' J. now apply (corner_sum ns num n).
  - rewrite place_length; unfold d in *; try lia. rewrite at0_length. lia.
Qed.

Lemma layer_cancelled : forall (v : nat -> R) (b : nat -> R) f xs k,
  (forall js, In js (corners cs) -> v (num js) = b (nth a js 0%nat)) ->
  In f (cells (pa_cells p)) -> length xs = d ->
  grad hs (nodal num v) cs xs k +
  grad (pa_edges p) (fun js => rsum (length (corners cs)) (fun i => v (num (nth i (corners cs) [])) * x i (pa_num p js))) f xs k = 0.
Proof.
  intros v b f xs k B If Lx. destruct So as (Lc & Le & Ll & Fc & Fe & Nu). pose proof (cells_length _ _ Ic) as Lcs.
  pose proof (cells_length _ _ If) as Lf.
  destruct (choose (length (corners cs)) (fun i y => (forall js, node (pa_cells p) js ->
      y (pa_num p js) = restricted hs p (one_at num (num (nth i (corners cs) []))) cs js) /\
      corrector d (patch_points d order diffusion p) (patch_points d rhs_order diffusion p)
        (pa_n p) (pa_con p) (field_of (pa_n p) y) (x i))) as (y & Y).
  { intros i Li. destruct (Co i Li) as (y & Y). exists y. rewrite Lh in Y. exact Y. }
  set (N := length (corners cs)) in *. set (w := fun i => v (num (nth i (corners cs) []))) in *.
  set (ga := nth a (pa_edges p) 1). set (ha := nth a hs 1).
  assert (Pg : 0 < ga) by (apply nth_pos; auto). assert (Ph : 0 < ha) by (apply nth_pos; auto).
  set (c := nth a cs 0%nat). set (s := b (S c) - b c).
  set (T := b c + s * (nth a (pa_low p) 0 + INR e * (ga / ha))).
  set (phi := fun m => rsum N (fun i => w i * y i m) - T).
  assert (Ph1 : forall js, node (pa_cells p) js -> phi (pa_num p js) = s * (ga / ha) * (INR (nth a js 0%nat) - INR e)).
  { intros js Nj. unfold phi. rewrite (rsum_ext N _ (fun i => w i * restricted hs p (one_at num (num (nth i (corners cs) []))) cs js)).
    2:{ intros i Li. f_equal. now apply Y. }
    unfold w, N. rewrite restricted_sum by auto. unfold restricted.
    assert (Lj : length js = d) by (rewrite <- Lc; unfold node in Nj; clear -Nj; induction Nj; cbn; auto).
    rewrite (layer_value a b cs).
    - rewrite nth_place; unfold d in *; try lia; [|rewrite at0_length; lia].
      fold c s ga ha. replace (nth a (map (fun _ : nat => 0) js) 0) with 0; [unfold T; ring|].
      clear. revert a. induction js as [|j js IH]; intros [|a]; cbn; auto.
    - rewrite place_length; unfold d in *; try lia. rewrite at0_length. lia.
    - unfold d in *; lia.
    - exact B. }
  assert (V : vanishes (pa_n p) (pa_con p) phi).
  { intros m Lm C. destruct (proj2 (proj2 Nu) m Lm) as (js & Nj & <-). rewrite Ph1 by auto. apply Si in C; auto.
    fold e in C. rewrite C. ring. }
  assert (K : corrector d (patch_points d order diffusion p) (patch_points d rhs_order diffusion p) (pa_n p) (pa_con p)
    (field_of (pa_n p) phi) (fun m => rsum N (fun i => w i * x i m))).
  { apply corrector_field with (f := fun q k => rsum N (fun i => w i * field_of (pa_n p) (y i) q k)).
    - intros q k' Iq _. unfold field_of, phi.
      rewrite (rsum_ext (pa_n p) (fun i => (rsum N (fun i0 => w i0 * y i0 i) - T) * q_grad q i k')
        (fun j => rsum N (fun i => w i * (y i j * q_grad q j k')) + (- T) * q_grad q j k')).
      + rewrite rsum_plus, rsum_scale. unfold patch_points in Iq. rewrite <- Lc in Iq. rewrite (ones_grad _ _ _ _ _ _ _ _ Nu Iq).
        rewrite (rsum_ext N _ (fun i => rsum (pa_n p) (fun j => w i * (y i j * q_grad q j k')))) by (intros; now rewrite rsum_scale).
        rewrite rsum_swap. ring.
      + intros j _. replace (rsum N (fun i => w i * (y i j * q_grad q j k'))) with (rsum N (fun i => w i * y i j) * q_grad q j k'); [ring|].
        rewrite Rmult_comm, <- rsum_scale. apply rsum_ext. intros. ring.
    - apply corrector_sum. intros i Li. now apply Y. }
  destruct (cancelled d _ _ _ _ phi _ (coercive_unique _ _ _ _ side_coercive) V (Sp phi) K) as (X & _).
  rewrite (layer_grad a b hs cs xs); auto; try (unfold d in *; lia).
  rewrite (layer_grad a (fun j => - (s * (ga / ha) * (INR j - INR e))) (pa_edges p) f xs); try (unfold d in *; lia).
  - fold c s ga ha. destruct (Nat.eqb k a); [|ring]. rewrite S_INR. field. lra.
  - intros js J. assert (Nj : node (pa_cells p) js) by (now apply (corner_node _ f)).
    rewrite <- Ph1 by auto. apply (X (pa_num p js)). now apply Nu.
Qed.
End Side.

(** * Functions without gradient change nothing *)
Lemma shift_solution : forall d P diffusion (grid : list (coarse_cell P * list (cface P))) N con source neumann g v,
  (forall c fs i, In (c, fs) grid -> (i < cc_n P c)%nat -> (cc_index P c i < N)%nat) ->
  (forall i, (i < N)%nat -> con i = true -> v i = 0) ->
  (forall c fs l q k, In (c, fs) grid -> In l (covered P c) -> In q (lc_quad P l) -> (k < d)%nat ->
       test_grad P v c l (fst q) k = 0) ->
  forall s u, coarse_solution d P diffusion source neumann N con g grid u ->
    coarse_solution d P diffusion source neumann N con g grid (fun i => u i + s * v i).
Proof.
  intros d P diffusion grid N con source neumann g v Ix Z G s u (M & V & W & S). exists M, V. split; auto.
  apply coarse_bvp in S. apply coarse_bvp. intros a La. specialize (S a La). destruct (con a) eqn:C; [rewrite Z by auto; lra|].
  assert (K : mv N M v a = 0).
  { pose proof (matrix_form d P diffusion grid N Ix source neumann M V W v (fun b => if Nat.eqb b a then 1 else 0)) as F.
    rewrite lsum_0 in F.
    - unfold dot in F. rewrite (rsum_single N a) in F; auto.
      + rewrite Nat.eqb_refl in F. lra.
      + intros b _ D. destruct (Nat.eqb_spec b a); [congruence|ring].
    - intros (c, fs) I. cbn [fst]. apply lsum_0. intros l Il. unfold CoarseSpec.energy. apply lsum_0. intros q Q.
      unfold dot. rewrite rsum_0; [ring|]. intros k Lk. unfold mv. rewrite rsum_0; [ring|]. intros m Lm.
      rewrite (G c fs l q m) by auto. ring. }
  unfold mv in K. rewrite (rsum_ext N _ (fun j => M a j * u j + s * (M a j * v j))) by (intros; ring).
  rewrite rsum_plus, rsum_scale. rewrite K. lra.
Qed.

Lemma patched_in : forall ns hs num pa line rquad x fs c f, In (c, f) (patched ns hs num pa line rquad x fs) ->
  exists cs, In cs (cells ns) /\ c = box_cell hs num cs (patch_elements (pa cs) line (rquad cs) (x cs)) /\ f = fs cs.
Proof.
  intros ns hs num pa line rquad x fs c f I. apply in_map_iff in I. destruct I as (cs & E & I). injection E as <- <-. eauto.
Qed.
Lemma patched_index : forall ns hs num n pa line rquad x fs, numbering ns num n ->
  forall c f i, In (c, f) (patched ns hs num pa line rquad x fs) -> (i < cc_n _ c)%nat -> (cc_index _ c i < n)%nat.
Proof.
  intros ns hs num n pa line rquad x fs Nu c f i I Li. destruct (patched_in _ _ _ _ _ _ _ _ _ _ I) as (cs & J & -> & _).
  cbn [box_cell cc_n cc_index] in *. apply (proj1 Nu). apply (corner_node ns cs); auto. now apply nth_In.
Qed.
(** Multiscale gradient of a coarse function on a local element. *)
Lemma patch_grad : forall ns hs num n p cs rest v f xs k (line : list (R * R)) rquad x, numbering ns num n -> In cs (cells ns) ->
  sound (length ns) p -> length hs = length ns -> In f (cells (pa_cells p)) -> length xs = length ns ->
  test_grad (list R) v (box_cell hs num cs rest)
    {| lc_covered := pa_inside p f; lc_global := pa_global p f; lc_factor := fun _ => volume (pa_edges p);
       lc_grad := fun i xs => grad (pa_edges p) (fun js => x i (pa_num p js)) f xs;
       lc_val := fun i xs => value (fun js => x i (pa_num p js)) f xs;
       lc_quad := product_rule line (length (pa_cells p)); lc_rquad := rquad f |} xs k =
  grad hs (nodal num v) cs xs k +
  grad (pa_edges p) (fun js => rsum (length (corners cs)) (fun i => v (num (nth i (corners cs) [])) * x i (pa_num p js))) f xs k.
Proof.
  intros ns hs num n p cs rest v f xs k line rquad x Nu I (Lc & _) Lh J L. unfold test_grad, used_grad.
  cbn [box_cell cc_n cc_index cc_grad lc_grad].
  rewrite (rsum_ext _ _ (fun i => v (num (nth i (corners cs) [])) * grad hs (one_at num (num (nth i (corners cs) []))) cs xs k +
    v (num (nth i (corners cs) [])) * grad (pa_edges p) (fun js => x i (pa_num p js)) f xs k)) by (intros; ring).
  rewrite rsum_plus. f_equal.
  - rewrite (grad_sum _ hs cs xs k (fun i => v (num (nth i (corners cs) []))) (fun i => one_at num (num (nth i (corners cs) []))))
      by (rewrite (cells_length _ _ I); exact L).
    apply grad_ext; [rewrite (cells_length _ _ I); exact L|]. intros js J'. now apply (corner_sum ns num n).
  - rewrite (grad_sum _ (pa_edges p) f xs k (fun i => v (num (nth i (corners cs) []))) (fun i js => x i (pa_num p js)))
      by (rewrite (cells_length _ _ J), Lc; exact L).
    reflexivity.
Qed.

Lemma layers_unseen : forall ns hs num n diffusion order rhs_order a (up : bool) pa line rquad x fs v b,
  length hs = length ns -> Forall (Rlt 0) hs -> numbering ns num n -> (a < length ns)%nat ->
  (forall y, positive (length ns) (diffusion y)) -> (2 <= gauss_points order <= 3)%nat ->
  (forall cs, In cs (cells ns) -> sound (length ns) (pa cs) /\
     (forall js, node (pa_cells (pa cs)) js ->
       (pa_con (pa cs) (pa_num (pa cs) js) = true <-> nth a js 0%nat = if up then nth a (pa_cells (pa cs)) 0%nat else 0%nat)) /\
     (forall y, same_products (length ns) (patch_points (length ns) order diffusion (pa cs))
        (patch_points (length ns) rhs_order diffusion (pa cs)) (pa_n (pa cs)) (pa_con (pa cs)) (field_of (pa_n (pa cs)) y)) /\
     corrected hs num diffusion order rhs_order (pa cs) cs (x cs)) ->
  (forall js, node ns js -> v (num js) = b (nth a js 0%nat)) ->
  forall c f l q k, In (c, f) (patched ns hs num pa line rquad x fs) -> In l (covered _ c) -> In q (lc_quad _ l) ->
    test_grad (list R) v c l (fst q) k = 0.
Proof.
  intros ns hs num n diffusion order rhs_order a up pa line rquad x fs v b Lh Fh Nu La Po Or H B c f l q k I L Q.
  destruct (patched_in _ _ _ _ _ _ _ _ _ _ I) as (cs & J & -> & _). destruct (H cs J) as (So & Si & Sp & Co).
  unfold covered in L. apply filter_In in L. destruct L as (L & _). cbn [box_cell cc_locals] in L.
  apply in_map_iff in L. destruct L as (ff & <- & L). cbn [lc_quad] in Q.
  assert (Lq : length (fst q) = length ns) by (rewrite (rule_length _ _ _ Q); apply So).
  rewrite (patch_grad ns hs num n); auto.
  apply (layer_cancelled hs num ns n diffusion order rhs_order a up (pa cs) cs (x cs)) with (b := b); auto.
  intros js J'. apply B. now apply (corner_node ns cs).
Qed.

(** * Local solutions for all cells *)
Lemma choose_list : forall (A B : Type) (dec : forall a b : A, {a = b} + {a <> b}) (def : B) (l : list A) (Q : A -> B -> Prop),
  (forall a, In a l -> exists b, Q a b) -> exists f, forall a, In a l -> Q a (f a).
Proof.
  intros A B dec def l Q. induction l as [|a l IH]; intros H.
  - exists (fun _ => def). intros a [].
  - destruct IH as (f & F); [intros; apply H; now right|]. destruct (H a (or_introl eq_refl)) as (b & Hb).
    exists (fun a' => if dec a a' then b else f a'). intros a' I. destruct (dec a a') as [<-|N]; auto.
    destruct I as [->|I]; [congruence|auto].
Qed.
Lemma choose_cells : forall ns (Q : list nat -> (nat -> nat -> R) -> Prop),
  (forall cs, In cs (cells ns) -> exists x, Q cs x) -> exists x, forall cs, In cs (cells ns) -> Q cs (x cs).
Proof. intros ns Q. apply (choose_list _ _ (list_eq_dec Nat.eq_dec) (fun _ _ => 0)). Qed.

Lemma corrected_exists : forall d hs num diffusion order rhs_order p cs (extra : nat -> nat -> R),
  length hs = d -> sound d p -> coercive d (patch_points d order diffusion p) (pa_n p) (pa_con p) ->
  exists x, corrected hs num diffusion order rhs_order p cs x /\
    forall i, (length (corners cs) <= i < length (corners cs) + 2)%nat ->
      local_problem d (patch_points d order diffusion p) (pa_n p) (pa_con p) (extra i) (x i).
Proof.
  intros d hs num diffusion order rhs_order p cs extra <- So Co.
  destruct (choose (length (corners cs) + 2) (fun i z =>
    ((i < length (corners cs))%nat -> exists y, (forall js, node (pa_cells p) js ->
                 y (pa_num p js) = restricted hs p (one_at num (num (nth i (corners cs) []))) cs js) /\
    corrector (length hs) (patch_points (length hs) order diffusion p) (patch_points (length hs) rhs_order diffusion p)
      (pa_n p) (pa_con p) (field_of (pa_n p) y) z) /\
    ((length (corners cs) <= i)%nat -> local_problem (length hs) (patch_points (length hs) order diffusion p)
      (pa_n p) (pa_con p) (extra i) z))) as (x & X).
  - intros i Li. destruct (Nat.lt_ge_cases i (length (corners cs))) as [L|L].
    + destruct (nodal_values (pa_cells p) (pa_num p) (pa_n p)
        (restricted hs p (one_at num (num (nth i (corners cs) []))) cs)) as (y & Y); [apply So|].
      destruct (coercive_one _ _ (patch_points (length hs) rhs_order diffusion p) _ _ (field_of (pa_n p) y) Co) as ((z & Z) & _).
      exists z. split; [intros _; exists y; now split|lia].
    + destruct (coercive_problem _ _ _ _ (extra i) Co) as ((z & Z) & _).
      exists z. split; [lia|auto].
  - exists x. split.
    + intros i Li. apply X; lia.
    + intros i Li. apply X; lia.
Qed.
