(** Proofs for C139. *)
From Coq Require Import Reals List Arith Bool Lra Lia.
From Verif Require Import Util RSum CoarseModel CoarseSpec CoarseProofs LinModel LinSpec LinProofs.
From Verif Require Import SystemModel SystemSpec SystemProofs EnergySpec EnergyProofs QuadModel QuadSpec QuadProofs.
From Verif Require Import PatchSpec PatchProofs SolveSpec SolveProofs LayerSpec LayerProofs MaxSpec MaxProofs BoundsSpec BoundsProofs.
From Verif Require Import ContrastSpec ContrastProofs RaiseSpec RaiseProofs LeaveSpec.
From Verif Require CountProofs.
Import ListNotations.
Open Scope R_scope.

(** * Entries and rows from energies *)
Definition hat (i : nat) : nat -> R := fun m => if Nat.eqb m i then 1 else 0.

Lemma rsum_hat : forall n i f, (i < n)%nat -> rsum n (fun j => f j * hat i j) = f i.
Proof.
  intros n i f L. rewrite (rsum_single n i); auto.
  - unfold hat. rewrite Nat.eqb_refl. ring.
  - intros j _ D. unfold hat. destruct (Nat.eqb_spec j i); [congruence|ring].
Qed.

Lemma row_polar : forall n M u i, (i < n)%nat -> (forall a b, M a b = M b a) ->
  rsum n (fun j => M i j * u j) = (qform n M (fun m => u m + hat i m) - qform n M u - qform n M (hat i)) / 2.
Proof.
  intros n M u i L S.
  assert (E : qform n M (fun m => u m + hat i m) = qform n M u + qform n M (hat i) +
    rsum n (fun a => rsum n (fun b => M a b * u b) * hat i a) + rsum n (fun a => rsum n (fun b => M a b * hat i b) * u a)).
  { unfold qform. rewrite <- !rsum_plus. apply rsum_ext. intros a _. rewrite <- !rsum_scale_r, <- !rsum_plus. apply rsum_ext. intros; ring. }
  rewrite (rsum_hat n i (fun a => rsum n (fun b => M a b * u b)) L) in E.
  rewrite (rsum_ext n (fun a => rsum n (fun b => M a b * hat i b) * u a) (fun j => M i j * u j)) in E.
  - lra.
  - intros a _. rewrite (rsum_hat n i (fun b => M a b) L). now rewrite S.
Qed.

Lemma entry_polar : forall n M i j, (i < n)%nat -> (j < n)%nat -> (forall a b, M a b = M b a) ->
  M i j = (qform n M (fun m => hat j m + hat i m) - qform n M (hat j) - qform n M (hat i)) / 2.
Proof. intros n M i j Li Lj S. rewrite <- row_polar by auto. now rewrite (rsum_hat n j (fun b => M i b)). Qed.

Lemma walk_symmetric : forall d P diffusion source neumann grid M V, (forall y, sym d (diffusion y)) ->
  walk d P diffusion source neumann (fun _ _ => 0) (fun _ => 0) grid = Some (M, V) -> forall a b, M a b = M b a.
Proof.
  intros d P diffusion source neumann grid M V S W a b. destruct (walk_val _ _ _ _ _ _ _ _ _ _ W) as (Mv & _).
  rewrite !Mv. f_equal. apply lsum_ext. intros. now apply cell_part_sym.
Qed.

(** * The plane *)
Lemma gradient_square_plane : forall h1 h2 num u a b k, 0 < h1 -> 0 < h2 ->
  all_parts k / 4 * gradient_square [h1; h2] num u [a; b] = plain h1 h2 k (fun js => u (num js)) [a; b].
Proof.
  intros h1 h2 num u a b k H1 H2. unfold gradient_square, plain. set (v := fun js => u (num js)). change (length [h1; h2]) with 2%nat.
  assert (Gs : lsum (cube_rule 2 2) (fun q => snd q * dot 2 (grad [h1; h2] v [a; b] (fst q)) (grad [h1; h2] v [a; b] (fst q))) =
    part_form 1 ((v [S a; b] - v [a; b]) / h1) ((v [S a; S b] - v [a; S b] - v [S a; b] + v [a; b]) / h1)
      ((v [a; S b] - v [a; b]) / h2) ((v [S a; S b] - v [S a; b] - v [a; S b] + v [a; b]) / h2)
      ((v [S a; b] - v [a; b]) / h1) ((v [S a; S b] - v [a; S b] - v [S a; b] + v [a; b]) / h1)
      ((v [a; S b] - v [a; b]) / h2) ((v [S a; S b] - v [S a; b] - v [a; S b] + v [a; b]) / h2)).
  { rewrite <- (part_rule (line_rule 2) 1 (fun _ i j => if Nat.eqb i j then 1 else 0) (fun xs => grad [h1; h2] v [a; b] xs)
      (fun xs => grad [h1; h2] v [a; b] xs)); auto using gauss_inside; [| |].
    - unfold cube_rule. change (gauss_points 2) with 2%nat. apply lsum_ext. intros q _. f_equal.
      apply dot_ext; [|reflexivity]. intros m Lm. unfold mv. rewrite (rsum_single 2 m); auto.
      + rewrite Nat.eqb_refl. ring.
      + intros j _ D. destruct (Nat.eqb_spec m j); [congruence|ring].
    - apply gauss_moments. lia.
    - intros y z. cbn [grad value]. unfold Rdiv. split; [|split; [|split]]; ring. }
  rewrite Gs. unfold part_form, side1, side2, twist. cbn [volume fold_right]. field. lra.
Qed.

(** Energy of a coarse function in one coarse cell. *)
Definition cell_form (h1 h2 : R) (k v : list nat -> R) (cs : list nat) : R := plain h1 h2 k v cs + raised h1 h2 k v cs.
Definition polar (h1 h2 : R) (k v w : list nat -> R) (cs : list nat) : R :=
  (cell_form h1 h2 k (fun js => v js + w js) cs - cell_form h1 h2 k v cs - cell_form h1 h2 k w cs) / 2.

Lemma cell_form_ext : forall h1 h2 k v w a b, (forall js, In js (corners [a; b]) -> v js = w js) ->
  cell_form h1 h2 k v [a; b] = cell_form h1 h2 k w [a; b].
Proof.
  intros h1 h2 k v w a b E. unfold cell_form, plain, raised, linear_load, twisted_load, side1, side2, twist.
  cbn [corners map app In] in E. rewrite !E by tauto. reflexivity.
Qed.

Lemma polar_zero : forall h1 h2 k v w a b, (forall js, In js (corners [a; b]) -> v js = 0) -> polar h1 h2 k v w [a; b] = 0.
Proof.
  intros h1 h2 k v w a b Z. unfold polar.
  rewrite (cell_form_ext h1 h2 k (fun js => v js + w js) w a b) by (intros js J; rewrite Z by auto; ring).
  rewrite (cell_form_ext h1 h2 k v (fun _ => 0) a b) by auto.
  assert (cell_form h1 h2 k (fun _ => 0) [a; b] = 0); [|lra].
  unfold cell_form, plain, raised, linear_load, twisted_load, side1, side2, twist. unfold Rdiv. ring.
Qed.
Lemma polar_sym : forall h1 h2 k v w a b, polar h1 h2 k v w [a; b] = polar h1 h2 k w v [a; b].
Proof.
  intros. unfold polar. rewrite (cell_form_ext h1 h2 k (fun js => v js + w js) (fun js => w js + v js)) by (intros; ring). lra.
Qed.

(** * Sums with one term *)
Lemma cells_NoDup : forall ns, NoDup (cells ns).
Proof.
  induction ns as [|n ns IH]; cbn [cells]; [constructor; [auto|constructor]|].
  pose proof (seq_NoDup n 0) as N. induction (seq 0 n) as [|c l IHl]; [constructor|].
  apply NoDup_cons_iff in N. destruct N as (Nc & N). cbn [flat_map]. apply CountProofs.nodup_app; auto.
  - apply NoDup_map_on; auto. intros a b _ _ E. now injection E.
  - intros a I J. apply in_map_iff in I. destruct I as (b & <- & _). apply in_flat_map in J. destruct J as (e & Ie & J).
    apply in_map_iff in J. destruct J as (b' & E & _). injection E as -> _. contradiction.
Qed.
Lemma lsum_only : forall A (l : list A) f a, NoDup l -> In a l -> (forall b, In b l -> b <> a -> f b = 0) -> lsum l f = f a.
Proof.
  intros A l f a N I Z. induction N as [|b l Nb N IH]; [destruct I|]. cbn [lsum]. destruct I as [->|I].
  - rewrite (lsum_0 _ l f); [ring|]. intros c Ic. apply Z; [now right|]. intros ->. contradiction.
  - rewrite IH; auto; [|intros; apply Z; auto; now right]. rewrite Z; [ring|now left|]. intros ->. contradiction.
Qed.

(** * The corrector of a cell with four parts *)
Section Middle.
Variables h1 h2 : R.
Variable diffusion : list R -> nat -> nat -> R.
Variables order rhs_order : nat.
Variable p : patch.
Variables a b : nat.
Variable k v : list nat -> R.
Let hs := [h1; h2].
Let cs := [a; b].
Hypothesis Fh : Forall (Rlt 0) hs.
Hypothesis No : no_oversampling hs p.
Hypothesis Qu : quartered hs p diffusion k.
Hypothesis Og : (2 <= gauss_points order <= 3)%nat.
Hypothesis Or : (2 <= gauss_points rhs_order <= 3)%nat.

(** Nothing but its value in the middle, which both loads determine. *)
Lemma middle_value : forall y r, (forall js, node [2; 2]%nat js -> y (pa_num p js) = restricted hs p v cs js) ->
  corrector 2 (patch_points 2 order diffusion p) (patch_points 2 rhs_order diffusion p) (pa_n p) (pa_con p) (field_of (pa_n p) y) r ->
  linear_load h1 h2 k v a b + twisted_load h1 h2 k v a b = 0 ->
  forall js, node [2; 2]%nat js -> r (pa_num p js) = 0.
Proof.
  intros y r Tn Ct Zl.
  destruct (edges [2; 2]%nat h1 h2 diffusion order rhs_order order p k eq_refl Fh No Qu Og Or Og) as (g1 & g2 & Eg & El & P1 & P2 & H1 & H2). destruct No as (So & Fi & In_ & Oc). destruct Qu as (Qc & Qd & Qp).
  pose proof So as (Lc & Le & Ll & Fc & Fe & Nu).
  apply corrector_orthogonal in Ct. destruct Ct as (Vr & Eq).
  rewrite Qc in Oc, Nu.
  assert (Nd : forall i j, (i <= 2)%nat -> (j <= 2)%nat -> node [2; 2]%nat [i; j]) by (intros; constructor; [auto|constructor; [auto|constructor]]).
  set (c := r (pa_num p [1; 1]%nat)).
  assert (R0 : forall i j, (i <= 2)%nat -> (j <= 2)%nat -> nodal (pa_num p) r [i; j] = if (Nat.eqb i 1 && Nat.eqb j 1)%bool then c else 0).
  { intros i j Li Lj. unfold nodal. destruct (Nat.eqb i 1 && Nat.eqb j 1) eqn:E.
    - apply andb_prop in E. destruct E as (A & B). apply Nat.eqb_eq in A, B. subst. reflexivity.
    - apply Vr; [now apply Nu, Nd|]. rewrite Oc by now apply Nd. destruct i as [|[|[|i]]], j as [|[|[|j]]]; try lia; try reflexivity; discriminate. }
  set (z := fun m => if Nat.eqb m (pa_num p [1; 1]%nat) then 1 else 0).
  assert (Vz : vanishes (pa_n p) (pa_con p) z).
  { intros i Li Ci. unfold z. destruct (Nat.eqb_spec i (pa_num p [1; 1]%nat)) as [->|]; [|reflexivity].
    rewrite Oc in Ci by (apply Nd; lia). discriminate. }
  assert (Z0 : forall i j, (i <= 2)%nat -> (j <= 2)%nat -> nodal (pa_num p) z [i; j] = if (Nat.eqb i 1 && Nat.eqb j 1)%bool then 1 else 0).
  { intros i j Li Lj. unfold nodal, z. destruct (Nat.eqb i 1 && Nat.eqb j 1) eqn:E.
    - apply andb_prop in E. destruct E as (A & B). apply Nat.eqb_eq in A, B. subst. now rewrite Nat.eqb_refl.
    - destruct (Nat.eqb_spec (pa_num p [i; j]) (pa_num p [1; 1]%nat)) as [N|]; [|reflexivity].
      apply Nu in N; try (apply Nd; lia). injection N as -> ->. discriminate. }
  assert (T0 : forall i j, (i <= 2)%nat -> (j <= 2)%nat -> nodal (pa_num p) y [i; j] =
    (1 - INR i / 2) * ((1 - INR j / 2) * v [a; b] + INR j / 2 * v [a; S b]) + INR i / 2 * ((1 - INR j / 2) * v [S a; b] + INR j / 2 * v [S a; S b])).
  { intros i j Li Lj. unfold nodal at 1. rewrite Tn by now apply Nd. unfold restricted. rewrite El, Eg.
    unfold hs, cs. cbn [map place value]. subst h1 h2. field. lra. }
  pose proof (Eq z Vz) as Q. rewrite !patch_energy in Q by exact So. rewrite Eg, Qc in Q.
  assert (Fp : forall oo X Y, (2 <= gauss_points oo <= 3)%nat ->
    bsum [2; 2]%nat (line_rule (gauss_points oo)) (fun f xs => dot 2 (mv 2 (diffusion (pa_global p f xs)) (grad [g1; g2] X f xs)) (grad [g1; g2] Y f xs)) =
    four h1 h2 g1 g2 k a b 0 v X 0 v Y).
  { intros oo X Y' Ho. rewrite <- (four_parts h1 h2 g1 g2 k (fun f xs => diffusion (pa_global p f xs)) _ (gauss_moments _ Ho) (gauss_inside _)) by auto.
    apply bsum_ext. intros f xs _ _. apply dot_ext; [intros i _; apply mv_ext; intros m _|intros m _]; unfold mix; ring. }
  rewrite !Fp in Q by auto.
  set (D := middle_energy h1 h2 k).
  assert (A1 : volume [g1; g2] * four h1 h2 g1 g2 k a b 0 v (nodal (pa_num p) r) 0 v (nodal (pa_num p) z) = c * D).
  { unfold four, co0, co1, co2, co3. rewrite !R0, !Z0 by lia. cbn [Nat.eqb andb].
    unfold part_form, D, middle_energy, all_parts. cbn [volume fold_right]. subst h1 h2. field. lra. }
  assert (A2 : volume [g1; g2] * four h1 h2 g1 g2 k a b 0 v (nodal (pa_num p) y) 0 v (nodal (pa_num p) z) =
    linear_load h1 h2 k v a b + twisted_load h1 h2 k v a b).
  { unfold four, co0, co1, co2, co3. rewrite !T0, !Z0 by lia. cbn [Nat.eqb andb INR].
    unfold part_form, linear_load, twisted_load, side1, side2, twist, lower_upper1, lower_upper2, across. cbn [volume fold_right].
    subst h1 h2. field. lra. }
  assert (Pd : 0 < D).
  { unfold D, middle_energy, all_parts. pose proof (Qp [0; 0]%nat ltac:(cbn; tauto)). pose proof (Qp [0; 1]%nat ltac:(cbn; tauto)).
    pose proof (Qp [1; 0]%nat ltac:(cbn; tauto)). pose proof (Qp [1; 1]%nat ltac:(cbn; tauto)).
    assert (0 < h2 / h1) by (apply Rdiv_lt_0_compat; lra). assert (0 < h1 / h2) by (apply Rdiv_lt_0_compat; lra).
    apply Rdiv_lt_0_compat; [|lra]. apply Rmult_lt_0_compat; lra. }
  rewrite A1, A2, Zl in Q.
  assert (Ec : c = 0) by (apply (Rmult_eq_reg_r D); lra).
  intros js Nj. inversion Nj as [|i ? ? ? Li T]; subst. inversion T as [|j ? ? ? Lj T']; subst. inversion T'; subst.
  specialize (R0 i j Li Lj). unfold nodal in R0. rewrite R0, Ec. now destruct (_ && _).
Qed.
End Middle.

(** No load, no corrector. *)
Lemma zero_corrector : forall h1 h2 diffusion order rhs_order p k x e, Forall (Rlt 0) [h1; h2] -> no_oversampling [h1; h2] p -> quartered [h1; h2] p diffusion k ->
  (2 <= gauss_points order <= 3)%nat -> (2 <= gauss_points rhs_order <= 3)%nat -> (forall m, e m = 0) ->
  local_problem 2 (patch_points 2 order diffusion p) (pa_n p) (pa_con p) e x ->
  forall js, node [2; 2]%nat js -> x (pa_num p js) = 0.
Proof.
  intros h1 h2 diffusion order rhs_order p k x e Fh No Qu Og Or Ze L.
  apply (middle_value h1 h2 diffusion order rhs_order p 0 0 k (fun _ => 0) Fh No Qu Og Or (fun _ => 0)).
  - intros js _. unfold restricted. now rewrite value_zero.
  - unfold corrector, local_problem, solves in *. intros i Li. rewrite (L i Li). unfold constrain_vector. destruct (pa_con p i); auto. rewrite Ze.
    unfold local_rhs. symmetry. apply lsum_0. intros q _. unfold evaluate_product, field_of.
    rewrite (dot_ext 2 _ (fun _ => 0) _ (q_grad q i)); auto.
    + unfold dot. cbn. ring.
    + intros m _. unfold mv. apply rsum_0. intros j _. rewrite rsum_0; [ring|]. intros; ring.
  - unfold linear_load, twisted_load, side1, side2, twist. unfold Rdiv. ring.
Qed.

(** Without source, faces and boundary correctors the right hand side is zero. *)
Lemma no_load : forall ns hs num pa diffusion line rquad x neumann M V,
  (forall cs, In cs (cells ns) -> sound (length ns) (pa cs) /\
     (forall f q, In f (cells (pa_cells (pa cs))) -> In q (rquad cs f) -> length (fst q) = length ns) /\
     forall js, node (pa_cells (pa cs)) js -> x cs (length (corners cs)) (pa_num (pa cs) js) = 0 /\ x cs (length (corners cs) + 1)%nat (pa_num (pa cs) js) = 0) ->
  walk (length ns) (list R) diffusion (fun _ => 0) neumann (fun _ _ => 0) (fun _ => 0)
    (patched ns hs num pa line rquad x (fun _ => [])) = Some (M, V) -> forall a, V a = 0.
Proof.
  intros ns hs num pa diffusion line rquad x neumann M V H W a. destruct (walk_val _ _ _ _ _ _ _ _ _ _ W) as (_ & Vv). rewrite Vv, Rplus_0_l.
  apply lsum_0. intros (c, fs) I. destruct (patched_in _ _ _ _ _ _ _ _ _ _ I) as (cs & J & -> & ->). destruct (H cs J) as ((Lc & _) & Lq & Z).
  unfold rhs_part. cbn [fst snd]. apply rsum_0. intros i _. unfold boundary_load. cbn [filter lsum]. rewrite lsum_0; [ring|].
  intros l Il. unfold covered in Il. apply filter_In in Il. destruct Il as (Il & _). cbn [box_cell cc_locals] in Il. unfold patch_elements in Il.
  apply in_map_iff in Il. destruct Il as (f & <- & If).
  assert (L0 : forall v, load (list R) (fun _ => 0) {| lc_covered := pa_inside (pa cs) f; lc_global := pa_global (pa cs) f; lc_factor := fun _ => volume (pa_edges (pa cs));
                    lc_grad := fun i xs => grad (pa_edges (pa cs)) (fun js => x cs i (pa_num (pa cs) js)) f xs;
                    lc_val := fun i xs => value (fun js => x cs i (pa_num (pa cs) js)) f xs;
                    lc_quad := product_rule line (length (pa_cells (pa cs))); lc_rquad := rquad cs f |} v = 0).
  { intros v. unfold load. apply lsum_0. intros. ring. }
  rewrite L0. unfold rhs_energy. cbn [lc_rquad lc_global lc_factor lc_grad box_cell cc_n]. rewrite lsum_0; [ring|]. intros q Iq.
  assert (G : forall s k, (forall js, node (pa_cells (pa cs)) js -> x cs s (pa_num (pa cs) js) = 0) ->
    grad (pa_edges (pa cs)) (fun js => x cs s (pa_num (pa cs) js)) f (fst q) k = 0).
  { intros s k Zs. rewrite (grad_ext _ _ _ _ _ (fun _ => 0)); [apply grad_zero| |].
    - rewrite (Lq f q If Iq), <- Lc. symmetry. now apply cells_length.
    - intros js Jc. apply Zs. now apply (corner_node _ f). }
  unfold dot. rewrite rsum_0; [ring|]. intros m _. unfold mv. rewrite rsum_0; [ring|]. intros j _. rewrite !G; [ring| |]; intros js Nj; apply Z; auto.
Qed.

(** * Two coarse functions, gradients at the right places *)
Section Pair.
Variables (h1 h2 : R) (diffusion : list R -> nat -> nat -> R) (order rhs_order : nat) (p : patch) (a b : nat) (k : list nat -> R).
Hypothesis Fh : Forall (Rlt 0) [h1; h2].
Hypothesis No : no_oversampling [h1; h2] p.
Hypothesis Qu : quartered [h1; h2] p diffusion k.
Hypothesis Og : (2 <= gauss_points order <= 3)%nat.
Hypothesis Or : (2 <= gauss_points rhs_order <= 3)%nat.
Let product := fun w w' => LinSpec.energy 2 (patch_points 2 order diffusion p) (field_of (pa_n p) w) (field_of (pa_n p) w').
Let load := fun v => twisted_load h1 h2 k v a b + linear_load h1 h2 k v a b.

Lemma right_values : forall v y r, (forall js, node [2; 2]%nat js -> y (pa_num p js) = restricted [h1; h2] p v [a; b] js) ->
  corrector 2 (patch_points 2 order diffusion p) (patch_points 2 rhs_order diffusion p) (pa_n p) (pa_con p) (field_of (pa_n p) y) r ->
  (forall i j, (i <= 2)%nat -> (j <= 2)%nat -> nodal (pa_num p) r [i; j] =
     if (Nat.eqb i 1 && Nat.eqb j 1)%bool then - load v / middle_energy h1 h2 k else 0) /\
  (forall i j, (i <= 2)%nat -> (j <= 2)%nat -> nodal (pa_num p) y [i; j] =
    (1 - INR i / 2) * ((1 - INR j / 2) * v [a; b] + INR j / 2 * v [a; S b]) + INR i / 2 * ((1 - INR j / 2) * v [S a; b] + INR j / 2 * v [S a; S b])).
Proof.
  intros v y r Tn Ct. set (l := linear_load h1 h2 k v a b). set (tw := twisted_load h1 h2 k v a b).
  destruct (edges [2; 2]%nat h1 h2 diffusion order rhs_order order p k eq_refl Fh No Qu Og Or Og) as (g1 & g2 & Eg & El & P1 & P2 & H1 & H2).
  destruct No as (So & Fi & In_ & Oc). destruct Qu as (Qc & Qd & Qp).
  pose proof So as (Lc & Le & Ll & Fc & Fe & Nu).
  apply corrector_orthogonal in Ct. destruct Ct as (Vr & Eq).
  rewrite Qc in Oc, Nu.
  assert (Nd : forall i j, (i <= 2)%nat -> (j <= 2)%nat -> node [2; 2]%nat [i; j]) by (intros; constructor; [auto|constructor; [auto|constructor]]).
  set (c := r (pa_num p [1; 1]%nat)).
  assert (R0 : forall i j, (i <= 2)%nat -> (j <= 2)%nat -> nodal (pa_num p) r [i; j] = if (Nat.eqb i 1 && Nat.eqb j 1)%bool then c else 0).
  { intros i j Li Lj. unfold nodal. destruct (Nat.eqb i 1 && Nat.eqb j 1) eqn:E.
    - apply andb_prop in E. destruct E as (A & B). apply Nat.eqb_eq in A, B. subst. reflexivity.
    - apply Vr; [now apply Nu, Nd|]. rewrite Oc by now apply Nd. destruct i as [|[|[|i]]], j as [|[|[|j]]]; try lia; try reflexivity; discriminate. }
  set (z := fun m => if Nat.eqb m (pa_num p [1; 1]%nat) then 1 else 0).
  assert (Vz : vanishes (pa_n p) (pa_con p) z).
  { intros i Li Ci. unfold z. destruct (Nat.eqb_spec i (pa_num p [1; 1]%nat)) as [->|]; [|reflexivity].
    rewrite Oc in Ci by (apply Nd; lia). discriminate. }
  assert (Z0 : forall i j, (i <= 2)%nat -> (j <= 2)%nat -> nodal (pa_num p) z [i; j] = if (Nat.eqb i 1 && Nat.eqb j 1)%bool then 1 else 0).
  { intros i j Li Lj. unfold nodal, z. destruct (Nat.eqb i 1 && Nat.eqb j 1) eqn:E.
    - apply andb_prop in E. destruct E as (A & B). apply Nat.eqb_eq in A, B. subst. now rewrite Nat.eqb_refl.
    - destruct (Nat.eqb_spec (pa_num p [i; j]) (pa_num p [1; 1]%nat)) as [N|]; [|reflexivity].
      apply Nu in N; try (apply Nd; lia). injection N as -> ->. discriminate. }
  assert (T0 : forall i j, (i <= 2)%nat -> (j <= 2)%nat -> nodal (pa_num p) y [i; j] =
    (1 - INR i / 2) * ((1 - INR j / 2) * v [a; b] + INR j / 2 * v [a; S b]) + INR i / 2 * ((1 - INR j / 2) * v [S a; b] + INR j / 2 * v [S a; S b])).
  { intros i j Li Lj. unfold nodal at 1. rewrite Tn by now apply Nd. unfold restricted. rewrite El, Eg.
    cbn [map place value]. subst h1 h2. field. lra. }
  pose proof (Eq z Vz) as Q. rewrite !patch_energy in Q by exact So. rewrite Eg, Qc in Q.
  assert (Fp : forall oo X Y, (2 <= gauss_points oo <= 3)%nat ->
    bsum [2; 2]%nat (line_rule (gauss_points oo)) (fun f xs => dot 2 (mv 2 (diffusion (pa_global p f xs)) (grad [g1; g2] X f xs)) (grad [g1; g2] Y f xs)) =
    four h1 h2 g1 g2 k a b 0 v X 0 v Y).
  { intros oo X Y' Ho. rewrite <- (four_parts h1 h2 g1 g2 k (fun f xs => diffusion (pa_global p f xs)) _ (gauss_moments _ Ho) (gauss_inside _)) by auto.
    apply bsum_ext. intros f xs _ _. apply dot_ext; [intros i _; apply mv_ext; intros m _|intros m _]; unfold mix; ring. }
  rewrite !Fp in Q by auto.
  clear Fp.
  set (D := middle_energy h1 h2 k).
  assert (A1 : volume [g1; g2] * four h1 h2 g1 g2 k a b 0 v (nodal (pa_num p) r) 0 v (nodal (pa_num p) z) = c * D).
  { unfold four, co0, co1, co2, co3. rewrite !R0, !Z0 by lia. cbn [Nat.eqb andb].
    unfold part_form, D, middle_energy, all_parts. cbn [volume fold_right]. subst h1 h2. field. lra. }
  assert (A2 : volume [g1; g2] * four h1 h2 g1 g2 k a b 0 v (nodal (pa_num p) y) 0 v (nodal (pa_num p) z) = l + tw).
  { unfold four, co0, co1, co2, co3. rewrite !T0, !Z0 by lia. cbn [Nat.eqb andb INR].
    unfold part_form, l, tw, linear_load, twisted_load, side1, side2, twist, lower_upper1, lower_upper2, across. cbn [volume fold_right].
    subst h1 h2. field. lra. }
  assert (Pd : 0 < D).
  { unfold D, middle_energy, all_parts. pose proof (Qp [0; 0]%nat ltac:(cbn; tauto)). pose proof (Qp [0; 1]%nat ltac:(cbn; tauto)).
    pose proof (Qp [1; 0]%nat ltac:(cbn; tauto)). pose proof (Qp [1; 1]%nat ltac:(cbn; tauto)).
    assert (0 < h2 / h1) by (apply Rdiv_lt_0_compat; lra). assert (0 < h1 / h2) by (apply Rdiv_lt_0_compat; lra).
    apply Rdiv_lt_0_compat; [|lra]. apply Rmult_lt_0_compat; lra. }
  rewrite A1, A2 in Q. fold D. assert (Ec : c = - (l + tw) / D) by (field_simplify_eq; lra).
  split; [|exact T0]. intros i j Li Lj. rewrite R0 by auto. destruct (_ && _); [|reflexivity]. rewrite Ec. unfold load. fold l tw. f_equal. ring.
Qed.

Lemma right_pair : forall v v' y y' r r',
  (forall js, node [2; 2]%nat js -> y (pa_num p js) = restricted [h1; h2] p v [a; b] js) ->
  (forall js, node [2; 2]%nat js -> y' (pa_num p js) = restricted [h1; h2] p v' [a; b] js) ->
  corrector 2 (patch_points 2 order diffusion p) (patch_points 2 rhs_order diffusion p) (pa_n p) (pa_con p) (field_of (pa_n p) y) r ->
  corrector 2 (patch_points 2 order diffusion p) (patch_points 2 rhs_order diffusion p) (pa_n p) (pa_con p) (field_of (pa_n p) y') r' ->
  exists g1 g2, 0 < g1 /\ 0 < g2 /\ h1 = 2 * g1 /\ h2 = 2 * g2 /\
  product (fun i => y i + r i) (fun i => y' i + r' i) =
    volume [g1; g2] * four h1 h2 g1 g2 k a b 0 v (nodal (pa_num p) y) 0 v (nodal (pa_num p) y') - load v * load v' / middle_energy h1 h2 k.
Proof.
  intros v v' y y' r r' Tn Tn' Ct Ct'. destruct (right_values v y r Tn Ct) as (R0 & T0). destruct (right_values v' y' r' Tn' Ct') as (R1 & T1).
  destruct (edges [2; 2]%nat h1 h2 diffusion order rhs_order order p k eq_refl Fh No Qu Og Or Og) as (g1 & g2 & Eg & El & P1 & P2 & H1 & H2).
  exists g1, g2. do 4 (split; [assumption|]). destruct No as (So & Fi & In_ & Oc). destruct Qu as (Qc & Qd & Qp).
  pose proof So as (Lc & Le & Ll & Fc & Fe & Nu).
  unfold product. rewrite patch_energy by exact So. rewrite Eg, Qc.
  rewrite (bsum_ext _ _ _ (fun f xs => dot 2 (mv 2 (diffusion (pa_global p f xs)) (mix h1 h2 g1 g2 a b 0 v (nodal (pa_num p) (fun i => y i + r i)) f xs))
    (mix h1 h2 g1 g2 a b 0 v (nodal (pa_num p) (fun i => y' i + r' i)) f xs)))
    by (intros f xs _ _; apply dot_ext; [intros i _; apply mv_ext; intros m _|intros m _]; unfold mix; ring).
  rewrite (four_parts h1 h2 g1 g2 k (fun f xs => diffusion (pa_global p f xs)) _ (gauss_moments _ Og) (gauss_inside _)) by auto.
  set (c := - load v / middle_energy h1 h2 k) in *. set (c' := - load v' / middle_energy h1 h2 k) in *.
  assert (Pd : 0 < middle_energy h1 h2 k).
  { unfold middle_energy, all_parts. pose proof (Qp [0; 0]%nat ltac:(cbn; tauto)). pose proof (Qp [0; 1]%nat ltac:(cbn; tauto)).
    pose proof (Qp [1; 0]%nat ltac:(cbn; tauto)). pose proof (Qp [1; 1]%nat ltac:(cbn; tauto)).
    assert (0 < h2 / h1) by (apply Rdiv_lt_0_compat; lra). assert (0 < h1 / h2) by (apply Rdiv_lt_0_compat; lra).
    apply Rdiv_lt_0_compat; [|lra]. apply Rmult_lt_0_compat; lra. }
  transitivity (volume [g1; g2] * four h1 h2 g1 g2 k a b 0 v (nodal (pa_num p) y) 0 v (nodal (pa_num p) y')
    + c' * load v + c * load v' + c * (c' * middle_energy h1 h2 k)).
  - assert (S0 : forall js, nodal (pa_num p) (fun i => y i + r i) js = nodal (pa_num p) y js + nodal (pa_num p) r js) by reflexivity.
    assert (S1 : forall js, nodal (pa_num p) (fun i => y' i + r' i) js = nodal (pa_num p) y' js + nodal (pa_num p) r' js) by reflexivity.
    unfold four, co0, co1, co2, co3. rewrite !S0, !S1, !R0, !R1, !T0, !T1 by lia. cbn [Nat.eqb andb INR]. clearbody c c'.
    unfold part_form, load, linear_load, twisted_load, side1, side2, twist, lower_upper1, lower_upper2, across, middle_energy, all_parts.
    cbn [volume fold_right]. subst h1 h2. field. lra.
  - unfold c, c'. field. lra.
Qed.
End Pair.
