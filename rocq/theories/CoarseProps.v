(** Theorems about the coarse assembly: C43-C45, and C22 for the assembly. *)
From Coq Require Import Reals List Arith Bool Lra Lia Permutation.
From Verif Require Import Util RSum CoarseModel CoarseSpec CoarseProofs.
Import ListNotations.
Open Scope R_scope.

(** * A concrete cell: the unit square with four local cells. *)
Definition pt : Type := (R * R)%type.
(** Bilinear basis on the reference square: gradients and values. *)
Definition bil_grad (i : nat) (p : pt) : nat -> R := fun k =>
  match i, k with
  | O, O => -(1 - snd p) | O, _ => -(1 - fst p)
  | S O, O => 1 - snd p    | S O, _ => - fst p
  | S (S O), O => - snd p      | S (S O), _ => 1 - fst p
  | _, O => snd p        | _, _ => fst p
  end.
Definition bil_val (i : nat) (p : pt) : R :=
  match i with
  | O => (1 - fst p) * (1 - snd p) | S O => fst p * (1 - snd p)
  | S (S O) => (1 - fst p) * snd p | _ => fst p * snd p
  end.
(** Tensor product Simpson rule, exact for degree three per direction. *)
Definition simpson : list (pt * R) :=
  [((0, 0), 1/36); ((1/2, 0), 4/36); ((1, 0), 1/36);
   ((0, 1/2), 4/36); ((1/2, 1/2), 16/36); ((1, 1/2), 4/36);
   ((0, 1), 1/36); ((1/2, 1), 4/36); ((1, 1), 1/36)].
(** Local cell with lower left corner (a, b) and side h, no correctors. *)
Definition sub_cell (a b h : R) : local_cell pt :=
  {| lc_covered := true; lc_global := fun p => (a + h * fst p, b + h * snd p);
     lc_factor := fun _ => h * h; lc_grad := fun _ _ _ => 0; lc_val := fun _ _ => 0;
     lc_quad := simpson; lc_rquad := simpson |}.
Definition bil_cell (ls : list (local_cell pt)) : coarse_cell pt :=
  {| cc_n := 4; cc_grad := bil_grad; cc_val := bil_val; cc_index := fun i => i;
     cc_slots := 6; cc_locals := ls |}.
Definition four : coarse_cell pt :=
  bil_cell [sub_cell 0 0 (1/2); sub_cell (1/2) 0 (1/2); sub_cell 0 (1/2) (1/2); sub_cell (1/2) (1/2) (1/2)].
Definition id_diff : pt -> nat -> nat -> R := fun _ i j => if Nat.eqb i j then 1 else 0.
Definition var_diff : pt -> nat -> nat -> R := fun p i j => if Nat.eqb i j then 1 + fst p else 0.

Lemma four_weights : weights_ok pt four.
Proof.
  intros l q Il Iq. simpl in Il.
  assert (lc_quad pt l = simpson /\ lc_factor pt l (fst q) = 1/2 * (1/2)) as (A & B)
    by (repeat (destruct Il as [<-|Il]; [split; reflexivity|]); destruct Il).
  rewrite A in Iq. rewrite B. simpl in Iq.
  repeat (destruct Iq as [<-|Iq]; [simpl; lra|]). destruct Iq.
Qed.

Lemma scalar_diff_ok : forall (f : pt -> R), (forall p, 0 <= f p) ->
  (forall p, sym 2 (fun i j => if Nat.eqb i j then f p else 0)) /\
  (forall p, psd 2 (fun i j => if Nat.eqb i j then f p else 0)).
Proof.
  intros f F. split; intros p.
  - intros i j Li Lj. rewrite Nat.eqb_sym. destruct (Nat.eqb_spec j i); auto.
  - intros u. unfold dot, mv. simpl. pose proof (F p).
    replace (0 + (0 + f p * u 0%nat + 0 * u 1%nat) * u 0%nat + (0 + 0 * u 0%nat + f p * u 1%nat) * u 1%nat)
      with (f p * (u 0%nat * u 0%nat + u 1%nat * u 1%nat)) by ring.
    apply Rmult_le_pos; auto. nra.
Qed.

(** * C43 *)
Theorem C43_element_matrix_spd : forall d P diffusion (c : coarse_cell P) l,
  (forall y, sym d (diffusion y)) -> (forall y, psd d (diffusion y)) ->
  (forall q, In q (lc_quad P l) -> 0 <= lc_factor P l (fst q) * snd q) ->
  (forall i j, (i < cc_n P c)%nat -> (j < cc_n P c)%nat ->
     element_matrix d P diffusion c l i j = element_matrix d P diffusion c l j i) /\
  (forall x, 0 <= qform (cc_n P c) (element_matrix d P diffusion c l) x).
Proof.
  intros d P diffusion c l S1 S2 W. split.
  - intros i j Li Lj. rewrite !element_matrix_val by auto. apply energy_sym; auto.
  - intros x. unfold qform.
    assert (E : rsum (cc_n P c) (fun a => rsum (cc_n P c) (fun b =>
                  element_matrix d P diffusion c l a b * x a * x b)) =
       energy d P diffusion l
         (fun y k => rsum (cc_n P c) (fun j => x j * used_grad P c l j y k))
         (fun y k => rsum (cc_n P c) (fun j => x j * used_grad P c l j y k))).
    { rewrite energy_sum. apply rsum_ext. intros a La. apply rsum_ext. intros b Lb.
      rewrite element_matrix_val by auto. ring. }
    rewrite E. apply energy_nonneg; auto.
Qed.
Print Assumptions C43_element_matrix_spd.

Theorem C43_global_matrix_spd : forall d P diffusion cs M N,
  (forall y, sym d (diffusion y)) -> (forall y, psd d (diffusion y)) ->
  (forall c, In c cs -> weights_ok P c) ->
  (forall c i, In c cs -> (i < cc_n P c)%nat -> (cc_index P c i < N)%nat) ->
  assemble_matrix d P diffusion (fun _ _ => 0) cs = Some M ->
  (forall a b, M a b = M b a) /\ (forall x, 0 <= qform N M x).
Proof. exact global_sym_psd. Qed.
Print Assumptions C43_global_matrix_spd.

(** The assembly succeeds for all cells with two boundary correctors, and its
    result does not depend on the order of the cells. *)
Theorem C43_assembly_order_irrelevant : forall d P diffusion cs cs' M M',
  Permutation cs cs' ->
  assemble_matrix d P diffusion (fun _ _ => 0) cs = Some M ->
  assemble_matrix d P diffusion (fun _ _ => 0) cs' = Some M' ->
  forall a b, M a b = M' a b.
Proof.
  intros d P diffusion cs cs' M M' Pm H H' a b.
  rewrite (assemble_matrix_val _ _ _ _ _ _ H), (assemble_matrix_val _ _ _ _ _ _ H').
  f_equal. apply lsum_perm; auto.
Qed.
Print Assumptions C43_assembly_order_irrelevant.

Theorem C43_assembly_defined_iff : forall d P diffusion cs,
  (exists M, assemble_matrix d P diffusion (fun _ _ => 0) cs = Some M) <->
  (forall c, In c cs -> (cc_slots P c - 2 = cc_n P c)%nat).
Proof. intros. apply assemble_matrix_some. Qed.
Print Assumptions C43_assembly_defined_iff.

Example C43_case :
  (forall y, sym 2 (id_diff y)) /\ (forall y, psd 2 (id_diff y)) /\ weights_ok pt four /\
  exists M, assemble_matrix 2 pt id_diff (fun _ _ => 0) [four] = Some M /\ M 0%nat 0%nat = 2/3.
Proof.
  destruct (scalar_diff_ok (fun _ => 1)) as (A & B); [intros; lra|].
  split; [exact A|]. split; [exact B|]. split; [apply four_weights|].
  destruct (proj2 (C43_assembly_defined_iff 2 pt id_diff [four])) as (M & HM).
  { intros c [<-|[]]. reflexivity. }
  exists M. split; auto. rewrite (assemble_matrix_val _ _ _ _ _ _ HM).
  unfold cell_part, hit, covered, energy, used_grad, dot, mv, id_diff. simpl. lra.
Qed.

(** * C44 *)
(** What is computed: the energy of the gradients used. *)
Theorem C44_equal_if_gradients_constant : forall d P diffusion (to_coarse : P -> P) (c : coarse_cell P) l i j,
  (i < cc_n P c)%nat -> (j < cc_n P c)%nat ->
  (forall k x y m, (k < cc_n P c)%nat -> (m < d)%nat -> cc_grad P c k x m = cc_grad P c k y m) ->
  element_matrix d P diffusion c l i j =
  energy d P diffusion l (corrected_grad P to_coarse c l j) (corrected_grad P to_coarse c l i).
Proof.
  intros d P diffusion to_coarse c l i j Li Lj G. rewrite element_matrix_val by auto.
  unfold energy. apply lsum_ext. intros q _. f_equal.
  assert (E : forall k m, (k < cc_n P c)%nat -> (m < d)%nat ->
     used_grad P c l k (fst q) m = corrected_grad P to_coarse c l k (fst q) m).
  { intros k m Lk Lm. unfold used_grad, corrected_grad. f_equal. apply G; auto. }
  apply dot_ext; auto. intros m Lm. apply mv_ext. auto.
Qed.
Print Assumptions C44_equal_if_gradients_constant.

Theorem C44_equal_if_not_refined : forall d P diffusion (to_coarse : P -> P) (c : coarse_cell P) l i j,
  (i < cc_n P c)%nat -> (j < cc_n P c)%nat ->
  (forall q, In q (lc_quad P l) -> to_coarse (lc_global P l (fst q)) = fst q) ->
  element_matrix d P diffusion c l i j =
  energy d P diffusion l (corrected_grad P to_coarse c l j) (corrected_grad P to_coarse c l i).
Proof.
  intros d P diffusion to_coarse c l i j Li Lj G. rewrite element_matrix_val by auto.
  unfold energy. apply lsum_ext. intros q I. unfold used_grad, corrected_grad.
  rewrite (G q I). reflexivity.
Qed.
Print Assumptions C44_equal_if_not_refined.

(** In every case: the energy of coarse gradients taken at local coordinates. *)
Theorem C44_what_is_assembled : forall d P diffusion (c : coarse_cell P) l i j,
  (i < cc_n P c)%nat -> (j < cc_n P c)%nat ->
  element_matrix d P diffusion c l i j =
  energy d P diffusion l (fun x k => cc_grad P c j x k + lc_grad P l j x k)
                         (fun x k => cc_grad P c i x k + lc_grad P l i x k).
Proof. intros. now apply element_matrix_val. Qed.
Print Assumptions C44_what_is_assembled.

(** The global matrix: every entry is the sum, over the coarse cells and pairs of
    their basis functions with these global indices, of the energies on the
    local elements inside the cell. *)
Theorem C44_global_matrix : forall d P diffusion cs M,
  assemble_matrix d P diffusion (fun _ _ => 0) cs = Some M ->
  forall a b, M a b = lsum cs (fun c =>
    rsum (cc_n P c) (fun i => rsum (cc_n P c) (fun j =>
      hit P c i a * hit P c j b *
      lsum (covered P c) (fun l => energy d P diffusion l (used_grad P c l j) (used_grad P c l i))))).
Proof.
  intros d P diffusion cs M H a b. rewrite (assemble_matrix_val _ _ _ _ _ _ H), Rplus_0_l. reflexivity.
Qed.
Print Assumptions C44_global_matrix.

(** Counterexample: bilinear functions, four local cells, diffusion 1 + x,
    quadrature exact for the integrands: the assembled entry is not the energy
    of the basis function. *)
Theorem C44_differs_on_refined_cells :
  exists M, assemble_matrix 2 pt var_diff (fun _ _ => 0) [four] = Some M /\
    M 0%nat 0%nat <>
    lsum (covered pt four) (fun l => energy 2 pt var_diff l
        (corrected_grad pt (fun p => p) four l 0%nat) (corrected_grad pt (fun p => p) four l 0%nat)).
Proof.
  destruct (proj2 (C43_assembly_defined_iff 2 pt var_diff [four])) as (M & HM).
  { intros c [<-|[]]. reflexivity. }
  exists M. split; auto. rewrite (assemble_matrix_val _ _ _ _ _ _ HM).
  unfold cell_part, hit, covered, energy, used_grad, corrected_grad, dot, mv, var_diff. simpl. lra.
Qed.
Print Assumptions C44_differs_on_refined_cells.

(** Non-refined case: the local grid is the coarse cell itself. *)
Example C44_case :
  (forall q, In q (lc_quad pt (sub_cell 0 0 1)) -> lc_global pt (sub_cell 0 0 1) (fst q) = fst q) /\
  element_matrix 2 pt var_diff (bil_cell [sub_cell 0 0 1]) (sub_cell 0 0 1) 0%nat 0%nat =
  energy 2 pt var_diff (sub_cell 0 0 1) (fun x => bil_grad 0%nat x) (fun x => bil_grad 0%nat x).
Proof.
  split.
  - intros [[x y] w] _. simpl. f_equal; ring.
  - rewrite C44_what_is_assembled by (simpl; lia).
    unfold energy. apply lsum_ext. intros q _. f_equal.
    apply dot_ext; intros; [apply mv_ext; intros|]; simpl; ring.
Qed.

(** * C45 *)
Theorem C45_element_rhs : forall d P diffusion source (c : coarse_cell P) l i,
  (i < cc_n P c)%nat ->
  element_vector d P diffusion source c l i =
  load P source l (used_val P c l i) -
  rhs_energy d P diffusion l (fun x k => lc_grad P l (cc_n P c + 1) x k - lc_grad P l (cc_n P c) x k)
    (used_grad P c l i).
Proof. exact element_vector_val. Qed.
Print Assumptions C45_element_rhs.

(** Interior cells: both boundary correctors vanish, only the load remains. *)
Theorem C45_interior_cell : forall d P diffusion source (c : coarse_cell P) l i,
  (i < cc_n P c)%nat ->
  (forall x k, lc_grad P l (cc_n P c) x k = 0) -> (forall x k, lc_grad P l (cc_n P c + 1) x k = 0) ->
  element_vector d P diffusion source c l i = load P source l (used_val P c l i).
Proof.
  intros d P diffusion source c l i Li N D. rewrite element_vector_val by auto.
  assert (E : rhs_energy d P diffusion l
     (fun x k => lc_grad P l (cc_n P c + 1) x k - lc_grad P l (cc_n P c) x k) (used_grad P c l i) = 0);
    [|rewrite E; ring].
  unfold rhs_energy. apply lsum_0. intros q _.
  rewrite (dot_ext d _ (fun _ => 0) _ (used_grad P c l i (fst q))); auto.
  - unfold dot. rewrite rsum_0; [ring|]. intros. ring.
  - intros k Lk. unfold mv. apply rsum_0. intros m Lm. rewrite N, D. ring.
Qed.
Print Assumptions C45_interior_cell.

(** The global right hand side is the sum of the cells' parts, in any order. *)
Theorem C45_global_rhs : forall d P diffusion source cs V,
  assemble_vector d P diffusion source (fun _ => 0) cs = Some V ->
  forall a, V a = lsum cs (fun c => rsum (cc_n P c) (fun i => hit P c i a *
    lsum (covered P c) (fun l => load P source l (used_val P c l i) -
      rhs_energy d P diffusion l (fun x k => lc_grad P l (cc_n P c + 1) x k - lc_grad P l (cc_n P c) x k)
        (used_grad P c l i)))).
Proof.
  intros d P diffusion source cs V H a.
  rewrite (assemble_vector_val _ _ _ _ _ _ _ H), Rplus_0_l. reflexivity.
Qed.
Print Assumptions C45_global_rhs.

Example C45_case :
  element_vector 2 pt id_diff (fun _ => 3) four (sub_cell 0 0 (1/2)) 0%nat = 3/16.
Proof.
  rewrite C45_interior_cell by (simpl; auto; lia).
  unfold load, used_val. simpl. lra.
Qed.

(** * C22 for the assembly: a cell none of whose local cells is covered
    leaves matrix and right hand side unchanged. *)
Theorem C22_uncovered_cell_assembles_nothing : forall d P diffusion source M V (c : coarse_cell P) M' V',
  (forall l, In l (cc_locals P c) -> lc_covered P l = false) ->
  assemble_cell d P diffusion M c = Some M' -> assemble_rhs_cell d P diffusion source V c = Some V' ->
  M' = M /\ V' = V.
Proof.
  intros d P diffusion source M V c M' V' H HM HV.
  unfold assemble_cell in HM. unfold assemble_rhs_cell in HV.
  destruct (Nat.eqb (cc_slots P c - 2) _); [|discriminate].
  destruct (Nat.eqb (cc_slots P c) _); [|discriminate].
  injection HM as <-. injection HV as <-. clear -H.
  induction (cc_locals P c) as [|l ls IH]; simpl; auto.
  rewrite (H l) by (left; auto). apply IH. intros; apply H; right; auto.
Qed.
Print Assumptions C22_uncovered_cell_assembles_nothing.

(** The four parts of a cell, none of them recognised: both assemblies succeed and
    change nothing. *)
Definition missed (l : local_cell pt) : local_cell pt :=
  {| lc_covered := false; lc_global := lc_global pt l; lc_factor := lc_factor pt l; lc_grad := lc_grad pt l;
     lc_val := lc_val pt l; lc_quad := lc_quad pt l; lc_rquad := lc_rquad pt l |}.
Example C22_case_assembly :
  let c := bil_cell (map missed (cc_locals pt four)) in
  let zero2 := fun _ _ : nat => 0 in let zero1 := fun _ : nat => 0 in
  (forall l, In l (cc_locals pt c) -> lc_covered pt l = false) /\ length (cc_locals pt c) = 4%nat /\
  assemble_cell 2 pt id_diff zero2 c = Some zero2 /\
  assemble_rhs_cell 2 pt id_diff (fun _ => 3) zero1 c = Some zero1.
Proof.
  cbv zeta. split; [|repeat split].
  intros l H. simpl in H. repeat (destruct H as [<-|H]; [reflexivity|]). destruct H.
Qed.
