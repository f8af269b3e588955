(** Theorems about the reference system as a whole: C93, C94. *)
From Coq Require Import Reals List Arith Bool Lra Lia Permutation.
From Verif Require Import Util RSum CoarseModel CoarseSpec CoarseProofs CoarseProps LinModel SystemModel SystemSpec SystemProofs SystemProps.
From Verif Require Import FemModel FemSpec FemProofs.
Import ListNotations.
Open Scope R_scope.

(** A result of the reference solver is a fine function with the prescribed
    values at the constrained indices that balances load and prescribed flux
    against every fine function vanishing there; every such function is a
    possible result, whatever the solution contained before. *)
Theorem C93_reference_solution_balances : forall d P diffusion source neumann cells N constrained g start u,
  (forall c fs i, In (c, fs) cells -> (i < fc_n P c)%nat -> (fc_index P c i < N)%nat) ->
  (fem_solution d P diffusion source neumann N constrained g start cells u <->
   (forall i, (i < N)%nat -> constrained i = true -> u i = g i) /\
   (forall v, (forall i, (i < N)%nat -> constrained i = true -> v i = 0) ->
     lsum cells (fun cf => fine_energy d P diffusion (fst cf) (fine_grad P u (fst cf)) (fine_grad P v (fst cf))) =
     lsum cells (fun cf => fine_load P source (fst cf) (fine_val P v (fst cf))
       + boundary_load P neumann (snd cf) (fine_val P v (fst cf))))).
Proof. intros. now apply fem_weak_form. Qed.
Print Assumptions C93_reference_solution_balances.

(** The order of the elements does not matter. *)
Theorem C93_order_irrelevant : forall d P diffusion source neumann cells cells' N constrained g start u,
  Permutation cells cells' ->
  (forall c fs i, In (c, fs) cells -> (i < fc_n P c)%nat -> (fc_index P c i < N)%nat) ->
  fem_solution d P diffusion source neumann N constrained g start cells u ->
  fem_solution d P diffusion source neumann N constrained g start cells' u.
Proof.
  intros d P diffusion source neumann cells cells' N constrained g start u Pm L S.
  assert (I : forall c fs, In (c, fs) cells' -> In (c, fs) cells)
    by (intros c fs H; apply (Permutation_in _ (Permutation_sym Pm)); auto).
  apply C93_reference_solution_balances in S; auto. destruct S as (A & B).
  apply C93_reference_solution_balances; eauto. split; auto. intros v Z. specialize (B v Z).
  rewrite <- !(lsum_perm _ cells cells' _ Pm). exact B.
Qed.
Print Assumptions C93_order_irrelevant.

(** If the multiscale functions are functions of the reference space, the
    difference of the two solutions has no energy product with any corrected
    coarse function vanishing at the constrained indices. *)
Theorem C94_difference_is_orthogonal : forall d P diffusion source neumann fine_of cells fines
    N constrained g u Nf constrainedf gf start uh,
  (forall c fs i, In (c, fs) cells -> (i < cc_n P c)%nat -> (cc_index P c i < N)%nat) ->
  (forall c fs i, In (c, fs) fines -> (i < fc_n P c)%nat -> (fc_index P c i < Nf)%nat) ->
  resolves d P diffusion fine_of cells fines ->
  rules_agree d P diffusion cells ->
  contains d P source neumann fine_of cells fines N constrained Nf constrainedf ->
  coarse_solution d P diffusion source neumann N constrained g cells u ->
  fem_solution d P diffusion source neumann Nf constrainedf gf start fines uh ->
  forall v, (forall i, (i < N)%nat -> constrained i = true -> v i = 0) ->
  lsum cells (fun cf => lsum (covered P (fst cf)) (fun l =>
    energy d P diffusion l (fun x k => fine_grad P uh (fine_of (fst cf) l) x k - ms_grad P u (fst cf) l x k)
                           (test_grad P v (fst cf) l))) = 0.
Proof.
  intros d P diffusion source neumann fine_of cells fines N constrained g u Nf constrainedf gf start uh L Lf Rs Ag Ct S F v Z.
  assert (D : forall c fs, In (c, fs) cells -> (cc_slots P c = cc_n P c + 2)%nat).
  { destruct S as (M & V & E & _). apply (walk_some d P diffusion source neumann cells (fun _ _ => 0) (fun _ => 0)). eauto. }
  apply C90_balances_as_one_function in S; auto. destruct S as (_ & B). specialize (B v Z).
  apply C93_reference_solution_balances in F; auto. destruct F as (_ & Bf).
  destruct (Ct v Z) as (V & ZV & GV & LV). specialize (Bf V ZV).
  rewrite LV, <- B in Bf.
  rewrite (resolved_energy d P diffusion fine_of cells fines uh V (test_grad P v) Rs GV) in Bf.
  rewrite (lsum_ext _ cells _ (fun cf =>
    lsum (covered P (fst cf)) (fun l => energy d P diffusion l (fine_grad P uh (fine_of (fst cf) l)) (test_grad P v (fst cf) l)) -
    lsum (covered P (fst cf)) (fun l => energy d P diffusion l (ms_grad P u (fst cf) l) (test_grad P v (fst cf) l)))).
  - rewrite lsum_minus, Bf. ring.
  - intros cf _. rewrite <- lsum_minus. apply lsum_ext. intros l _. apply energy_minus_l.
Qed.
Print Assumptions C94_difference_is_orthogonal.

(** For a symmetric diffusion the multiscale solution is the best
    approximation: the distance of any other multiscale function with the
    prescribed values is the sum of two parts. *)
Theorem C94_distances_add_up : forall d P diffusion source neumann fine_of cells fines
    N constrained g u Nf constrainedf gf start uh w,
  (forall c fs i, In (c, fs) cells -> (i < cc_n P c)%nat -> (cc_index P c i < N)%nat) ->
  (forall c fs i, In (c, fs) fines -> (i < fc_n P c)%nat -> (fc_index P c i < Nf)%nat) ->
  resolves d P diffusion fine_of cells fines ->
  rules_agree d P diffusion cells ->
  contains d P source neumann fine_of cells fines N constrained Nf constrainedf ->
  (forall y, sym d (diffusion y)) ->
  coarse_solution d P diffusion source neumann N constrained g cells u ->
  fem_solution d P diffusion source neumann Nf constrainedf gf start fines uh ->
  (forall i, (i < N)%nat -> constrained i = true -> w i = g i) ->
  distance d P diffusion fine_of cells uh (ms_grad P w) =
  distance d P diffusion fine_of cells uh (ms_grad P u) +
  lsum cells (fun cf => lsum (covered P (fst cf)) (fun l =>
    energy d P diffusion l (test_grad P (fun i => u i - w i) (fst cf) l) (test_grad P (fun i => u i - w i) (fst cf) l))).
Proof.
  intros d P diffusion source neumann fine_of cells fines N constrained g u Nf constrainedf gf start uh w L Lf Rs Ag Ct Sy S F W.
  set (v := fun i => u i - w i).
  assert (Z : forall i, (i < N)%nat -> constrained i = true -> v i = 0).
  { intros i Li C. unfold v. rewrite W by auto.
    assert (D : forall c fs, In (c, fs) cells -> (cc_slots P c = cc_n P c + 2)%nat).
    { destruct S as (M & V & E & _). apply (walk_some d P diffusion source neumann cells (fun _ _ => 0) (fun _ => 0)). eauto. }
    apply C90_multiscale_solution_balances in S; auto. destruct S as (A & _). rewrite A by auto. ring. }
  pose proof (C94_difference_is_orthogonal _ _ _ _ _ _ _ _ _ _ _ _ _ _ _ _ _ L Lf Rs Ag Ct S F v Z) as O.
  unfold distance.
  set (E := fun (c : coarse_cell P) l x k => fine_grad P uh (fine_of c l) x k - ms_grad P u c l x k).
  change (lsum cells (fun cf => lsum (covered P (fst cf)) (fun l => energy d P diffusion l (E (fst cf) l) (test_grad P v (fst cf) l))) = 0) in O.
  change (lsum cells (fun cf => lsum (covered P (fst cf)) (fun l =>
    energy d P diffusion l (fun x k => fine_grad P uh (fine_of (fst cf) l) x k - ms_grad P w (fst cf) l x k)
      (fun x k => fine_grad P uh (fine_of (fst cf) l) x k - ms_grad P w (fst cf) l x k))) =
    lsum cells (fun cf => lsum (covered P (fst cf)) (fun l => energy d P diffusion l (E (fst cf) l) (E (fst cf) l))) +
    lsum cells (fun cf => lsum (covered P (fst cf)) (fun l =>
      energy d P diffusion l (test_grad P v (fst cf) l) (test_grad P v (fst cf) l)))).
  transitivity (lsum cells (fun cf => lsum (covered P (fst cf)) (fun l =>
      energy d P diffusion l (E (fst cf) l) (E (fst cf) l) + 2 * energy d P diffusion l (E (fst cf) l) (test_grad P v (fst cf) l)
      + energy d P diffusion l (test_grad P v (fst cf) l) (test_grad P v (fst cf) l)))).
  - apply lsum_ext. intros cf _. apply lsum_ext. intros l _.
    rewrite (energy_ext d P diffusion l _ (fun x k => E (fst cf) l x k + test_grad P v (fst cf) l x k)
               _ (fun x k => E (fst cf) l x k + test_grad P v (fst cf) l x k));
      try (intros q k _ _; rewrite (ms_grad_diff P u w); unfold E, v; ring).
    rewrite energy_plus_l, !energy_plus_r, (energy_sym d P diffusion l (test_grad P v (fst cf) l) (E (fst cf) l)) by auto. ring.
  - transitivity (lsum cells (fun cf => lsum (covered P (fst cf)) (fun l => energy d P diffusion l (E (fst cf) l) (E (fst cf) l))
      + 2 * lsum (covered P (fst cf)) (fun l => energy d P diffusion l (E (fst cf) l) (test_grad P v (fst cf) l))
      + lsum (covered P (fst cf)) (fun l => energy d P diffusion l (test_grad P v (fst cf) l) (test_grad P v (fst cf) l)))).
    + apply lsum_ext. intros cf _. rewrite !lsum_plus, lsum_scale. reflexivity.
    + rewrite !lsum_plus, lsum_scale, O. ring.
Qed.
Print Assumptions C94_distances_add_up.

Theorem C94_best_approximation : forall d P diffusion source neumann fine_of cells fines
    N constrained g u Nf constrainedf gf start uh w,
  (forall c fs i, In (c, fs) cells -> (i < cc_n P c)%nat -> (cc_index P c i < N)%nat) ->
  (forall c fs i, In (c, fs) fines -> (i < fc_n P c)%nat -> (fc_index P c i < Nf)%nat) ->
  resolves d P diffusion fine_of cells fines ->
  rules_agree d P diffusion cells ->
  contains d P source neumann fine_of cells fines N constrained Nf constrainedf ->
  (forall y, sym d (diffusion y)) -> (forall y, psd d (diffusion y)) ->
  (forall c fs, In (c, fs) cells -> weights_ok P c) ->
  coarse_solution d P diffusion source neumann N constrained g cells u ->
  fem_solution d P diffusion source neumann Nf constrainedf gf start fines uh ->
  (forall i, (i < N)%nat -> constrained i = true -> w i = g i) ->
  0 <= distance d P diffusion fine_of cells uh (ms_grad P u) <= distance d P diffusion fine_of cells uh (ms_grad P w).
Proof.
  intros d P diffusion source neumann fine_of cells fines N constrained g u Nf constrainedf gf start uh w L Lf Rs Ag Ct Sy Ps W S F A.
  assert (NN : forall (G : coarse_cell P -> local_cell P -> P -> nat -> R),
    0 <= lsum cells (fun cf => lsum (covered P (fst cf)) (fun l => energy d P diffusion l (G (fst cf) l) (G (fst cf) l)))).
  { intros G. apply lsum_nonneg. intros (c, fs) Ic. apply lsum_nonneg. intros l Il. apply energy_nonneg; auto.
    intros q Iq. apply (W c fs Ic l q); auto. unfold covered in Il. apply filter_In in Il. tauto. }
  split.
  - apply (NN (fun c l x k => fine_grad P uh (fine_of c l) x k - ms_grad P u c l x k)).
  - rewrite (C94_distances_add_up d P diffusion source neumann fine_of cells fines N constrained g u Nf constrainedf gf start uh w); auto.
    pose proof (NN (test_grad P (fun i => u i - w i))). lra.
Qed.
Print Assumptions C94_best_approximation.

(** In particular it is the reference solution if some multiscale function
    with the prescribed values is. *)
Theorem C94_exact_if_possible : forall d P diffusion source neumann fine_of cells fines
    N constrained g u Nf constrainedf gf start uh w,
  (forall c fs i, In (c, fs) cells -> (i < cc_n P c)%nat -> (cc_index P c i < N)%nat) ->
  (forall c fs i, In (c, fs) fines -> (i < fc_n P c)%nat -> (fc_index P c i < Nf)%nat) ->
  resolves d P diffusion fine_of cells fines ->
  rules_agree d P diffusion cells ->
  contains d P source neumann fine_of cells fines N constrained Nf constrainedf ->
  (forall y (z : nat -> R), (exists k, (k < d)%nat /\ z k <> 0) -> 0 < dot d (mv d (diffusion y) z) z) ->
  (forall c fs, In (c, fs) cells -> weights_ok P c) ->
  coarse_solution d P diffusion source neumann N constrained g cells u ->
  fem_solution d P diffusion source neumann Nf constrainedf gf start fines uh ->
  (forall i, (i < N)%nat -> constrained i = true -> w i = g i) ->
  (forall c fs l q k, In (c, fs) cells -> In l (covered P c) -> In q (lc_quad P l) -> (k < d)%nat ->
     ms_grad P w c l (fst q) k = fine_grad P uh (fine_of c l) (fst q) k) ->
  forall c fs l q wt k, In (c, fs) cells -> In l (covered P c) -> In (q, wt) (lc_quad P l) ->
    lc_factor P l q * wt <> 0 -> (k < d)%nat ->
    ms_grad P u c l q k = fine_grad P uh (fine_of c l) q k.
Proof.
  intros d P diffusion source neumann fine_of cells fines N constrained g u Nf constrainedf gf start uh w
    L Lf Rs Ag Ct PD W S F A X c fs l q wt k Ic Il Iq Wq Lk.
  pose proof (X c fs l (q, wt) k Ic Il Iq Lk) as E0. cbn [fst] in E0. rewrite <- E0.
  apply (C91_gradient_is_determined d P diffusion source neumann cells N constrained g u w L PD W S) with (fs := fs) (w := wt); auto.
  assert (D : forall c fs, In (c, fs) cells -> (cc_slots P c = cc_n P c + 2)%nat).
  { destruct S as (M & V & E & _). apply (walk_some d P diffusion source neumann cells (fun _ _ => 0) (fun _ => 0)). eauto. }
  apply C90_balances_as_one_function; auto. split; auto. intros v Z.
  destruct (Ct v Z) as (V & ZV & GV & LV).
  apply C93_reference_solution_balances in F; auto. destruct F as (_ & Bf). specialize (Bf V ZV).
  rewrite LV in Bf. rewrite <- Bf.
  rewrite (resolved_energy d P diffusion fine_of cells fines uh V (test_grad P v) Rs GV).
  apply lsum_ext. intros (c0, fs0) I0. apply lsum_ext. intros l0 J0. cbn [fst] in *. apply energy_ext; auto.
  intros q0 k0 I1 L1. apply (X c0 fs0 l0 q0 k0); auto.
Qed.
Print Assumptions C94_exact_if_possible.

(** The unit square with one element, flux 1 prescribed on the right, value 0
    on the left: the reference solution is the first coordinate. *)
Definition fine_square (a : R) (h : R) (index : nat -> nat) : fcell pt :=
  {| fc_n := 4; fc_grad := fun i p k => match k with O => bil_grad i p 0%nat / h | _ => bil_grad i p k end;
     fc_val := bil_val; fc_index := index; fc_global := fun p => (a + h * fst p, snd p);
     fc_factor := fun _ => h; fc_quad := simpson; fc_rquad := simpson |}.
Example C93_case :
  let cells := [(fine_square 0 1 (fun i => i), [left_edge; right_edge])] in
  (forall c fs i, In (c, fs) cells -> (i < fc_n pt c)%nat -> (fc_index pt c i < 4)%nat) /\
  fem_solution 2 pt id_diff (fun _ => 0) (fun _ => 1) 4 on_left (fun _ => 0) (fun _ => 7) cells first_coordinate.
Proof.
  intros cells. assert (L : forall c fs i, In (c, fs) cells -> (i < fc_n pt c)%nat -> (fc_index pt c i < 4)%nat).
  { intros c fs i [E|[]] Li. injection E as <- <-. exact Li. }
  split; auto. apply C93_reference_solution_balances; auto. split.
  - intros i Li C. do 4 (destruct i as [|i]; [try reflexivity; discriminate C|]). lia.
  - intros v Z. pose proof (Z 0%nat ltac:(lia) eq_refl) as Z0. pose proof (Z 2%nat ltac:(lia) eq_refl) as Z2.
    unfold cells, fine_energy, fine_load, boundary_load, fine_grad, fine_val, dot, mv, id_diff, first_coordinate.
    simpl. rewrite Z0, Z2. field.
Qed.

(** The unit interval, diffusion 1 at 1/4 and 3 at 3/4, one coarse cell with
    two local elements and their correctors; value 0 at 0, flux 1 at 1. *)
Definition half_cell (a g0 g1 v0 v1 : R) : local_cell R :=
  {| lc_covered := true; lc_global := fun x => a + x / 2; lc_factor := fun _ => 1/2;
     lc_grad := fun i _ _ => match i with O => g0 | S O => g1 | _ => 0 end;
     lc_val := fun i x => match i with O => - (v0 + (v1 - v0) * x) | S O => v0 + (v1 - v0) * x | _ => 0 end;
     lc_quad := [(1/2, 1)]; lc_rquad := [(1/2, 1)] |}.
Definition line_cell : coarse_cell R :=
  {| cc_n := 2; cc_grad := fun i _ _ => match i with O => -1 | _ => 1 end;
     cc_val := fun i x => match i with O => 1 - x | _ => x end;
     cc_index := fun i => i; cc_slots := 4;
     cc_locals := [half_cell 0 (-1/2) (1/2) 0 (1/4); half_cell (1/2) (1/2) (-1/2) (1/4) 0] |}.
Definition line_fine (a : R) (s : nat) : fcell R :=
  {| fc_n := 2; fc_grad := fun i _ _ => match i with O => -2 | _ => 2 end;
     fc_val := fun i x => match i with O => 1 - x | _ => x end;
     fc_index := fun i => (s + i)%nat; fc_global := fun x => a + x / 2;
     fc_factor := fun _ => 1/2; fc_quad := [(1/2, 1)]; fc_rquad := [(1/2, 1)] |}.
Definition line_fine_of (c : coarse_cell R) (l : local_cell R) : fcell R :=
  if Rlt_dec (lc_global R l 0) (1/4) then line_fine 0 0 else line_fine (1/2) 1.
Definition line_end (n : bool) (x : R) : cface R := {| cf_neumann := n; cf_quad := [((x, x), 1)] |}.
Definition line_diff : R -> nat -> nat -> R := fun y _ _ => 3/4 + 4 * (y * y).
Definition line_cells := [(line_cell, [line_end false 0; line_end true 1])].
Definition line_fines := [(line_fine 0 0, [line_end false 0]); (line_fine (1/2) 1, [line_end true 1])].
Definition line_u (i : nat) : R := match i with O => 0 | _ => 2/3 end.
Definition line_w (i : nat) : R := match i with O => 0 | _ => 1 end.
Definition line_uh (i : nat) : R := match i with O => 0 | S O => 1/2 | _ => 2/3 end.
Lemma line_left : forall c, line_fine_of c (half_cell 0 (-1/2) (1/2) 0 (1/4)) = line_fine 0 0.
Proof. intros c. unfold line_fine_of. destruct (Rlt_dec _ _) as [_|N]; auto. exfalso. apply N. simpl. lra. Qed.
Lemma line_right : forall c, line_fine_of c (half_cell (1/2) (1/2) (-1/2) (1/4) 0) = line_fine (1/2) 1.
Proof. intros c. unfold line_fine_of. destruct (Rlt_dec _ _) as [N|_]; auto. exfalso. simpl in N. lra. Qed.
Example C94_case :
  (forall c fs i, In (c, fs) line_cells -> (i < cc_n R c)%nat -> (cc_index R c i < 2)%nat) /\
  (forall c fs i, In (c, fs) line_fines -> (i < fc_n R c)%nat -> (fc_index R c i < 3)%nat) /\
  resolves 1 R line_diff line_fine_of line_cells line_fines /\ rules_agree 1 R line_diff line_cells /\
  contains 1 R (fun _ => 0) (fun _ => 1) line_fine_of line_cells line_fines 2 (Nat.eqb 0) 3 (Nat.eqb 0) /\
  (forall y, sym 1 (line_diff y)) /\
  (forall y (z : nat -> R), (exists k, (k < 1)%nat /\ z k <> 0) -> 0 < dot 1 (mv 1 (line_diff y) z) z) /\
  weights_ok R line_cell /\
  coarse_solution 1 R line_diff (fun _ => 0) (fun _ => 1) 2 (Nat.eqb 0) (fun _ => 0) line_cells line_u /\
  fem_solution 1 R line_diff (fun _ => 0) (fun _ => 1) 3 (Nat.eqb 0) (fun _ => 0) (fun _ => 0) line_fines line_uh /\
  distance 1 R line_diff line_fine_of line_cells line_uh (ms_grad R line_u) = 0 /\
  distance 1 R line_diff line_fine_of line_cells line_uh (ms_grad R line_w) = 1/6.
Proof.
  assert (L : forall c fs i, In (c, fs) line_cells -> (i < cc_n R c)%nat -> (cc_index R c i < 2)%nat).
  { intros c fs i [E|[]] Li. injection E as <- <-. exact Li. }
  assert (Lf : forall c fs i, In (c, fs) line_fines -> (i < fc_n R c)%nat -> (fc_index R c i < 3)%nat).
  { intros c fs i [E|[E|[]]] Li; injection E as <- <-; simpl in *; lia. }
  split; auto. split; auto.
  split. { split.
    - simpl. rewrite line_left, line_right. apply Permutation_refl.
    - intros c fs l [E|[]] Il. injection E as <- <-. simpl in Il.
      destruct Il as [<-|[<-|[]]]; rewrite ?line_left, ?line_right; intros u v; reflexivity. }
  split. { apply rules_agree_zero. intros c fs l x k [E|[]] Il. injection E as <- <-.
    simpl in Il. destruct Il as [<-|[<-|[]]]; unfold boundary_grad; simpl; ring. }
  split. { intros v Z. pose proof (Z 0%nat ltac:(lia) eq_refl) as Z0.
    exists (fun i => match i with O => 0 | S O => 3/4 * v 1%nat | _ => v 1%nat end). split.
    { intros i Li C. destruct i; [reflexivity|discriminate C]. }
    split.
    - intros c fs l q k [E|[]] Il Iq Lk. injection E as <- <-. simpl in Il.
      destruct Il as [<-|[<-|[]]]; rewrite ?line_left, ?line_right; unfold fine_grad, test_grad, used_grad; simpl; rewrite Z0; field.
    - unfold line_cells, line_fines, fine_load, boundary_load, fine_val, covered, load, test_val, test_coarse, used_val. simpl. rewrite Z0. field. }
  split. { intros y i j _ _. reflexivity. }
  split. { intros y z (k & Lk & Z). destruct k; [|lia]. unfold dot, mv, line_diff. simpl.
    pose proof (Rsqr_pos_lt _ Z) as Q. pose proof (Rle_0_sqr y) as Y. unfold Rsqr in *.
    replace (0 + (0 + (3 / 4 + 4 * (y * y)) * z 0%nat) * z 0%nat) with ((3/4 + 4 * (y*y)) * (z 0%nat * z 0%nat)) by ring.
    apply Rmult_lt_0_compat; lra. }
  split. { intros l q [<-|[<-|[]]] [<-|[]]; simpl; lra. }
  split. { apply C90_multiscale_solution_balances; auto.
    - intros c fs [E|[]]. now injection E as <- <-.
    - split.
      + intros i Li C. destruct i; [reflexivity|discriminate C].
      + intros v Z. pose proof (Z 0%nat ltac:(lia) eq_refl) as Z0.
        unfold line_cells, covered, ms_energy, boundary_grad, energy, rhs_energy, load, boundary_load, test_grad, test_val, test_coarse, used_grad, used_val, dot, mv, line_diff, line_u.
        simpl. rewrite Z0. field. }
  split. { apply C93_reference_solution_balances; auto. split.
    - intros i Li C. destruct i; [reflexivity|discriminate C].
    - intros v Z. pose proof (Z 0%nat ltac:(lia) eq_refl) as Z0.
      unfold line_fines, fine_energy, fine_load, boundary_load, fine_grad, fine_val, dot, mv, line_diff, line_uh.
      simpl. rewrite Z0. field. }
  assert (Cv : covered R line_cell = [half_cell 0 (-1/2) (1/2) 0 (1/4); half_cell (1/2) (1/2) (-1/2) (1/4) 0]) by reflexivity.
  unfold distance, line_cells. cbn [lsum fst]. rewrite Cv. cbn [lsum]. rewrite line_left, line_right.
  unfold energy, fine_grad, ms_grad, used_grad, dot, mv, line_diff, line_u, line_w, line_uh.
  split; simpl; field.
Qed.

(** The premise is necessary and fails for bilinear functions on refined local
    grids (coarse gradients are taken at the wrong place, see C44): one coarse
    cell, two local elements without interior nodes (so without correctors),
    diffusion 1 + x, value 0 on the left and below, flux 1 on the right.  The
    coarse functions are functions of the reference space, but another one is
    closer to the reference solution than the computed one. *)
Definition flat_half (a : R) : local_cell pt :=
  {| lc_covered := true; lc_global := fun p => (a + 1/2 * fst p, snd p);
     lc_factor := fun _ => 1/2; lc_grad := fun _ _ _ => 0; lc_val := fun _ _ => 0; lc_quad := simpson; lc_rquad := simpson |}.
Definition flat_cell : coarse_cell pt := bil_cell [flat_half 0; flat_half (1/2)].
Definition flat_fine (a : R) : fcell pt :=
  fine_square a (1/2) (fun i => if Rlt_dec a (1/4) then nth i [0; 1; 3; 4]%nat 0%nat else nth i [1; 2; 4; 5]%nat 0%nat).
Definition flat_fine_of (_ : coarse_cell pt) (l : local_cell pt) : fcell pt := flat_fine (fst (lc_global pt l (0, 0))).
Definition flat_cells := [(flat_cell, [right_edge])].
Definition flat_fines := [(flat_fine 0, []); (flat_fine (1/2), [right_edge])].
Definition flat_u (i : nat) : R := match i with 3%nat => 12/25 | _ => 0 end.
Definition flat_w (i : nat) : R := match i with 3%nat => 6/13 | _ => 0 end.
Definition flat_uh (i : nat) : R := match i with 4%nat => 1176/6119 | 5%nat => 2880/6119 | _ => 0 end.
(** Nodal values of a coarse function in the fine space. *)
Definition flat_fine_values (w : nat -> R) (i : nat) : R :=
  match i with
  | 0%nat => w 0%nat | 1%nat => (w 0%nat + w 1%nat) / 2 | 2%nat => w 1%nat
  | 3%nat => w 2%nat | 4%nat => (w 2%nat + w 3%nat) / 2 | _ => w 3%nat
  end.
Lemma flat_index_left : forall i, fc_index pt (flat_fine 0) i = nth i [0; 1; 3; 4]%nat 0%nat.
Proof. intros i. unfold flat_fine, fine_square. cbn [fc_index]. destruct (Rlt_dec 0 (1/4)); auto. lra. Qed.
Lemma flat_index_right : forall i, fc_index pt (flat_fine (1/2)) i = nth i [1; 2; 4; 5]%nat 0%nat.
Proof. intros i. unfold flat_fine, fine_square. cbn [fc_index]. destruct (Rlt_dec (1/2) (1/4)); auto. lra. Qed.
Lemma flat_of_left : forall c, flat_fine_of c (flat_half 0) = flat_fine 0.
Proof. intros c. unfold flat_fine_of. f_equal. simpl. lra. Qed.
Lemma flat_of_right : forall c, flat_fine_of c (flat_half (1/2)) = flat_fine (1/2).
Proof. intros c. unfold flat_fine_of. f_equal. simpl. lra. Qed.

Theorem C94_not_best_on_refined_cells :
  (forall w l x k, In l (cc_locals pt flat_cell) -> (k < 2)%nat ->
     fine_grad pt (flat_fine_values w) (flat_fine_of flat_cell l) x k = true_grad pt (fun p => p) w flat_cell l x k) /\
  resolves 2 pt var_diff flat_fine_of flat_cells flat_fines /\ rules_agree 2 pt var_diff flat_cells /\
  coarse_solution 2 pt var_diff (fun _ => 0) (fun _ => 1) 4 (fun i => Nat.ltb i 3) (fun _ => 0) flat_cells flat_u /\
  fem_solution 2 pt var_diff (fun _ => 0) (fun _ => 1) 6 (fun i => Nat.ltb i 4) (fun _ => 0) (fun _ => 0) flat_fines flat_uh /\
  (forall i, (i < 3)%nat -> flat_w i = 0) /\
  distance 2 pt var_diff flat_fine_of flat_cells flat_uh (true_grad pt (fun p => p) flat_w) <
  distance 2 pt var_diff flat_fine_of flat_cells flat_uh (true_grad pt (fun p => p) flat_u).
Proof.
  split. { intros w l x k Il Lk. simpl in Il.
    destruct Il as [<-|[<-|[]]]; rewrite ?flat_of_left, ?flat_of_right; unfold fine_grad, true_grad, corrected_grad;
      destruct k as [|[|k]]; try lia; cbn [fc_n flat_fine fine_square rsum]; rewrite ?flat_index_left, ?flat_index_right; simpl; field. }
  split. { split.
    - simpl. rewrite flat_of_left, flat_of_right. apply Permutation_refl.
    - intros c fs l [E|[]] Il. injection E as <- <-. simpl in Il.
      destruct Il as [<-|[<-|[]]]; rewrite ?flat_of_left, ?flat_of_right; intros u v; reflexivity. }
  split. { apply rules_agree_zero. intros c fs l x k [E|[]] Il. injection E as <- <-.
    simpl in Il. destruct Il as [<-|[<-|[]]]; unfold boundary_grad; simpl; ring. }
  split. { apply C90_multiscale_solution_balances.
    - intros c fs i [E|[]] Li. injection E as <- <-. exact Li.
    - intros c fs [E|[]]. now injection E as <- <-.
    - split.
      + intros i Li C. do 3 (destruct i as [|i]; [reflexivity|]). destruct i; [discriminate C|lia].
      + intros v Z. pose proof (Z 0%nat ltac:(lia) eq_refl) as Z0. pose proof (Z 1%nat ltac:(lia) eq_refl) as Z1.
        pose proof (Z 2%nat ltac:(lia) eq_refl) as Z2.
        unfold flat_cells, covered, ms_energy, boundary_grad, energy, rhs_energy, load, boundary_load, test_grad, test_val, test_coarse, used_grad, used_val, dot, mv, var_diff, flat_u.
        simpl. rewrite Z0, Z1, Z2. field. }
  split. { apply C93_reference_solution_balances.
    - intros c fs i [E|[E|[]]] Li; injection E as <- <-; simpl in Li; rewrite ?flat_index_left, ?flat_index_right;
      do 4 (destruct i as [|i]; [simpl; lia|]); lia.
    - split.
      + intros i Li C. do 4 (destruct i as [|i]; [reflexivity|]). do 2 (destruct i; [discriminate C|]). lia.
      + intros v Z. pose proof (Z 0%nat ltac:(lia) eq_refl) as Z0. pose proof (Z 1%nat ltac:(lia) eq_refl) as Z1.
        pose proof (Z 2%nat ltac:(lia) eq_refl) as Z2. pose proof (Z 3%nat ltac:(lia) eq_refl) as Z3.
        unfold flat_fines. cbn [lsum fst snd].
        unfold fine_energy, fine_load, boundary_load, fine_grad, fine_val.
        cbn [fc_n flat_fine fine_square fc_quad rsum]. fold (flat_fine 0). fold (flat_fine (1/2)).
        rewrite ?flat_index_left, ?flat_index_right.
        unfold dot, mv, var_diff, flat_uh. simpl. rewrite Z0, Z1, Z2, Z3. field. }
  split. { intros i Li. do 3 (destruct i as [|i]; [reflexivity|]). lia. }
  assert (Cv : covered pt flat_cell = [flat_half 0; flat_half (1/2)]) by reflexivity.
  unfold distance, flat_cells. cbn [lsum fst]. rewrite Cv. cbn [lsum]. rewrite flat_of_left, flat_of_right.
  unfold energy, fine_grad, true_grad, corrected_grad.
  cbn [fc_n flat_fine fine_square fc_quad rsum]. fold (flat_fine 0). fold (flat_fine (1/2)).
  rewrite ?flat_index_left, ?flat_index_right.
  unfold dot, mv, var_diff, flat_u, flat_w, flat_uh. simpl. lra.
Qed.
Print Assumptions C94_not_best_on_refined_cells.
