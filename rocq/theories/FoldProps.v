(** C129: what the coarse system sees of source and diffusion inside a coarse cell. *)
From Coq Require Import Reals List Arith Bool Lra Lia.
From Verif Require Import Util RSum CoarseModel CoarseSpec CoarseProofs LinModel LinSpec LinProofs QuadModel QuadProofs SystemModel SystemSpec SystemProofs.
From Verif Require Import FemModel FemSpec FemProofs FemProps PatchSpec PatchProofs PatchProps SolveSpec SolveProofs LayerSpec LayerProofs.
From Verif Require Import WholeSpec WholeProps LineSpec LineProofs LineProps FoldSpec FoldProofs.
Import ListNotations.
Open Scope R_scope.

(** Where nothing is corrected the coarse system is the one of the finite element
    method on the coarse grid for the folded data. *)
Theorem C129_folded_data : forall d P diffusion source neumann T (idx : list T) (C : T -> coarse_cell P) (F : T -> list (cface P))
    (vol : T -> R) (quad rquad : T -> list (P * R)) diffusion' source' global N constrained g start u,
  (forall a, In a idx -> cc_slots P (C a) = (cc_n P (C a) + 2)%nat /\ vol a <> 0 /\
     same_rules (C a) (quad a) (rquad a) /\ nothing_added (C a) (quad a) (rquad a)) ->
  (forall a q, In a idx -> In q (quad a) -> forall i j, (i < d)%nat -> (j < d)%nat ->
     diffusion' (global a (fst q)) i j = folded (C a) (vol a) (fun y => diffusion y i j) (fst q)) ->
  (forall a q, In a idx -> In q (rquad a) -> source' (global a (fst q)) = folded (C a) (vol a) source (fst q)) ->
  (forall a i, In a idx -> (i < cc_n P (C a))%nat -> (cc_index P (C a) i < N)%nat) ->
  (coarse_solution d P diffusion source neumann N constrained g (map (fun a => (C a, F a)) idx) u <->
   fem_solution d P diffusion' source' neumann N constrained g start
     (map (fun a => (fem_cell (C a) (global a) (vol a) (quad a) (rquad a), F a)) idx) u).
Proof. intros. now apply folded_solution. Qed.
Print Assumptions C129_folded_data.

(** In general: two sources that are folded to the same have loads that differ by
    what the corrections see of them. *)
Theorem C129_same_folded_source : forall P (source source' : P -> R) c vol quad rquad v, same_rules c quad rquad -> vol <> 0 ->
  (forall q, In q rquad -> folded c vol source (fst q) = folded c vol source' (fst q)) ->
  lsum (covered P c) (fun l => load P source l (test_val P v c l)) - lsum (covered P c) (fun l => load P source' l (test_val P v c l)) =
  lsum (covered P c) (fun l => load P (fun y => source y - source' y) l (correction v c l)).
Proof. intros. now apply (same_fold_load P source source' c vol quad rquad). Qed.
Print Assumptions C129_same_folded_source.

(** Data that are constant on every local element are folded to their mean. *)
Theorem C129_means : forall P (c : coarse_cell P) vol (f : P -> R) (w b : local_cell P -> R) x,
  (forall l, In l (covered P c) -> lc_factor P l x = w l /\ f (lc_global P l x) = b l) ->
  folded c vol f x = lsum (covered P c) (fun l => w l * b l) / vol.
Proof.
  intros P c vol f w b x H. unfold folded. f_equal. apply lsum_ext. intros l I. destruct (H l I) as (-> & ->). reflexivity.
Qed.
Print Assumptions C129_means.

(** Grids of boxes, the same diagonal diffusion everywhere, any local grids: the
    coarse solution is that of the finite element method on the coarse grid for
    the mean of the source over the fine cells of the coarse cell. *)
Theorem C129_constant_diffusion : forall ns hs num n con g pa A diffusion order rhs_order line rq x fs source source' global neumann start u,
  ns <> [] -> length hs = length ns -> Forall (Rlt 0) hs -> numbering ns num n ->
  diagonal A -> (forall k, (k < length ns)%nat -> 0 < A k k) -> (forall y, diffusion y = A) -> (2 <= gauss_points order <= 3)%nat ->
  (forall cs, In cs (cells ns) -> sound (length ns) (pa cs) /\ outer_constrained (pa_cells (pa cs)) (pa_num (pa cs)) (pa_con (pa cs)) /\
     INR (length (inside (pa cs))) * volume (pa_edges (pa cs)) = volume hs /\
     corrected hs num diffusion order rhs_order (pa cs) cs (x cs) /\
     (forall i m, (length (corners cs) <= i < length (corners cs) + 2)%nat -> (m < pa_n (pa cs))%nat -> x cs i m = 0) /\
     forall q, In q (rq cs) -> length (fst q) = length ns /\ source' (global cs (fst q)) = mean_inside (pa cs) source (fst q)) ->
  (coarse_solution (length ns) (list R) diffusion source neumann n con g (patched ns hs num pa line (fun cs _ => rq cs) x fs) u <->
   fem_solution (length ns) (list R) diffusion source' neumann n con g start
     (fine_boxes ns hs num global (product_rule line (length ns)) rq fs) u).
Proof.
  intros ns hs num n con g pa A diffusion order rhs_order line rq x fs source source' global neumann start u NE Lh Fh Nu Dg Ap Dc Go H.
  pose proof (volume_pos hs Fh) as Vp.
  set (C := fun cs => box_cell hs num cs (patch_elements (pa cs) line (fun _ => rq cs) (x cs))).
  assert (Cov : forall cs, covered (list R) (C cs) = map (fun f => {| lc_covered := pa_inside (pa cs) f; lc_global := pa_global (pa cs) f;
     lc_factor := fun _ => volume (pa_edges (pa cs)); lc_grad := fun i xs => grad (pa_edges (pa cs)) (fun js => x cs i (pa_num (pa cs) js)) f xs;
     lc_val := fun i xs => value (fun js => x cs i (pa_num (pa cs) js)) f xs;
     lc_quad := product_rule line (length (pa_cells (pa cs))); lc_rquad := rq cs |}) (inside (pa cs))).
  { intros cs. unfold covered, C, inside. cbn [box_cell cc_locals]. unfold patch_elements. induction (cells (pa_cells (pa cs))) as [|f l IH]; [reflexivity|].
    cbn [map filter lc_covered]. destruct (pa_inside (pa cs) f) eqn:E; cbn [map]; rewrite IH, ?E; reflexivity. }
  assert (Fold : forall cs (f : list R -> R) y, In cs (cells ns) -> folded (C cs) (volume hs) f y = mean_inside (pa cs) f y).
  { intros cs f y I. destruct (H cs I) as (_ & _ & V & _). unfold folded, mean_inside. rewrite Cov, lsum_map. cbn [lc_factor lc_global].
    rewrite lsum_scale, <- V. assert (volume (pa_edges (pa cs)) <> 0 /\ INR (length (inside (pa cs))) <> 0) as (N1 & N2).
    { split; intros Z; rewrite Z in V; lra. }
    field. split; auto. }
  unfold patched, fine_boxes. etransitivity;
    [apply (folded_solution (length ns) (list R) diffusion source neumann (list nat) (cells ns) C fs (fun _ => volume hs)
       (fun _ => product_rule line (length ns)) rq) with (diffusion' := diffusion) (source' := source') (global := global) (start := start)|].
  - intros cs I. destruct (H cs I) as (So & Oc & V & Co & Z & Q). split; [reflexivity|]. split; [lra|]. split.
    + intros l J. rewrite Cov in J. apply in_map_iff in J. destruct J as (f & <- & J). cbn [lc_quad lc_rquad]. split; [|reflexivity].
      f_equal. apply So.
    + intros l q i J K Li. rewrite Cov in J. apply in_map_iff in J. destruct J as (f & <- & J). cbn [lc_val lc_grad C box_cell cc_n] in *.
      apply filter_In in J. destruct J as (J & _).
      assert (Lq : length (fst q) = length f).
      { rewrite (cells_length _ _ J), (proj1 So). apply in_app_or in K. destruct K as [K|K]; [now apply (rule_length _ _ _ K)|now apply Q]. }
      assert (E : forall js, In js (corners f) -> x cs i (pa_num (pa cs) js) = (fun _ => 0) js).
      { intros js Jj. pose proof (corner_node _ _ _ J Jj) as Nj. assert (Lm : (pa_num (pa cs) js < pa_n (pa cs))%nat) by (now apply So).
        destruct (Nat.lt_ge_cases i (length (corners cs))) as [Lc|Lc].
        - apply (corrector_vanishes ns hs num A diffusion order rhs_order NE Lh Dg Ap Dc Go (pa cs) cs (x cs)); auto.
        - apply Z; auto. }
      split.
      * rewrite (value_ext f (fst q) _ (fun _ => 0)) by auto. apply value_zero.
      * intros k. rewrite (grad_ext (pa_edges (pa cs)) f (fst q) k _ (fun _ => 0)) by auto. apply grad_zero.
  - intros cs q I _ i j _ _. rewrite (Fold cs (fun y => diffusion y i j)) by exact I. unfold mean_inside. rewrite !Dc.
    rewrite (lsum_ext _ _ _ (fun _ => A i j * 1)) by (intros; rewrite Dc; ring). rewrite lsum_scale, lsum_one.
    destruct (H cs I) as (_ & _ & V & _). field. intros Z. rewrite Z in V. lra.
  - intros cs q I Q. rewrite Fold by exact I. now apply (H cs I).
  - intros cs i I Li. cbn [C box_cell cc_n cc_index] in *. apply (proj1 Nu). apply (corner_node ns cs); auto. now apply nth_In.
  - apply iff_refl.
Qed.
Print Assumptions C129_constant_diffusion.

(** * Concrete case: the interval with diffusion 1 and values 0 at both ends, two
    coarse cells with two fine cells each; the source is 1 in the first fine cell,
    -1 in the second and 0 in the others.  Its mean over each coarse cell is 0, so
    the coarse solution vanishes; the reference solution is -1/32 in the middle. *)
Definition up_and_down (y : list R) : R :=
  if Rlt_dec (nth 0 y 0) (1/4) then 1 else if Rlt_dec (nth 0 y 0) (1/2) then -1 else 0.
Definition unit_diffusion (y : list R) (i j : nat) : R := if Nat.eqb i j then 1 else 0.
Definition quarter (g : list nat) (t : list R) : list R := [(INR (nth 0 g 0%nat) + nth 0 t 0) * (1/4)].
Definition half_patch (cs : list nat) : patch :=
  {| pa_cells := [2]%nat; pa_edges := [1/4]; pa_low := [0]; pa_num := first_node; pa_n := 3;
     pa_con := fun i => negb (Nat.eqb i 1); pa_inside := fun _ => true;
     pa_global := fun f t => quarter [(nth 0 cs 0 * 2 + nth 0 f 0)%nat] t |}.
Definition both_ends (m i : nat) : bool := Nat.eqb i 0 || Nat.eqb i m.
Definition middle_down (i : nat) : R := match i with 1%nat => -1/64 | 2%nat => -1/32 | 3%nat => -1/64 | _ => 0 end.

Lemma source_on : forall g q, (g < 4)%nat -> In q (cube_rule 1 3) ->
  up_and_down (quarter [g] (fst q)) = match g with 0%nat => 1 | 1%nat => -1 | _ => 0 end.
Proof.
  intros g q L Q. assert (T : 0 < nth 0 (fst q) 0 < 1).
  { pose proof sqrt3_bounds. destruct Q as [<-|[<-|[]]]; cbn; lra. }
  unfold up_and_down, quarter. cbn [nth]. set (t := nth 0 (fst q) 0) in *.
  destruct g as [|[|[|[|]]]]; try lia; cbn [INR]; repeat (destruct (Rlt_dec _ _); try lra).
Qed.

Definition fine_cell (g : nat) : fcell (list R) :=
  fem_cell (box_cell [1/4] first_node [g] []) (quarter [g]) (volume [1/4]) (cube_rule 1 3) (cube_rule 1 3).
Lemma cell_load : forall g v, (g < 4)%nat -> fine_load (list R) up_and_down (fine_cell g) (fine_val (list R) v (fine_cell g)) =
  match g with 0%nat => 1 | 1%nat => -1 | _ => 0 end * (v g + v (S g)) / 8.
Proof.
  intros g v L. unfold fine_load. cbn [fine_cell fem_cell fc_rquad fc_factor fc_global].
  rewrite (lsum_ext _ (cube_rule 1 3) _ (fun q => volume [1/4] * snd q * (match g with 0%nat => 1 | 1%nat => -1 | _ => 0 end * fine_val (list R) v (fine_cell g) (fst q)))).
  - destruct g as [|[|[|[|]]]]; try lia; cbn; field; apply Rgt_not_eq; apply sqrt3_bounds.
  - intros q Q. now rewrite source_on.
Qed.
Lemma cell_energy : forall g u v, (g < 4)%nat ->
  fine_energy 1 (list R) unit_diffusion (fine_cell g) (fine_grad (list R) u (fine_cell g)) (fine_grad (list R) v (fine_cell g)) =
  4 * (u (S g) - u g) * (v (S g) - v g).
Proof. intros g u v L. destruct g as [|[|[|[|]]]]; try lia; cbn; field. Qed.
Lemma reference_in_the_middle : fem_solution 1 (list R) unit_diffusion up_and_down (fun _ => 0) 5 (both_ends 4) (fun _ => 0) (fun _ => 0)
  (fine_boxes [4]%nat [1/4] first_node quarter (cube_rule 1 3) (fun _ => cube_rule 1 3) (fun _ => [])) middle_down.
Proof.
  apply C93_reference_solution_balances.
  - intros c fs i I Li. unfold fine_boxes in I. apply in_map_iff in I. destruct I as (cs & E & I). injection E as <- <-.
    cbn [fem_cell fc_n fc_index box_cell cc_n cc_index] in *. apply (line_numbering 4). apply (corner_node [4]%nat cs); auto. now apply nth_In.
  - split.
    + intros i Li C. destruct i as [|[|[|[|[|]]]]]; try discriminate C; try reflexivity; lia.
    + intros v Z. pose proof (Z 0%nat ltac:(lia) eq_refl) as Z0. pose proof (Z 4%nat ltac:(lia) eq_refl) as Z4.
      unfold fine_boxes. rewrite !lsum_map. cbn [cells flat_map seq map app lsum fst snd].
      fold (fine_cell 0) (fine_cell 1) (fine_cell 2) (fine_cell 3). rewrite !cell_energy, !cell_load by lia. unfold boundary_load. cbn [filter lsum].
      cbn [middle_down]. rewrite Z0, Z4. lra.
Qed.

Example C129_case : exists x,
  (forall cs, In cs (cells [2]%nat) -> corrected [1/2] first_node unit_diffusion 2 3 (half_patch cs) cs (x cs)) /\
  coarse_solution 1 (list R) unit_diffusion up_and_down (fun _ => 0) 3 (both_ends 2) (fun _ => 0)
    (patched [2]%nat [1/2] first_node half_patch (line_rule 2) (fun _ _ => cube_rule 1 3) x (fun _ => [])) (fun _ => 0) /\
  fem_solution 1 (list R) unit_diffusion up_and_down (fun _ => 0) 5 (both_ends 4) (fun _ => 0) (fun _ => 0)
    (fine_boxes [4]%nat [1/4] first_node quarter (cube_rule 1 3) (fun _ => cube_rule 1 3) (fun _ => [])) middle_down /\
  middle_down 2 = -1/32.
Proof.
  assert (Sp : forall cs, sound 1 (half_patch cs)).
  { intros cs. repeat (split; [reflexivity|]). split; [repeat constructor|]. split; [repeat constructor; cbn; lra|apply line_numbering]. }
  assert (Po : forall y, positive 1 (unit_diffusion y)).
  { intros y. apply diagonal_positive; intros; unfold unit_diffusion.
    - intros i j D. apply Nat.eqb_neq in D. now rewrite D.
    - rewrite Nat.eqb_refl. lra. }
  destruct (proj1 (C112_local_functions_are_determined [2]%nat [1/2] first_node 3 (fun i => Nat.eqb i 0) half_patch unit_diffusion 2 3 (line_rule 2) (fun _ _ => [])
    (fun _ _ _ => 0) (fun _ => []) (fun _ => 0) (fun _ => 0) (fun _ => 0) eq_refl Po ltac:(cbn; lia)
    ltac:(intros cs _; split; [apply Sp|exists 0%nat; split; [cbn; lia|reflexivity]]))) as (x0 & X0).
  set (x := fun cs i m => if Nat.ltb i 2 then x0 cs i m else 0).
  assert (X : forall cs, In cs (cells [2]%nat) -> corrected [1/2] first_node unit_diffusion 2 3 (half_patch cs) cs (x cs)).
  { intros cs I i Li. destruct (X0 cs I) as (X & _). specialize (X i Li). unfold x.
    assert (L2 : length (corners cs) = 2%nat) by (destruct I as [<-|[<-|[]]]; reflexivity). rewrite L2 in Li.
    destruct (Nat.ltb_spec i 2); [exact X|lia]. }
  exists x. split; [exact X|]. split; [|split; [exact reference_in_the_middle|reflexivity]].
  apply (C129_constant_diffusion [2]%nat [1/2] first_node 3 (both_ends 2) (fun _ => 0) half_patch (fun i j => if Nat.eqb i j then 1 else 0) unit_diffusion
    2 3 (line_rule 2) (fun _ => cube_rule 1 3) x (fun _ => []) up_and_down (fun _ => 0) (fun _ y => y) (fun _ => 0) (fun _ => 0) (fun _ => 0)); auto.
  - discriminate.
  - repeat constructor. lra.
  - apply line_numbering.
  - intros i j D. apply Nat.eqb_neq in D. now rewrite D.
  - intros k _. rewrite Nat.eqb_refl. lra.
  - intros cs I. split; [apply Sp|]. split.
    { intros js N. apply node_line in N. destruct N as (c & L & ->). destruct c as [|[|[|]]]; try lia; reflexivity. }
    split; [cbn; field|]. split; [now apply X|]. split.
    { intros i m Li _. unfold x. assert (L2 : length (corners cs) = 2%nat) by (destruct I as [<-|[<-|[]]]; reflexivity).
      destruct (Nat.ltb_spec i 2); [lia|reflexivity]. }
    intros q Q. split; [now apply (rule_length _ _ _ Q)|]. unfold mean_inside.
    cbn [inside half_patch pa_cells pa_inside pa_global cells flat_map seq map app filter lsum nth].
    destruct I as [<-|[<-|[]]]; cbn [nth Nat.mul Nat.add]; rewrite !source_on by (auto; lia); cbn; lra.
  - apply C93_reference_solution_balances.
    + intros c fs i I Li. unfold fine_boxes in I. apply in_map_iff in I. destruct I as (cs & E & I). injection E as <- <-.
      cbn [fem_cell fc_n fc_index box_cell cc_n cc_index] in *. apply (line_numbering 2). apply (corner_node [2]%nat cs); auto. now apply nth_In.
    + split; [auto|]. intros v _. rewrite !(lsum_0 _ (fine_boxes _ _ _ _ _ _ _)); [reflexivity| |].
      * intros cf I. unfold fine_boxes in I. apply in_map_iff in I. destruct I as (cs & <- & I). cbn [fst snd]. unfold boundary_load. cbn [filter lsum].
        unfold fine_load. rewrite lsum_0; [ring|]. intros. ring.
      * intros cf I. unfold fine_energy. apply lsum_0. intros q _.
        assert (E : forall k, fine_grad (list R) (fun _ => 0) (fst cf) (fst q) k = 0) by (intros k; unfold fine_grad; apply rsum_0; intros; ring).
        unfold dot, mv. cbn [length rsum]. rewrite E. ring.
Qed.
