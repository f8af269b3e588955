(** C111: with local problems constrained on one side only, the coarse system
    does not determine its solution. *)
From Coq Require Import Reals List Arith Bool Lra Lia.
From Verif Require Import Util RSum SpeModel BoundaryModel BoundarySpec BoundaryProofs LinModel LinSpec QuadModel QuadProps.
From Verif Require Import CoarseModel CoarseSpec SystemModel SystemSpec EnergySpec PatchSpec PatchProofs PatchProps.
From Verif Require Import SolveSpec SolveProofs SolveProps LayerSpec LayerProofs.
Import ListNotations.
Open Scope R_scope.

(** The node values of a coarse function on a local grid give back the coarse
    function, inside the coarse cell and in the oversampling region. *)
Theorem C111_coarse_functions_on_local_grids : forall hs p v cs fs xs,
  length hs = length cs -> Forall (Rlt 0) hs -> sound (length cs) p -> In fs (cells (pa_cells p)) -> length xs = length cs ->
  value (restricted hs p v cs) fs xs = value v cs (place (pa_low p) (pa_edges p) hs fs xs) /\
  forall k, grad (pa_edges p) (restricted hs p v cs) fs xs k = grad hs v cs (place (pa_low p) (pa_edges p) hs fs xs) k.
Proof.
  intros hs p v cs fs xs Lh Fh (Lc & Le & Ll & Fc & Fe & Nu) I Lx. pose proof (cells_length _ _ I) as Lf. unfold restricted.
  split; [|intros k]; [apply value_affine|apply grad_affine]; auto; lia.
Qed.
Print Assumptions C111_coarse_functions_on_local_grids.

Lemma one_side : forall p own k (ns : list nat), (p = PSpe10 \/ p = PTarbert) -> (2 <= length ns <= 3)%nat ->
  sub_boundary_info p (length ns) none own = Some k ->
  exists up, forall ms js, length ms = length ns ->
    (constrained_node k ms js = true <-> nth 1 js 0%nat = if up : bool then nth 1 ms 0%nat else 0%nat).
Proof.
  intros p own k ns [->| ->] D E.
  - exists true. intros ms js L. rewrite <- L in *. now apply (local_spe10 own).
  - exists (Nat.eqb (length ns) 3). intros ms js L. rewrite <- L in *. now apply (local_tarbert own).
Qed.

(** SPE10 and Tarbert with the built in boundary conditions, with or without
    oversampling, exact local solutions: coarse values that depend on the
    layer only can be added to any solution. *)
Theorem C111_layers_have_no_effect :
  forall p own k ns hs num n con pa diffusion order rhs_order line rquad x fs source neumann g,
  (p = PSpe10 \/ p = PTarbert) -> (2 <= length ns <= 3)%nat ->
  sub_boundary_info p (length ns) none own = Some k ->
  length hs = length ns -> Forall (Rlt 0) hs -> numbering ns num n ->
  (forall y, positive (length ns) (diffusion y)) -> (2 <= gauss_points order <= 3)%nat ->
  (forall cs, In cs (cells ns) -> sound (length ns) (pa cs) /\
     (forall js, node (pa_cells (pa cs)) js -> pa_con (pa cs) (pa_num (pa cs) js) = constrained_node k (pa_cells (pa cs)) js) /\
     (forall y, same_products (length ns) (patch_points (length ns) order diffusion (pa cs))
        (patch_points (length ns) rhs_order diffusion (pa cs)) (pa_n (pa cs)) (pa_con (pa cs)) (field_of (pa_n (pa cs)) y)) /\
     corrected hs num diffusion order rhs_order (pa cs) cs (x cs)) ->
  forall u v b,
  (forall js, node ns js -> v (num js) = b (nth 1 js 0%nat)) -> (forall i, (i < n)%nat -> con i = true -> v i = 0) ->
  coarse_solution (length ns) (list R) diffusion source neumann n con g (patched ns hs num pa line rquad x fs) u ->
  coarse_solution (length ns) (list R) diffusion source neumann n con g (patched ns hs num pa line rquad x fs) (fun i => u i + v i).
Proof.
  intros p own k ns hs num n con pa diffusion order rhs_order line rquad x fs source neumann g Hp D K Lh Fh Nu Po Or H u v b V Z S.
  destruct (one_side p own k ns Hp D K) as (up & Up).
  pose proof (shift_solution (length ns) (list R) diffusion (patched ns hs num pa line rquad x fs) n con source neumann g v
    (patched_index ns hs num n pa line rquad x fs Nu) Z) as Sh.
  assert (E : coarse_solution (length ns) (list R) diffusion source neumann n con g (patched ns hs num pa line rquad x fs) (fun i => u i + 1 * v i)).
  { apply Sh; auto. intros c f l q kk I L Q _.
    apply (layers_unseen ns hs num n diffusion order rhs_order 1 up pa line rquad x fs v b) with (f := f); auto; [lia|].
    intros cs J. destruct (H cs J) as (So & Si & Sp & Co). split; auto. split; auto. intros js Nj. rewrite Si by auto.
    apply Up. apply So. }
  destruct E as (M & W & E1 & y & E2 & E3). exists M, W. split; auto. exists y. split; auto. intros i Li. rewrite <- E3 by auto. ring.
Qed.
Print Assumptions C111_layers_have_no_effect.

(** The coarse system never has exactly one solution, whatever the data. *)
Theorem C111_coarse_system_is_singular :
  forall p own kc k ns hs num n con pa diffusion order rhs_order line rquad x fs source neumann g,
  (p = PSpe10 \/ p = PTarbert) -> (2 <= length ns <= 3)%nat ->
  boundary_info p (length ns) none own = Some kc -> sub_boundary_info p (length ns) none own = Some k ->
  length hs = length ns -> Forall (fun m => (0 < m)%nat) ns -> Forall (Rlt 0) hs -> numbering ns num n ->
  (forall js, node ns js -> con (num js) = constrained_node kc ns js) ->
  (forall y, positive (length ns) (diffusion y)) -> (2 <= gauss_points order <= 3)%nat ->
  (forall cs, In cs (cells ns) -> sound (length ns) (pa cs) /\
     (forall js, node (pa_cells (pa cs)) js -> pa_con (pa cs) (pa_num (pa cs) js) = constrained_node k (pa_cells (pa cs)) js) /\
     (forall y, same_products (length ns) (patch_points (length ns) order diffusion (pa cs))
        (patch_points (length ns) rhs_order diffusion (pa cs)) (pa_n (pa cs)) (pa_con (pa cs)) (field_of (pa_n (pa cs)) y)) /\
     corrected hs num diffusion order rhs_order (pa cs) cs (x cs)) ->
  ~ one_solution n (coarse_solution (length ns) (list R) diffusion source neumann n con g (patched ns hs num pa line rquad x fs)).
Proof.
  intros p own kc k ns hs num n con pa diffusion order rhs_order line rquad x fs source neumann g Hp D Kc K Lh Fn Fh Nu Cn Po Or H
    ((u & U) & Un).
  assert (Kc' : sub_boundary_info p (length ns) none own = Some kc) by (destruct Hp as [->| ->]; exact Kc).
  destruct (one_side p own kc ns Hp D Kc') as (up & Up).
  set (b := fun j => if Nat.eqb j (if up then nth 1 ns 0%nat else 0%nat) then 0 else 1).
  destruct (nodal_values ns num n (fun js => b (nth 1 js 0%nat)) Nu) as (v & V).
  assert (S : coarse_solution (length ns) (list R) diffusion source neumann n con g (patched ns hs num pa line rquad x fs) (fun i => u i + v i)).
  { apply (C111_layers_have_no_effect p own k ns hs num n con pa diffusion order rhs_order line rquad x fs source neumann g) with (b := b); auto.
    intros i Li C. destruct (proj2 (proj2 Nu) i Li) as (js & Nj & <-). rewrite V by auto. rewrite Cn in C by auto.
    apply Up in C; auto. unfold b. rewrite C, Nat.eqb_refl. reflexivity. }
  (* a node on the opposite side *)
  set (js := if up then map (fun _ => 0%nat) ns else ns).
  assert (Nj : node ns js).
  { unfold js, node. destruct up; clear; induction ns; constructor; auto; lia. }
  assert (N1 : (0 < nth 1 ns 0)%nat) by (rewrite Forall_forall in Fn; apply Fn, nth_In; lia).
  assert (B : b (nth 1 js 0%nat) = 1).
  { unfold b, js. destruct up.
    - destruct ns as [|a [|a' r]]; cbn [length] in D; try lia. cbn [map nth] in *. destruct (Nat.eqb_spec 0 a'); [lia|reflexivity].
    - destruct (Nat.eqb_spec (nth 1 ns 0%nat) 0); [lia|reflexivity]. }
  pose proof (Un _ _ S U (num js) (proj1 Nu js Nj)) as E. cbv beta in E. rewrite V, B in E by auto. lra.
Qed.
Print Assumptions C111_coarse_system_is_singular.

(** * Concrete case *)
(** 2 x 2 coarse cells, local grids of 2 x 2 fine cells that reach one fine
    cell beyond the coarse cell on the left and below. *)
Definition wide (con : nat -> bool) : patch :=
  {| pa_cells := [2; 2]%nat; pa_edges := half; pa_low := [-1; -1]; pa_num := num3; pa_n := 9; pa_con := con;
     pa_inside := fun fs => match fs with [a; b] => Nat.eqb a 1 && Nat.eqb b 1 | _ => false end;
     pa_global := fun _ x => x |}.
Definition side9 (k : face -> bkind) (i : nat) : bool := constrained_node k [2; 2]%nat [Nat.modulo i 3; Nat.div i 3].
Lemma side9_node : forall k js, node [2; 2]%nat js -> side9 k (num3 js) = constrained_node k [2; 2]%nat js.
Proof.
  intros k js N. inversion N as [|a ? js1 ? La N1]; subst. inversion N1 as [|b ? js2 ? Lb N2]; subst. inversion N2; subst.
  destruct a as [|[|[|a]]]; [| | |lia]; destruct b as [|[|[|b]]]; try lia; reflexivity.
Qed.
Lemma wide_sound : forall con, sound 2 (wide con).
Proof.
  intros con. repeat split; auto.
  - apply twos.
  - apply half_pos.
  - apply num3_numbering.
  - apply num3_numbering.
  - apply num3_numbering.
Qed.

Example C111_case : forall p own k source neumann g,
  (p = PSpe10 \/ p = PTarbert) -> sub_boundary_info p 2 none own = Some k ->
  exists x, (forall cs, In cs (cells [2; 2]%nat) -> corrected half num3 board_at 2 3 (wide (side9 k)) cs (x cs)) /\
  ~ one_solution 9 (coarse_solution 2 (list R) board_at source neumann 9 (side9 k) g
      (patched [2; 2]%nat half num3 (fun _ => wide (side9 k)) (line_rule 2) (fun _ _ => []) x (fun _ => []))).
Proof.
  intros p own k source neumann g Hp K.
  assert (E : exists x, forall cs, In cs (cells [2; 2]%nat) -> corrected half num3 board_at 2 3 (wide (side9 k)) cs (x cs)).
  { apply choose_cells. intros cs I.
    destruct (corrected_exists 2 half num3 board_at 2 3 (wide (side9 k)) cs (fun _ _ => 0)) as (x & X & _); eauto using wide_sound.
    destruct (one_side p own k [2; 2]%nat Hp) as (up & Up); auto.
    apply (side_coercive half [2; 2]%nat board_at 2 1 up); auto.
    - apply wide_sound.
    - intros. apply board_at_positive.
    - intros js Nj. cbn [wide pa_con pa_num pa_cells] in *. rewrite side9_node by auto. now apply Up. }
  destruct E as (x & X). exists x. split; auto.
  apply (C111_coarse_system_is_singular p own k k [2; 2]%nat half num3 9 (side9 k) (fun _ => wide (side9 k)) board_at 2 3); auto.
  - destruct Hp as [->| ->]; exact K.
  - apply half_pos.
  - apply num3_numbering.
  - apply side9_node.
  - intros. apply board_at_positive.
  - intros cs I. split; [apply wide_sound|]. split; [apply side9_node|]. split; [|now apply X].
    intros y. apply (C107_local_quadratures_are_the_same PSpe10 2 _ 2 9). now left.
Qed.
