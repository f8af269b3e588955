(** C113: results do not depend on the units of length, diffusion and solution. *)
From Coq Require Import Reals List Arith Bool Lra Lia.
From Verif Require Import Util RSum BoundaryModel BoundarySpec BoundaryProofs LinModel LinSpec QuadModel QuadProps.
From Verif Require Import CoarseModel SystemModel FemModel FluxModel EnergySpec PatchSpec PatchProofs PatchProps.
From Verif Require Import SolveSpec SolveProofs SolveProps LayerSpec LayerProofs LayerProps WholeSpec WholeProofs WholeProps.
From Verif Require Import UnitsSpec UnitsProofs.
Import ListNotations.
Open Scope R_scope.

(** The right hand sides of the boundary correctors in other units: of the
    Dirichlet corrector (extension with node values [y] on the local grid [p]) ... *)
Theorem C113_dirichlet_right_hand_side_in_other_units :
  forall L s t (d order : nat) diffusion diffusion' p y i,
  (forall z i j, diffusion' (longer L z) i j = s * diffusion z i j) -> length (pa_edges p) = d ->
  local_rhs d (patch_points d order diffusion' (longer_patch L p)) (field_of (pa_n p) (fun m => t * y m)) i =
  s * L ^ d / (L * L) * t * local_rhs d (patch_points d order diffusion p) (field_of (pa_n p) y) i.
Proof. intros. now apply longer_rhs. Qed.
Print Assumptions C113_dirichlet_right_hand_side_in_other_units.

(** ... and of the Neumann corrector. *)
Theorem C113_neumann_right_hand_side_in_other_units :
  forall L s t diffusion diffusion' source source' neumann neumann' ns hs num global quad rquad fs a,
  other_units L s t diffusion diffusion' source source' neumann neumann' ->
  local_flux (list R) neumann' (fine_boxes ns (longer L hs) num (fun cs x => longer L (global cs x)) quad rquad
    (fun cs => map (longer_face (length ns) L) (fs cs))) a =
  s * L ^ length ns / (L * L) * t * local_flux (list R) neumann (fine_boxes ns hs num global quad rquad fs) a.
Proof.
  intros L s t diffusion diffusion' source source' neumann neumann' ns hs num global quad rquad fs a U.
  exact (units_flux L s t diffusion diffusion' source source' neumann neumann' U ns hs num fs global quad rquad a).
Qed.
Print Assumptions C113_neumann_right_hand_side_in_other_units.

(** The whole method: [x], [u] is a result exactly if, in other units, the same
    corner functions, [t] times the boundary correctors and [t] times the coarse
    values are one. *)
Theorem C113_result_in_other_units :
  forall L s t ns hs num n con pa diffusion diffusion' order rhs_order line rquad extra fs source source' neumann neumann' g x u,
  L <> 0 -> s <> 0 -> t <> 0 -> length hs = length ns -> numbering ns num n ->
  (forall cs, In cs (cells ns) -> length (pa_edges (pa cs)) = length ns) ->
  other_units L s t diffusion diffusion' source source' neumann neumann' ->
  (result ns (longer L hs) num n con (fun cs => longer_patch L (pa cs)) diffusion' order rhs_order line rquad
     (fun cs i m => s * L ^ length ns / (L * L) * t * extra cs i m) (fun cs => map (longer_face (length ns) L) (fs cs))
     source' neumann' (fun i => t * g i) (other_locals t x) (fun i => t * u i) <->
   result ns hs num n con pa diffusion order rhs_order line rquad extra fs source neumann g x u).
Proof.
  intros L s t ns hs num n con pa diffusion diffusion' order rhs_order line rquad extra fs source source' neumann neumann' g x u
    L0 s0 t0 Lh Nu Le U.
  assert (A : forall y i j, diffusion' (longer L y) i j = s * diffusion y i j) by (now destruct U).
  assert (Lh' : length (longer L hs) = length hs) by (unfold longer; now rewrite map_length).
  unfold result. rewrite (units_coarse L L0 s t diffusion diffusion' source source' neumann neumann' s0 t0 U ns hs num n con pa line rquad fs Nu Le x g u).
  assert (E : forall cs, In cs (cells ns) ->
    ((corrected (longer L hs) num diffusion' order rhs_order (longer_patch L (pa cs)) cs (other_locals t x cs) /\
      forall i, (length (corners cs) <= i < length (corners cs) + 2)%nat ->
        local_problem (length ns) (patch_points (length ns) order diffusion' (longer_patch L (pa cs))) (pa_n (longer_patch L (pa cs)))
          (pa_con (longer_patch L (pa cs))) (fun m => s * L ^ length ns / (L * L) * t * extra cs i m) (other_locals t x cs i)) <->
     (corrected hs num diffusion order rhs_order (pa cs) cs (x cs) /\
      forall i, (length (corners cs) <= i < length (corners cs) + 2)%nat ->
        local_problem (length ns) (patch_points (length ns) order diffusion (pa cs)) (pa_n (pa cs)) (pa_con (pa cs)) (extra cs i) (x cs i)))).
  { intros cs I.
    assert (C : forall i, (i < length (corners cs))%nat -> forall y,
      (corrector (length hs) (patch_points (length hs) order diffusion' (longer_patch L (pa cs))) (patch_points (length hs) rhs_order diffusion' (longer_patch L (pa cs)))
         (pa_n (pa cs)) (pa_con (pa cs)) (field_of (pa_n (pa cs)) y) (other_locals t x cs i) <->
       corrector (length hs) (patch_points (length hs) order diffusion (pa cs)) (patch_points (length hs) rhs_order diffusion (pa cs))
         (pa_n (pa cs)) (pa_con (pa cs)) (field_of (pa_n (pa cs)) y) (x cs i))).
    { intros i Li y. unfold corrector. apply (longer_problem L L0 (length hs) order s diffusion diffusion' (pa cs) A) with (t := 1); auto; try lra.
      - rewrite Lh. now apply Le.
      - intros m _.
        rewrite <- (longer_rhs L (length hs) s diffusion diffusion' (pa cs) A) by (rewrite Lh; now apply Le).
        unfold local_rhs, evaluate_product. apply lsum_ext. intros q _. do 2 f_equal. unfold dot. apply rsum_ext. intros k _.
        f_equal. unfold mv. apply rsum_ext. intros j _. f_equal. unfold field_of. apply rsum_ext. intros. ring.
      - intros m _. unfold other_locals. destruct (Nat.ltb_spec i (length (corners cs))); [ring|lia]. }
    assert (Q : forall i, (length (corners cs) <= i < length (corners cs) + 2)%nat ->
      (local_problem (length ns) (patch_points (length ns) order diffusion' (longer_patch L (pa cs))) (pa_n (longer_patch L (pa cs)))
          (pa_con (longer_patch L (pa cs))) (fun m => s * L ^ length ns / (L * L) * t * extra cs i m) (other_locals t x cs i) <->
       local_problem (length ns) (patch_points (length ns) order diffusion (pa cs)) (pa_n (pa cs)) (pa_con (pa cs)) (extra cs i) (x cs i))).
    { intros i Li. apply (longer_problem L L0 (length ns) order s diffusion diffusion' (pa cs) A) with (t := t); auto.
      intros m _. unfold other_locals. destruct (Nat.ltb_spec i (length (corners cs))); [lia|ring]. }
    split; intros (Co & Bo); (split; [|intros i Li; apply Q; auto]).
    - intros i Li. destruct (Co i Li) as (y & Y & K). exists y. split.
      + intros js Nj. cbn [longer_patch pa_cells pa_num] in Y. rewrite (Y js Nj). unfold restricted. cbn [longer_patch pa_low pa_edges]. now rewrite (longer_place L L0).
      + rewrite Lh' in K. now apply C.
    - intros i Li. destruct (Co i Li) as (y & Y & K). exists y. split.
      + intros js Nj. cbn [longer_patch pa_cells pa_num] in *. rewrite (Y js Nj). unfold restricted. cbn [longer_patch pa_low pa_edges]. now rewrite (longer_place L L0).
      + rewrite Lh'. now apply C. }
  split; intros (H & K); (split; [|exact K]); intros cs I; apply E; auto.
Qed.
Print Assumptions C113_result_in_other_units.

(** The same for the reference solver, whatever its solution contained before. *)
Theorem C113_reference_in_other_units :
  forall L s t ns hs num n con diffusion diffusion' source source' neumann neumann' global quad rquad fs g start start' u,
  L <> 0 -> s <> 0 -> t <> 0 -> length hs = length ns -> numbering ns num n ->
  other_units L s t diffusion diffusion' source source' neumann neumann' ->
  (fem_solution (length ns) (list R) diffusion' source' neumann' n con (fun i => t * g i) start'
     (fine_boxes ns (longer L hs) num (fun cs x => longer L (global cs x)) quad rquad (fun cs => map (longer_face (length ns) L) (fs cs)))
     (fun i => t * u i) <->
   fem_solution (length ns) (list R) diffusion source neumann n con g start (fine_boxes ns hs num global quad rquad fs) u).
Proof.
  intros L s t ns hs num n con diffusion diffusion' source source' neumann neumann' global quad rquad fs g start start' u L0 s0 t0 Lh Nu U.
  exact (units_fine L L0 s t diffusion diffusion' source source' neumann neumann' s0 t0 U ns hs num n con fs Nu Lh global quad rquad g start start' u).
Qed.
Print Assumptions C113_reference_in_other_units.

(** * Concrete cases *)
(** Any problem in other units: lengths in hundredths, diffusion in thirds,
    solution in fifths. *)
Lemma longer_back : forall L y, L <> 0 -> map (fun c => c / L) (longer L y) = y.
Proof.
  intros L y L0. unfold longer. rewrite map_map. rewrite (map_ext _ (fun c => c)); [apply map_id|]. intros a. field. auto.
Qed.
Lemma hundredths : forall diffusion source neumann,
  other_units 100 3 5 diffusion (fun y i j => 3 * diffusion (map (fun c => c / 100) y) i j)
    source (fun y => 3 * 5 / (100 * 100) * source (map (fun c => c / 100) y))
    neumann (fun y => 3 * 5 / 100 * neumann (map (fun c => c / 100) y)).
Proof. intros. unfold other_units. split; [|split]; intros; rewrite longer_back by lra; reflexivity. Qed.

(** The checkerboard problem of C112 with its one result: the one in other
    units is known from it. *)
Example C113_case : forall p k extra source neumann g,
  (p = PSynthetic \/ p = PRandom \/ p = PEr2007) -> sub_boundary_info p 2 none none = Some k ->
  exists x u,
  result [2; 2]%nat half num3 9 outer9 (exact_patch (side9 k)) board_at 2 3 (line_rule 2)
    (fun _ _ => cube_rule 2 3) extra (fun _ => []) source neumann g x u /\
  result [2; 2]%nat (longer 100 half) num3 9 outer9 (fun cs => longer_patch 100 (exact_patch (side9 k) cs))
    (fun y i j => 3 * board_at (map (fun c => c / 100) y) i j) 2 3 (line_rule 2) (fun _ _ => cube_rule 2 3)
    (fun cs i m => 3 * 100 ^ 2 / (100 * 100) * 5 * extra cs i m) (fun _ => [])
    (fun y => 3 * 5 / (100 * 100) * source (map (fun c => c / 100) y)) (fun y => 3 * 5 / 100 * neumann (map (fun c => c / 100) y))
    (fun i => 5 * g i) (other_locals 5 x) (fun i => 5 * u i).
Proof.
  intros p k extra source neumann g Hp K. destruct (C112_case p k extra source neumann g Hp K) as ((x & u & X) & _).
  exists x, u. split; [exact X|].
  apply (C113_result_in_other_units 100 3 5 [2; 2]%nat half num3 9 outer9 (exact_patch (side9 k)) board_at
    (fun y i j => 3 * board_at (map (fun c => c / 100) y) i j) 2 3 (line_rule 2) (fun _ _ => cube_rule 2 3) extra (fun _ => [])
    source (fun y => 3 * 5 / (100 * 100) * source (map (fun c => c / 100) y)) neumann (fun y => 3 * 5 / 100 * neumann (map (fun c => c / 100) y))); auto; try lra.
  - apply num3_numbering.
  - apply hundredths.
Qed.
