(** C116, C117: maximum principle. *)
From Coq Require Import Reals List Arith Bool Lra Lia.
From Verif Require Import Util RSum LinModel LinSpec LinProofs QuadModel CoarseModel CoarseSpec SystemModel SystemSpec.
From Verif Require Import FemModel FemSpec FemProofs PatchSpec PatchProofs PatchProps SolveSpec SolveProofs SolveProps LayerSpec LayerProofs WholeProps MaxSpec MaxProofs.
Import ListNotations.
Open Scope R_scope.

(** Larger source, larger prescribed flux and larger prescribed values give a
    larger reference solution.  Grids of boxes, diagonal diffusion constant in
    every cell, cells of even shape. *)
Theorem C116_comparison :
  forall ns hs num n diffusion global a m rquad fs con source source' neumann neumann' g g' start start' u u',
  length hs = length ns -> Forall (fun m => (0 < m)%nat) ns -> Forall (Rlt 0) hs -> numbering ns num n -> (2 <= m <= 3)%nat ->
  cellwise ns global diffusion a -> (forall cs k, In cs (cells ns) -> (k < length ns)%nat -> 0 < a cs k) ->
  (forall cs, In cs (cells ns) -> even_shape hs (a cs)) -> good_rules ns rquad fs -> (exists i, (i < n)%nat /\ con i = true) ->
  (forall y, source y <= source' y) -> (forall y, neumann y <= neumann' y) -> (forall i, (i < n)%nat -> con i = true -> g i <= g' i) ->
  let grid := fine_boxes ns hs num global (product_rule (line_rule m) (length ns)) rquad fs in
  fem_solution (length ns) (list R) diffusion source neumann n con g start grid u ->
  fem_solution (length ns) (list R) diffusion source' neumann' n con g' start' grid u' ->
  forall c f xs, In (c, f) grid -> in_cell (length ns) xs -> fine_val (list R) u c xs <= fine_val (list R) u' c xs.
Proof.
  intros ns hs num n diffusion global a m rquad fs con source source' neumann neumann' g g' start start' u u'
    Lh Fn Fh Nu Gm Cw Pa Ev Gr Cn S N G grid U U' c f xs I (Lx & Fx).
  apply in_map_iff in I. destruct I as (cs & E & I). injection E as <- <-. pose proof (cells_length _ _ I) as Lc.
  rewrite !(box_fine_val ns hs num n) by (auto; lia).
  enough (0 <= value (fun js => 1 * nodal num u' js + (-1) * nodal num u js) cs xs) by (rewrite value_lin in *; lra).
  apply value_nonneg; auto; [lia|]. intros js J. unfold nodal.
  enough (u (num js) <= u' (num js)) by lra.
  apply (ref_compare ns hs num n diffusion global a (line_rule m) rquad fs) with (con := con) (source := source) (source' := source')
    (neumann := neumann) (neumann' := neumann') (g := g) (g' := g') (start := start) (start' := start'); auto.
  - now apply gauss_moments.
  - now apply gauss_two.
  - apply gauss_inside.
  - apply (proj1 Nu). now apply (corner_node ns cs).
Qed.
Print Assumptions C116_comparison.

(** A constant solves the problem without source and flux. *)
Lemma constant_solves : forall ns hs num n diffusion global line rquad fs con start s, numbering ns num n ->
  fem_solution (length ns) (list R) diffusion (fun _ => 0) (fun _ => 0) n con (fun _ => s) start
    (fine_boxes ns hs num global (product_rule line (length ns)) rquad fs) (fun _ => s).
Proof.
  intros ns hs num n diffusion global line rquad fs con start s Nu.
  apply fem_weak_form; [apply (fine_index ns hs num n global line rquad fs Nu)|]. split; auto. intros v V.
  assert (A : forall X Y, X = 0 -> Y = 0 -> X = Y) by (intros; congruence). apply A.
  - apply lsum_0. intros (c, f) I. apply in_map_iff in I. destruct I as (cs & E & I). injection E as <- <-. cbn [fst].
    unfold fine_energy. apply lsum_0. intros q Q. cbn [fem_cell fc_quad] in Q. pose proof (rule_length _ _ _ Q) as Lq. pose proof (cells_length _ _ I) as Lc.
    unfold dot. rewrite rsum_0; [ring|]. intros k _. unfold mv. rewrite rsum_0; [ring|]. intros j _.
    rewrite (box_fine_grad ns hs num n) by (auto; lia). change (nodal num (fun _ => s)) with (fun _ : list nat => s).
    rewrite grad_const. ring.
  - apply lsum_0. intros (c, f) I. cbn [fst snd]. unfold fine_load, boundary_load. rewrite !lsum_0; [ring|intros; apply lsum_0; intros; ring|intros; ring].
Qed.

(** Without sources and inflow the reference solution is nowhere larger than
    the largest prescribed value; without sinks and outflow it is nowhere
    smaller than the smallest one. *)
Theorem C116_maximum_principle :
  forall ns hs num n diffusion global a m rquad fs con source neumann g start u s,
  length hs = length ns -> Forall (fun m => (0 < m)%nat) ns -> Forall (Rlt 0) hs -> numbering ns num n -> (2 <= m <= 3)%nat ->
  cellwise ns global diffusion a -> (forall cs k, In cs (cells ns) -> (k < length ns)%nat -> 0 < a cs k) ->
  (forall cs, In cs (cells ns) -> even_shape hs (a cs)) -> good_rules ns rquad fs -> (exists i, (i < n)%nat /\ con i = true) ->
  let grid := fine_boxes ns hs num global (product_rule (line_rule m) (length ns)) rquad fs in
  fem_solution (length ns) (list R) diffusion source neumann n con g start grid u ->
  ((forall y, source y <= 0) -> (forall y, neumann y <= 0) -> (forall i, (i < n)%nat -> con i = true -> g i <= s) ->
   forall c f xs, In (c, f) grid -> in_cell (length ns) xs -> fine_val (list R) u c xs <= s) /\
  ((forall y, 0 <= source y) -> (forall y, 0 <= neumann y) -> (forall i, (i < n)%nat -> con i = true -> s <= g i) ->
   forall c f xs, In (c, f) grid -> in_cell (length ns) xs -> s <= fine_val (list R) u c xs).
Proof.
  intros ns hs num n diffusion global a m rquad fs con source neumann g start u s Lh Fn Fh Nu Gm Cw Pa Ev Gr Cn grid U.
  pose proof (constant_solves ns hs num n diffusion global (line_rule m) rquad fs con start s Nu) as K.
  assert (V : forall c f xs, In (c, f) grid -> in_cell (length ns) xs -> fine_val (list R) (fun _ => s) c xs = s).
  { intros c f xs I (Lx & _). apply in_map_iff in I. destruct I as (cs & E & I). injection E as <- <-. pose proof (cells_length _ _ I).
    rewrite (box_fine_val ns hs num n) by (auto; lia). apply (value_const s). }
  split; intros S N G c f xs I X; rewrite <- (V c f xs I X).
  - apply (C116_comparison ns hs num n diffusion global a m rquad fs con source (fun _ => 0) neumann (fun _ => 0) g (fun _ => s) start start u (fun _ => s))
      with (f := f); auto.
  - apply (C116_comparison ns hs num n diffusion global a m rquad fs con (fun _ => 0) source (fun _ => 0) neumann (fun _ => s) g start start (fun _ => s) u)
      with (f := f); auto.
Qed.
Print Assumptions C116_maximum_principle.

(** Which shapes are even if the diffusion is the same in all directions. *)
Theorem C116_shapes : forall s, 0 < s ->
  (forall h, 0 < h -> even_shape [h] (fun _ => s)) /\
  (forall h1 h2, 0 < h1 -> 0 < h2 -> (even_shape [h1; h2] (fun _ => s) <-> h1 * h1 <= 2 * (h2 * h2) /\ h2 * h2 <= 2 * (h1 * h1))) /\
  (forall h1 h2 h3, 0 < h1 -> 0 < h2 -> 0 < h3 -> (even_shape [h1; h2; h3] (fun _ => s) <-> h1 = h2 /\ h2 = h3)).
Proof.
  intros s Hs.
  assert (I : forall h, 0 < h -> 0 < / (h * h)) by (intros; apply Rinv_0_lt_compat; now apply Rmult_lt_0_compat).
  assert (J : forall h h' c, 0 < h -> 0 < h' -> (/ (h * h) <= c * / (h' * h') <-> h' * h' <= c * (h * h))).
  { intros h h' c A B. pose proof (I h A). pose proof (I h' B). split; intros E.
    - apply (Rmult_le_reg_r (/ (h * h))); auto. apply (Rmult_le_compat_l (h' * h')) in E; [|nra].
      replace (h' * h' * (c * / (h' * h'))) with (c * (h * h) * / (h * h)) in E by (field; lra). exact E.
    - apply (Rmult_le_reg_l (h' * h')); [nra|]. apply (Rmult_le_compat_r (/ (h * h))) in E; [|lra].
      replace (h' * h' * (c * / (h' * h'))) with (c * (h * h) * / (h * h)) by (field; lra). exact E. }
  split; [|split].
  - intros h Hh [|k] L; [|cbn in L; lia]. unfold steep. cbn. pose proof (I h Hh). unfold Rdiv. nra.
  - intros h1 h2 H1 H2. pose proof (J h1 h2 2 H1 H2) as J12. pose proof (J h2 h1 2 H2 H1) as J21.
    pose proof (I h1 H1). pose proof (I h2 H2). split.
    + intros E. pose proof (E 0%nat ltac:(cbn; lia)) as E0. pose proof (E 1%nat ltac:(cbn; lia)) as E1. unfold steep, Rdiv in E0, E1. cbn in E0, E1.
      split; [apply J21|apply J12]; nra.
    + intros (A & B). apply J21 in A. apply J12 in B. intros [|[|k]] L; [| |cbn in L; lia]; unfold steep, Rdiv; cbn; nra.
  - intros h1 h2 h3 H1 H2 H3. pose proof (I h1 H1). pose proof (I h2 H2). pose proof (I h3 H3).
    assert (Q : forall h h', 0 < h -> 0 < h' -> / (h * h) = / (h' * h') -> h = h').
    { intros h h' A B E. apply (f_equal Rinv) in E. rewrite !Rinv_inv in E. nra. }
    split.
    + intros E. pose proof (E 0%nat ltac:(cbn; lia)) as E0. pose proof (E 1%nat ltac:(cbn; lia)) as E1. pose proof (E 2%nat ltac:(cbn; lia)) as E2.
      unfold steep, Rdiv in E0, E1, E2. cbn in E0, E1, E2. split; apply Q; auto; nra.
    + intros (-> & ->). intros [|[|[|k]]] L; [| | |cbn in L; lia]; unfold steep, Rdiv; cbn; nra.
Qed.
Print Assumptions C116_shapes.

(** The entries of a plane box: same corner, corners along the first edge,
    corners along the second edge, opposite corners. *)
Definition near (o1 o2 same first second opposite : R) : R :=
  (o1 + o2) / 3 * same + ((o1 + o2) / 6 - o1 / 2) * first + ((o1 + o2) / 6 - o2 / 2) * second - (o1 + o2) / 6 * opposite.

Lemma plane : forall line h1 h2 a c1 c2 v w, moments line -> 0 < h1 -> 0 < h2 ->
  let o1 := steep [h1; h2] a 0 in let o2 := steep [h1; h2] a 1 in
  pairing line [h1; h2] a [c1; c2] 0 v w =
  w [c1; c2] * near o1 o2 (v [c1; c2]) (v [S c1; c2]) (v [c1; S c2]) (v [S c1; S c2]) +
  w [S c1; c2] * near o1 o2 (v [S c1; c2]) (v [c1; c2]) (v [S c1; S c2]) (v [c1; S c2]) +
  w [c1; S c2] * near o1 o2 (v [c1; S c2]) (v [S c1; S c2]) (v [c1; c2]) (v [S c1; c2]) +
  w [S c1; S c2] * near o1 o2 (v [S c1; S c2]) (v [c1; S c2]) (v [S c1; c2]) (v [c1; c2]).
Proof.
  intros line h1 h2 a c1 c2 v w M H1 H2 o1 o2.
  assert (B : forall a' s v w, pairing line [] a' [] s v w = s * (v [] * w [])) by (intros; unfold pairing; cbn; ring).
  rewrite !pairing_cons by (auto; lra). rewrite !B. unfold o1, o2, near, steep. cbn [nth].
  set (p := a 0%nat / (h1 * h1)). set (q := a 1%nat / (h2 * h2)). field.
Qed.

Lemma middle_row : forall h1 h2 a line t z, moments line -> 0 < h1 -> 0 < h2 ->
  (forall i, z i = if Nat.eqb i 4 then 1 else 0) ->
  let o1 cs := steep [h1; h2] (a cs) 0 in let o2 cs := steep [h1; h2] (a cs) 1 in
  gform [2%nat; 2%nat] [h1; h2] num3 a line t z =
  h1 * h2 * (near (o1 [0; 0]%nat) (o2 [0; 0]%nat) (t 4%nat) (t 3%nat) (t 1%nat) (t 0%nat) +
             near (o1 [0; 1]%nat) (o2 [0; 1]%nat) (t 4%nat) (t 3%nat) (t 7%nat) (t 6%nat) +
             near (o1 [1; 0]%nat) (o2 [1; 0]%nat) (t 4%nat) (t 5%nat) (t 1%nat) (t 2%nat) +
             near (o1 [1; 1]%nat) (o2 [1; 1]%nat) (t 4%nat) (t 5%nat) (t 7%nat) (t 8%nat)).
Proof.
  intros h1 h2 a line t z M H1 H2 Z o1 o2.
  unfold gform. change (cells [2%nat; 2%nat]) with [[0%nat; 0%nat]; [0%nat; 1%nat]; [1%nat; 0%nat]; [1%nat; 1%nat]].
  cbn [lsum map fold_right]. rewrite !plane by auto. fold (o1 [0; 0]%nat) (o2 [0; 0]%nat) (o1 [0; 1]%nat) (o2 [0; 1]%nat) (o1 [1; 0]%nat) (o2 [1; 0]%nat) (o1 [1; 1]%nat) (o2 [1; 1]%nat).
  unfold nodal, num3. rewrite !Z. cbn [Nat.add Nat.mul Nat.eqb]. unfold volume. cbn [fold_right].
  ring.
Qed.

(** The condition on the shape cannot be dropped: on 2 x 2 equal boxes with the
    same diagonal diffusion everywhere, without source and flux, the value at
    the middle node stays within the bounds of all prescribed values exactly if
    the cells are of even shape. *)
Definition crossed (a : nat -> R) (i j : nat) : R := if Nat.eqb i j then a i else 0.
Theorem C116_condition_is_needed : forall h1 h2 a global m, 0 < h1 -> 0 < h2 -> 0 < a 0%nat -> 0 < a 1%nat -> (2 <= m <= 3)%nat ->
  ((forall g start u, (forall i, 0 <= g i <= 1) ->
      fem_solution 2 (list R) (fun _ => crossed a) (fun _ => 0) (fun _ => 0) 9 outer9 g start
        (fine_boxes [2; 2]%nat [h1; h2] num3 global (product_rule (line_rule m) 2) (fun _ => []) (fun _ => [])) u ->
      0 <= u 4%nat <= 1) <->
   even_shape [h1; h2] a).
Proof.
  intros h1 h2 a global m H1 H2 A0 A1 Gm. pose proof num3_numbering as Nu. pose proof twos as Fn.
  assert (Fh : Forall (Rlt 0) [h1; h2]) by (repeat constructor; auto).
  assert (Cw : cellwise [2; 2]%nat global (fun _ => crossed a) (fun _ => a)) by (intros cs xs i j _ _ _ _ _; reflexivity).
  assert (Pa : forall k, (k < 2)%nat -> 0 < a k) by (intros [|[|k]] L; auto; lia).
  assert (Cn : exists i, (i < 9)%nat /\ outer9 i = true) by (exists 0%nat; split; [lia|reflexivity]).
  set (o1 := steep [h1; h2] a 0). set (o2 := steep [h1; h2] a 1).
  assert (O1 : 0 < o1) by (unfold o1, steep; cbn; apply Rdiv_lt_0_compat; nra).
  assert (O2 : 0 < o2) by (unfold o2, steep; cbn; apply Rdiv_lt_0_compat; nra).
  assert (Hh : 0 < h1 * h2) by nra.
  assert (Row : forall g start u, fem_solution 2 (list R) (fun _ => crossed a) (fun _ => 0) (fun _ => 0) 9 outer9 g start
      (fine_boxes [2; 2]%nat [h1; h2] num3 global (product_rule (line_rule m) 2) (fun _ => []) (fun _ => [])) u ->
      near o1 o2 (u 4%nat) (g 3%nat) (g 1%nat) (g 0%nat) + near o1 o2 (u 4%nat) (g 3%nat) (g 7%nat) (g 6%nat) +
      near o1 o2 (u 4%nat) (g 5%nat) (g 1%nat) (g 2%nat) + near o1 o2 (u 4%nat) (g 5%nat) (g 7%nat) (g 8%nat) = 0).
  { intros g start u U.
    apply fem_weak_form in U; [|apply (fine_index [2; 2]%nat [h1; h2] num3 9 global (line_rule m) (fun _ => []) (fun _ => []) Nu)].
    destruct U as (B & W). specialize (W (fun i => if Nat.eqb i 4 then 1 else 0)).
    assert (V : forall i, (i < 9)%nat -> outer9 i = true -> (fun i => if Nat.eqb i 4 then 1 else 0) i = 0).
    { intros i _. unfold outer9. now destruct (Nat.eqb i 4). }
    specialize (W V).
    pose proof (ref_energy [2; 2]%nat [h1; h2] num3 9 (fun _ => crossed a) global (fun _ => a) (line_rule m) (fun _ => []) (fun _ => [])
      Nu (gauss_inside m) Cw u (fun i => if Nat.eqb i 4 then 1 else 0)) as E.
    cbn [length] in E. rewrite E in W. clear E.
    rewrite (middle_row h1 h2) in W by (auto; apply gauss_moments; auto).
    rewrite lsum_0 in W.
    - fold o1 o2 in W. rewrite <- !B by (try lia; reflexivity). apply Rmult_integral in W. destruct W as [W|W]; [lra|exact W].
    - intros (c, f) I. apply in_map_iff in I. destruct I as (cs & E & I). injection E as <- <-. cbn [fst snd].
      unfold fine_load, boundary_load. cbn. ring. }
  split.
  - intros K.
    assert (Ex : forall g, exists u, fem_solution 2 (list R) (fun _ => crossed a) (fun _ => 0) (fun _ => 0) 9 outer9 g (fun _ => 0)
      (fine_boxes [2; 2]%nat [h1; h2] num3 global (product_rule (line_rule m) 2) (fun _ => []) (fun _ => [])) u).
    { intros g. destruct (C110_reference_solution_exists_once [2; 2]%nat [h1; h2] num3 9 (fun _ => crossed a) global (line_rule m) (fun _ => []) (fun _ => [])
        outer9 (fun _ => 0) (fun _ => 0) g (fun _ => 0)) as (X & _); auto.
      - now apply gauss_two.
      - intros _. apply diagonal_positive.
        + intros i j D. unfold crossed. apply Nat.eqb_neq in D. now rewrite D.
        + intros k L. unfold crossed. rewrite Nat.eqb_refl. now apply Pa. }
    assert (S : rsum (length [h1; h2]) (steep [h1; h2] a) = o1 + o2) by (cbn [length rsum]; unfold o1, o2; ring).
    intros k L. rewrite S. destruct k as [|[|k]]; [| |cbn in L; lia].
    + fold o1. destruct (Ex (fun i => if Nat.eqb i 3 || Nat.eqb i 5 then 1 else 0)) as (u & U).
      pose proof (Row _ _ _ U) as R. apply K in U; [|intros; destruct (_ || _); lra]. unfold near in R. cbn in R. nra.
    + fold o2. destruct (Ex (fun i => if Nat.eqb i 1 || Nat.eqb i 7 then 1 else 0)) as (u & U).
      pose proof (Row _ _ _ U) as R. apply K in U; [|intros; destruct (_ || _); lra]. unfold near in R. cbn in R. nra.
  - intros Ev g start u G U. pose proof (Row _ _ _ U) as R.
    assert (S : rsum (length [h1; h2]) (steep [h1; h2] a) = o1 + o2) by (cbn [length rsum]; unfold o1, o2; ring).
    pose proof (Ev 0%nat ltac:(cbn; lia)) as E0. pose proof (Ev 1%nat ltac:(cbn; lia)) as E1. rewrite S in E0, E1. fold o1 in E0. fold o2 in E1.
    assert (Q : forall c i, 0 <= c -> 0 <= c * g i <= c) by (intros c i Hc; specialize (G i); nra).
    pose proof (Q (o1 / 2 - (o1 + o2) / 6) 3%nat ltac:(lra)). pose proof (Q (o1 / 2 - (o1 + o2) / 6) 5%nat ltac:(lra)).
    pose proof (Q (o2 / 2 - (o1 + o2) / 6) 1%nat ltac:(lra)). pose proof (Q (o2 / 2 - (o1 + o2) / 6) 7%nat ltac:(lra)).
    pose proof (Q ((o1 + o2) / 6) 0%nat ltac:(lra)). pose proof (Q ((o1 + o2) / 6) 2%nat ltac:(lra)).
    pose proof (Q ((o1 + o2) / 6) 6%nat ltac:(lra)). pose proof (Q ((o1 + o2) / 6) 8%nat ltac:(lra)).
    unfold near in R. assert (0 <= (o1 + o2) * u 4%nat <= o1 + o2) by lra. nra.
Qed.
Print Assumptions C116_condition_is_needed.

(** 2 x 2 squares, diffusion 1 in two of them and 1000 in the others, only
    sinks: never above the largest prescribed value 5. *)
Lemma square_even : forall h s, 0 < h -> 0 < s -> even_shape [h; h] (fun _ => s).
Proof. intros h s H S. apply (proj1 (proj2 (C116_shapes s S)) h h H H). nra. Qed.
Definition row_scale (cs : list nat) (_ : nat) : R := match cs with [0; _]%nat => 1 | _ => 1000 end.
Example C116_case : forall u, 
  fem_solution 2 (list R) (fun x => crossed (row_scale (map (fun t => if Rlt_dec t (1/2) then 0%nat else 1%nat) x) )) (fun _ => -3) (fun _ => 0) 9 outer9
    (fun i => INR i - 3) (fun _ => 0)
    (fine_boxes [2; 2]%nat half num3 (fun cs xs => map (fun t => (INR (fst t) + snd t) / 2) (combine cs xs)) (product_rule (line_rule 2) 2)
       (fun _ => product_rule (line_rule 2) 2) (fun _ => [])) u ->
  u 4%nat <= 5.
Proof.
  intros u U.
  pose proof (C116_maximum_principle [2; 2]%nat half num3 9
    (fun x => crossed (row_scale (map (fun t => if Rlt_dec t (1/2) then 0%nat else 1%nat) x)))
    (fun cs xs => map (fun t => (INR (fst t) + snd t) / 2) (combine cs xs)) row_scale 2 (fun _ => product_rule (line_rule 2) 2) (fun _ => [])
    outer9 (fun _ => -3) (fun _ => 0) (fun i => INR i - 3) (fun _ => 0) u 5) as M.
  destruct M as (M & _).
  all: auto using num3_numbering, twos, half_pos.
  - intros cs xs i j I L F Hi Hj. change (if Nat.eqb i j then row_scale cs i else 0) with (crossed (row_scale cs) i j).
    do 3 f_equal. destruct xs as [|x [|y [|? ?]]]; try discriminate.
    apply Forall_cons_iff in F. destruct F as (Hx & F). apply Forall_cons_iff in F. destruct F as (Hy & _).
    cbn in I. repeat (destruct I as [<-|I]; [cbn; destruct (Rlt_dec _ _), (Rlt_dec _ _); first [reflexivity|exfalso; lra]|]). destruct I.
  - intros cs k _ _. unfold row_scale. destruct cs as [|[|c] [|c' [|? ?]]]; lra.
  - intros cs _. unfold row_scale, half. destruct cs as [|[|c] [|c' [|? ?]]]; apply square_even; lra.
  - intros cs I. split; [|intros f q []]. intros q Q. split.
    + split; [now apply rule_length in Q|]. apply Forall_impl with (P := fun x => 0 < x < 1); [intros; lra|].
      now apply (rule_inside _ (gauss_inside 2)) in Q.
    + cbn in Q. repeat (destruct Q as [<-|Q]; [cbn; lra|]). destruct Q.
  - exists 0%nat. split; [lia|reflexivity].
  - replace (u 4%nat) with (fine_val (list R) u (fem_cell (box_cell half num3 [0; 0]%nat []) (fun xs => map (fun t => (INR (fst t) + snd t) / 2) (combine [0; 0]%nat xs)) (volume half) (product_rule (line_rule 2) 2) (product_rule (line_rule 2) 2)) [1; 1]).
    + apply M with (f := []).
      * intros; lra.
      * intros; lra.
      * intros i L _. assert (H : INR i <= INR 8) by (apply le_INR; lia).
        replace (INR 8) with 8 in H by (cbn; lra). lra.
      * apply in_map_iff. exists [0; 0]%nat. split; [reflexivity|now left].
      * split; [reflexivity|]. repeat constructor; lra.
    + rewrite (box_fine_val [2; 2]%nat half num3 9) by (auto using num3_numbering; now left). cbn. unfold nodal. cbn. ring.
Qed.

(** * Corrected coarse functions *)
(** Any local grid of boxes, with or without oversampling: bounds of the coarse
    function at the constrained nodes of the local grid are bounds of the
    corrected function on the whole local grid. *)
Theorem C117_range_on_the_local_grid :
  forall ns hs num n diffusion order rhs_order p cs x a u lo hi,
  length hs = length ns -> numbering ns num n -> In cs (cells ns) -> sound (length ns) p ->
  (2 <= gauss_points order <= 3)%nat -> (2 <= gauss_points rhs_order <= 3)%nat ->
  cellwise (pa_cells p) (pa_global p) diffusion a -> (forall f k, In f (cells (pa_cells p)) -> (k < length ns)%nat -> 0 < a f k) ->
  (forall f, In f (cells (pa_cells p)) -> even_shape (pa_edges p) (a f)) -> (exists i, (i < pa_n p)%nat /\ pa_con p i = true) ->
  corrected hs num diffusion order rhs_order p cs x ->
  (forall js, node (pa_cells p) js -> pa_con p (pa_num p js) = true ->
     lo <= value (fun is => u (num is)) cs (place (pa_low p) (pa_edges p) hs js (map (fun _ => 0) js)) <= hi) ->
  forall f xs, In f (cells (pa_cells p)) -> in_cell (length ns) xs -> lo <= corrected_value hs num p cs x u f xs <= hi.
Proof.
  intros ns hs num n diffusion order rhs_order p cs x a u lo hi Lh Nu Ic So Og Or Cw Pa Ev Cn Co B f xs If X.
  apply (corrected_between ns hs num n diffusion order rhs_order p cs x a); auto.
Qed.
Print Assumptions C117_range_on_the_local_grid.

(** Without oversampling the corrected function stays within the bounds of its
    values at the corners of the coarse cell. *)
Theorem C117_no_new_extrema_without_oversampling :
  forall ns hs num n diffusion order rhs_order p cs x a u lo hi,
  length hs = length ns -> Forall (Rlt 0) hs -> numbering ns num n -> In cs (cells ns) -> sound (length ns) p -> fills hs p ->
  (2 <= gauss_points order <= 3)%nat -> (2 <= gauss_points rhs_order <= 3)%nat ->
  cellwise (pa_cells p) (pa_global p) diffusion a -> (forall f k, In f (cells (pa_cells p)) -> (k < length ns)%nat -> 0 < a f k) ->
  (forall f, In f (cells (pa_cells p)) -> even_shape (pa_edges p) (a f)) -> (exists i, (i < pa_n p)%nat /\ pa_con p i = true) ->
  corrected hs num diffusion order rhs_order p cs x ->
  (forall js, In js (corners cs) -> lo <= u (num js) <= hi) ->
  forall f xs, In f (cells (pa_cells p)) -> in_cell (length ns) xs -> lo <= corrected_value hs num p cs x u f xs <= hi.
Proof.
  intros ns hs num n diffusion order rhs_order p cs x a u lo hi Lh Fh Nu Ic So Fi Og Or Cw Pa Ev Cn Co B f xs If X.
  apply (corrected_between ns hs num n diffusion order rhs_order p cs x a); auto. intros js Nj _.
  apply (restricted_between ns hs num order rhs_order p cs); auto.
Qed.
Print Assumptions C117_no_new_extrema_without_oversampling.

(** The corrected shape functions of a coarse cell, without oversampling: each
    lies between 0 and 1, and together they are 1 (the latter on any local
    grid). *)
Theorem C117_corrected_shape_functions :
  forall ns hs num n diffusion order rhs_order p cs x a,
  length hs = length ns -> Forall (Rlt 0) hs -> numbering ns num n -> In cs (cells ns) -> sound (length ns) p ->
  (2 <= gauss_points order <= 3)%nat -> (2 <= gauss_points rhs_order <= 3)%nat ->
  cellwise (pa_cells p) (pa_global p) diffusion a -> (forall f k, In f (cells (pa_cells p)) -> (k < length ns)%nat -> 0 < a f k) ->
  (forall f, In f (cells (pa_cells p)) -> even_shape (pa_edges p) (a f)) -> (exists i, (i < pa_n p)%nat /\ pa_con p i = true) ->
  corrected hs num diffusion order rhs_order p cs x ->
  forall f xs, In f (cells (pa_cells p)) -> in_cell (length ns) xs ->
  (fills hs p -> forall i, 0 <= corrected_value hs num p cs x (fun j => if Nat.eqb j i then 1 else 0) f xs <= 1) /\
  corrected_value hs num p cs x (fun _ => 1) f xs = 1.
Proof.
  intros ns hs num n diffusion order rhs_order p cs x a Lh Fh Nu Ic So Og Or Cw Pa Ev Cn Co f xs If X. split.
  - intros Fi i. apply (C117_no_new_extrema_without_oversampling ns hs num n diffusion order rhs_order p cs x a); auto. intros js _. destruct (Nat.eqb _ _); lra.
  - enough (1 <= corrected_value hs num p cs x (fun _ => 1) f xs <= 1) by lra.
    apply (C117_range_on_the_local_grid ns hs num n diffusion order rhs_order p cs x a); auto. intros js Nj _. rewrite value_const. lra.
Qed.
Print Assumptions C117_corrected_shape_functions.

(** * Concrete cases *)
Lemma patch_corrected : forall hs num diffusion order rhs_order p cs, length hs = 2%nat -> sound 2 p -> pa_con p 0%nat = true -> (0 < pa_n p)%nat ->
  (2 <= gauss_points order <= 3)%nat -> (forall x, positive 2 (diffusion x)) -> exists x, corrected hs num diffusion order rhs_order p cs x.
Proof.
  intros hs num diffusion order rhs_order p cs Lh So C N Og Po. pose proof So as (Lc & Le & Ll & Fc & Fe & Nu).
  destruct (corrected_exists 2 hs num diffusion order rhs_order p cs (fun _ _ => 0)) as (x & X & _); eauto.
  unfold patch_points. rewrite <- Lc. apply varied_coercive; auto; try lia.
  - now apply gauss_two.
  - intros. rewrite Lc. apply Po.
  - exists 0%nat. auto.
Qed.

(** A square coarse cell with 2 x 2 squares and diffusion 1 in the left, 1000
    in the right half. *)
Definition left_right (x : list R) : nat -> nat -> R :=
  crossed (fun _ => match x with t :: _ => if Rlt_dec t (1/4) then 1 else 1000 | [] => 1 end).
Lemma crossed_positive : forall d a, (forall k, (k < d)%nat -> 0 < a k) -> positive d (crossed a).
Proof.
  intros d a A. apply diagonal_positive.
  - intros i j D. unfold crossed. apply Nat.eqb_neq in D. now rewrite D.
  - intros k L. unfold crossed. rewrite Nat.eqb_refl. auto.
Qed.
Example C117_case : forall i, exists x,
  corrected half num3 left_right 2 3 (exact_patch outer9 [0; 0]%nat) [0; 0]%nat x /\
  0 <= corrected_value half num3 (exact_patch outer9 [0; 0]%nat) [0; 0]%nat x (fun j => if Nat.eqb j i then 1 else 0) [0; 0]%nat [1; 1] <= 1.
Proof.
  intros i. destruct (patch_corrected half num3 left_right 2 3 (exact_patch outer9 [0; 0]%nat) [0; 0]%nat) as (x & X); auto using exact_sound.
  - cbn. lia.
  - intros y. apply crossed_positive. intros _ _. destruct y as [|t y]; [lra|]. destruct (Rlt_dec _ _); lra.
  - exists x. split; auto.
    apply (C117_corrected_shape_functions [2; 2]%nat half num3 9 left_right 2 3 (exact_patch outer9 [0; 0]%nat) [0; 0]%nat x row_scale);
      auto using half_pos, num3_numbering, exact_sound.
    + now left.
    + intros cs xs k j I L F Hi Hj. change (if Nat.eqb k j then row_scale cs k else 0) with (crossed (row_scale cs) k j).
      destruct xs as [|s [|t [|? ?]]]; try discriminate.
      apply Forall_cons_iff in F. destruct F as (Hx & F). apply Forall_cons_iff in F. destruct F as (Hy & _).
      unfold left_right, crossed. destruct (Nat.eqb k j); [|reflexivity].
      cbn in I. repeat (destruct I as [<-|I]; [cbn; destruct (Rlt_dec _ _); first [reflexivity|exfalso; lra]|]). destruct I.
    + intros f k _ _. unfold row_scale. destruct f as [|[|c] [|c' [|? ?]]]; lra.
    + intros f _. unfold row_scale. cbn [exact_patch pa_edges]. destruct f as [|[|c] [|c' [|? ?]]]; apply square_even; lra.
    + exists 0%nat. cbn. split; [lia|reflexivity].
    + now left.
    + split; [reflexivity|]. repeat constructor; lra.
    + intros k L. destruct k as [|[|k]]; [| |cbn in L; lia]; cbn; lra.
Qed.

(** The condition on the shape matters here too: boxes that are twice as long
    as wide, the same diffusion in both directions (100 in the upper left box, 1
    in the others): the corrected shape function of the lower left corner is
    negative in the middle.  The whole coarse cell has the same shape, so have
    the cells of the Tarbert table in its first two directions
    (tarbert.cc:109). *)
Definition num2 (js : list nat) : nat := match js with [a; b] => a + 2 * b | _ => 4 end.
Definition long_patch : patch :=
  {| pa_cells := [2; 2]%nat; pa_edges := [1/2; 1/4]; pa_low := [0; 0]; pa_num := num3; pa_n := 9; pa_con := outer9;
     pa_inside := fun _ => true;
     pa_global := fun fs x => map (fun t => (INR (fst t) + snd t)) (combine fs x) |}.
Definition spot (x : list R) : nat -> nat -> R :=
  crossed (fun _ => match x with s :: t :: _ => if Rlt_dec s 1 then if Rlt_dec t 1 then 1 else 100 else 1 | _ => 1 end).
Definition spot_scale (cs : list nat) (_ : nat) : R := match cs with [0; 1]%nat => 100 | _ => 1 end.
Example C117_long_cells : 
  (exists x, corrected [1; 1/2] num2 spot 2 3 long_patch [0; 0]%nat x) /\
  forall x, corrected [1; 1/2] num2 spot 2 3 long_patch [0; 0]%nat x ->
    corrected_value [1; 1/2] num2 long_patch [0; 0]%nat x (fun j => if Nat.eqb j 0 then 1 else 0) [0; 0]%nat [1; 1] < 0.
Proof.
  assert (So : sound 2 long_patch).
  { unfold sound. cbn [long_patch pa_cells pa_edges pa_low pa_num pa_n].
    split; [auto|split; [auto|split; [auto|split; [apply twos|split; [|apply num3_numbering]]]]]. repeat constructor; lra. }
  split.
  - apply patch_corrected; auto; try (cbn; lia). intros y. apply crossed_positive. intros _ _. destruct y as [|s [|t y]]; try lra.
    destruct (Rlt_dec _ _); [destruct (Rlt_dec _ _)|]; lra.
  - intros x X.
    assert (N1 : numbering [1; 1]%nat num2 4).
    { split; [|split].
      - intros js Nj. inversion Nj as [|a ? ? ? La T]; subst. inversion T as [|b ? ? ? Lb T']; subst. inversion T'; subst. cbn. lia.
      - intros js js' Nj Nj' E.
        inversion Nj as [|a ? ? ? La T]; subst. inversion T as [|b ? ? ? Lb T']; subst. inversion T'; subst.
        inversion Nj' as [|a' ? ? ? La' S]; subst. inversion S as [|b' ? ? ? Lb' S']; subst. inversion S'; subst.
        cbn in E. assert (b = b') by lia. subst b'. assert (a = a') by lia. now subst.
      - intros i L. exists [(i mod 2)%nat; (i / 2)%nat].
        destruct i as [|[|[|[|i]]]]; [| | | |lia]; (split; [repeat constructor|reflexivity]). }
    assert (Ic : In [0; 0]%nat (cells [1; 1]%nat)) by now left.
    assert (Cw : cellwise (pa_cells long_patch) (pa_global long_patch) spot spot_scale).
    { intros cs xs k j I L F Hi Hj. change (if Nat.eqb k j then spot_scale cs k else 0) with (crossed (spot_scale cs) k j).
      destruct xs as [|s [|t [|? ?]]]; try discriminate.
      apply Forall_cons_iff in F. destruct F as (Hx & F). apply Forall_cons_iff in F. destruct F as (Hy & _).
      unfold spot, crossed. destruct (Nat.eqb k j); [|reflexivity].
      cbn in I. repeat (destruct I as [<-|I]; [cbn; destruct (Rlt_dec _ _); [destruct (Rlt_dec _ _)|]; first [reflexivity|exfalso; lra]|]). destruct I. }
    set (u := fun j => if Nat.eqb j 0 then 1 else 0).
    destruct (total_weak [1; 1]%nat [1; 1/2] num2 4 spot 2 3 long_patch [0; 0]%nat x spot_scale eq_refl N1 Ic So) with (u := u) as (t & T & B & W); auto; try (cbn; lia).
    rewrite (corrected_total [1; 1]%nat [1; 1/2] num2 4) by (auto; now left).
    specialize (W (fun i => if Nat.eqb i 4 then 1 else 0)).
    assert (V : vanishes (pa_n long_patch) (pa_con long_patch) (fun i => if Nat.eqb i 4 then 1 else 0)).
    { intros i _. cbn. unfold outer9. now destruct (Nat.eqb i 4). }
    specialize (W V). change (pa_cells long_patch) with [2; 2]%nat in *. change (pa_edges long_patch) with [1/2; 1/4] in *. change (pa_num long_patch) with num3 in *.
    rewrite (middle_row (1/2) (1/4)) in W by (try lra; try reflexivity; apply gauss_moments; cbn; lia).
    assert (E : forall b c, (b <= 2)%nat -> (c <= 2)%nat -> outer9 (b + 3 * c) = true ->
        t (b + 3 * c)%nat = (1 - INR b / 2) * (1 - INR c / 2)).
    { intros b c Hb Hc O. assert (Nj : node [2; 2]%nat [b; c]) by (constructor; [lia|constructor; [lia|constructor]]).
      change (b + 3 * c)%nat with (num3 [b; c]). rewrite (T _ Nj), (B _ Nj O). unfold restricted. cbn. unfold nodal, u. cbn. field. }
    assert (T4 : forall js, In js (corners [0; 0]%nat) -> node [2; 2]%nat js).
    { intros js J. cbn in J. repeat (destruct J as [<-|J]; [constructor; [lia|constructor; [lia|constructor]]|]). destruct J. }
    rewrite (value_ext [0; 0]%nat [1; 1] _ (fun js => t (num3 js))) by (auto; intros js J; symmetry; apply T; auto).
    cbn [value]. unfold num3. cbn [Nat.add Nat.mul].
    pose proof (E 0%nat 0%nat ltac:(lia) ltac:(lia) eq_refl) as E0. pose proof (E 1%nat 0%nat ltac:(lia) ltac:(lia) eq_refl) as E1.
    pose proof (E 2%nat 0%nat ltac:(lia) ltac:(lia) eq_refl) as E2. pose proof (E 0%nat 1%nat ltac:(lia) ltac:(lia) eq_refl) as E3.
    pose proof (E 2%nat 1%nat ltac:(lia) ltac:(lia) eq_refl) as E5. pose proof (E 0%nat 2%nat ltac:(lia) ltac:(lia) eq_refl) as E6.
    pose proof (E 1%nat 2%nat ltac:(lia) ltac:(lia) eq_refl) as E7. pose proof (E 2%nat 2%nat ltac:(lia) ltac:(lia) eq_refl) as E8.
    cbn in E0, E1, E2, E3, E5, E6, E7, E8. rewrite E0, E1, E2, E3, E5, E6, E7, E8 in W. unfold near, steep in W. cbn in W.
    lra.
Qed.
