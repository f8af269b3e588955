(** Theorems about constant diffusion: C108. *)
From Coq Require Import Reals List Arith Bool Lra Lia.
From Verif Require Import Util RSum CoarseModel CoarseSpec LinModel LinSpec.
From Verif Require Import SystemModel FemModel EnergySpec EnergyProofs QuadModel PatchSpec PatchProofs.
Import ListNotations.
Open Scope R_scope.

(** * Local problems *)
(** A local grid of boxes with all outer nodes constrained has positive energy
    on free functions when the matrix is integrated with at least two points
    per direction. *)
Theorem C108_local_problems_are_definite : forall ns hs num n con A order,
  ns <> [] -> length hs = length ns -> Forall (fun m => (0 < m)%nat) ns -> Forall (Rlt 0) hs ->
  positive (length ns) A -> numbering ns num n -> outer_constrained ns num con ->
  (2 <= gauss_points order <= 3)%nat ->
  coercive (length ns) (grid_points (length ns) order (box_elements ns hs num A)) n con.
Proof.
  intros ns hs num n con A order NE Lh Fn Fh Po Nu Oc G y Y E i Li.
  rewrite (box_energy ns hs num n) in E by auto. destruct (gauss_two _ G) as (Fl & x1 & w1 & x2 & w2 & I1 & I2 & Dx).
  destruct Nu as (B & Inj & Su). destruct (Su i Li) as (js & N & <-).
  apply (no_energy ns hs A (line_rule (gauss_points order)) x1 w1 x2 w2 (nodal num y)); auto.
  - apply (vanishes_nodal ns num n con); auto. repeat split; auto.
  - pose proof (volume_pos hs Fh). apply (Rmult_le_reg_l (volume hs)); auto. lra.
Qed.
Print Assumptions C108_local_problems_are_definite.

(** With the same diagonal diffusion matrix everywhere a function that is
    linear in each direction - every coarse basis function - is not corrected. *)
Theorem C108_multilinear_functions_need_no_correction : forall ns hs num n con A order rhs_order v y x,
  ns <> [] -> length hs = length ns -> Forall (fun m => (0 < m)%nat) ns -> Forall (Rlt 0) hs ->
  diagonal A -> (forall k, (k < length ns)%nat -> 0 < A k k) ->
  numbering ns num n -> outer_constrained ns num con -> (2 <= gauss_points order <= 3)%nat ->
  multilinear (length ns) v -> (forall js, node ns js -> y (num js) = v js) ->
  (corrector (length ns) (grid_points (length ns) order (box_elements ns hs num A))
     (grid_points (length ns) rhs_order (box_elements ns hs num A)) n con (field_of n y) x <->
   forall i, (i < n)%nat -> x i = 0).
Proof.
  intros ns hs num n con A order rhs_order v y x NE Lh Fn Fh D Ap Nu Oc G M Y.
  set (qs := grid_points (length ns) order (box_elements ns hs num A)).
  set (rs := grid_points (length ns) rhs_order (box_elements ns hs num A)).
  assert (Co : coercive (length ns) qs n con)
    by (apply C108_local_problems_are_definite; auto; now apply diagonal_positive).
  assert (B : balanced (length ns) rs n con (field_of n y)).
  { intros z Z. unfold rs. rewrite (box_energy ns hs num n) by auto.
    rewrite (nodal_ext ns hs num A _ y v) by auto. rewrite flux_balanced; auto; [ring|]. now apply (vanishes_nodal ns num n con). }
  split.
  - intros C. now apply (corrector_zero (length ns) qs rs n con (field_of n y) x Co C).
  - intros Z. pose proof (proj1 (corrector_zero_always (length ns) qs rs n con (field_of n y)) B) as C0.
    intros i Li. rewrite <- (C0 i Li). unfold mv. apply rsum_ext. intros j Lj. now rewrite Z.
Qed.
Print Assumptions C108_multilinear_functions_need_no_correction.

(** Linear functions are not corrected for any constant diffusion matrix. *)
Theorem C108_linear_functions_need_no_correction : forall ns hs num n con A order rhs_order ss v y x,
  ns <> [] -> length hs = length ns -> Forall (fun m => (0 < m)%nat) ns -> Forall (Rlt 0) hs ->
  positive (length ns) A ->
  numbering ns num n -> outer_constrained ns num con -> (2 <= gauss_points order <= 3)%nat ->
  length ss = length ns -> linear ss v -> (forall js, node ns js -> y (num js) = v js) ->
  (corrector (length ns) (grid_points (length ns) order (box_elements ns hs num A))
     (grid_points (length ns) rhs_order (box_elements ns hs num A)) n con (field_of n y) x <->
   forall i, (i < n)%nat -> x i = 0).
Proof.
  intros ns hs num n con A order rhs_order ss v y x NE Lh Fn Fh Po Nu Oc G Ls Li Y.
  set (qs := grid_points (length ns) order (box_elements ns hs num A)).
  set (rs := grid_points (length ns) rhs_order (box_elements ns hs num A)).
  assert (Co : coercive (length ns) qs n con) by (apply C108_local_problems_are_definite; auto).
  assert (B : balanced (length ns) rs n con (field_of n y)).
  { intros z Z. unfold rs. rewrite (box_energy ns hs num n) by auto.
    rewrite (nodal_ext ns hs num A _ y v) by auto. rewrite (flux_balanced_linear ns hs ss); auto; [ring|]. now apply (vanishes_nodal ns num n con). }
  split.
  - intros C. now apply (corrector_zero (length ns) qs rs n con (field_of n y) x Co C).
  - intros Z. pose proof (proj1 (corrector_zero_always (length ns) qs rs n con (field_of n y)) B) as C0.
    intros i Li'. rewrite <- (C0 i Li'). unfold mv. apply rsum_ext. intros j Lj. now rewrite Z.
Qed.
Print Assumptions C108_linear_functions_need_no_correction.

(** * The coarse system *)
(** With constant diffusion and constant source and without correctors the
    multiscale method is the finite element method on the coarse grid, although
    the coarse functions are evaluated at local coordinates. *)
Theorem C108_is_the_coarse_finite_element_method :
  forall d P diffusion source neumann (grid : list (coarse_cell P * list (cface P))) global (vol : coarse_cell P -> R)
    (quad rquad : coarse_cell P -> list (P * R)) N constrained g start u,
  (forall x y i j, (i < d)%nat -> (j < d)%nat -> diffusion x i j = diffusion y i j) ->
  (forall x y, source x = source y) ->
  (forall c fs, In (c, fs) grid -> cc_slots P c = (cc_n P c + 2)%nat /\ uncorrected c (vol c) (quad c) (rquad c)) ->
  (forall c fs i, In (c, fs) grid -> (i < cc_n P c)%nat -> (cc_index P c i < N)%nat) ->
  (coarse_solution d P diffusion source neumann N constrained g grid u <->
   fem_solution d P diffusion source neumann N constrained g start
     (map (fun cf => (fem_cell (fst cf) global (vol (fst cf)) (quad (fst cf)) (rquad (fst cf)), snd cf)) grid) u).
Proof. intros. now apply reduced_solution. Qed.
Print Assumptions C108_is_the_coarse_finite_element_method.

(** On a grid of boxes with prescribed values on the whole boundary and no
    source the coarse solve returns exactly the values of a function that is
    linear in each direction, if the boundary values are those of the function
    and the constant diffusion is diagonal ... *)
Theorem C108_multilinear_solutions_are_reproduced :
  forall ns hs num n con A diffusion neumann line rquad ls fs g v sol,
  ns <> [] -> length hs = length ns -> Forall (fun m => (0 < m)%nat) ns -> Forall (Rlt 0) hs ->
  diagonal A -> (forall k, (k < length ns)%nat -> 0 < A k k) ->
  (forall x i j, (i < length ns)%nat -> (j < length ns)%nat -> diffusion x i j = A i j) ->
  numbering ns num n -> outer_constrained ns num con ->
  Forall (fun p => 0 < snd p) line -> (exists x1 w1 x2 w2, In (x1, w1) line /\ In (x2, w2) line /\ x1 <> x2) ->
  (forall cs, In cs (cells ns) ->
     uncorrected (box_cell hs num cs (ls cs)) (volume hs) (product_rule line (length ns)) (rquad cs)) ->
  (forall cs f, In cs (cells ns) -> In f (fs cs) -> cf_neumann (list R) f = false) ->
  multilinear (length ns) v -> (forall js, node ns js -> outer_node ns js = true -> g (num js) = v js) ->
  (coarse_solution (length ns) (list R) diffusion (fun _ => 0) neumann n con g
     (map (fun cs => (box_cell hs num cs (ls cs), fs cs)) (cells ns)) sol <->
   forall js, node ns js -> sol (num js) = v js).
Proof.
  intros ns hs num n con A diffusion neumann line rquad ls fs g v sol NE Lh Fn Fh D Ap Dc Nu Oc Fl Two Un Nf M G.
  assert (E : forall u, (forall js, node ns js -> u (num js) = v js) ->
    coarse_solution (length ns) (list R) diffusion (fun _ => 0) neumann n con g
      (map (fun cs => (box_cell hs num cs (ls cs), fs cs)) (cells ns)) u).
  { intros u U. apply (balanced_solves ns hs num n con A diffusion neumann line rquad ls fs Nu Oc Dc Un Nf g u v U G).
    intros w W. now apply flux_balanced. }
  split; [|apply E]. intros S js N.
  destruct (nodal_values ns num n v Nu) as (u & U).
  rewrite <- (U js N).
  apply (solution_unique ns hs num n con A diffusion neumann line rquad ls fs Nu Oc Dc Un Nf g sol u); auto.
  now apply diagonal_positive.
Qed.
Print Assumptions C108_multilinear_solutions_are_reproduced.

(** ... or if the function is linear, for any constant positive definite diffusion. *)
Theorem C108_linear_solutions_are_reproduced :
  forall ns hs num n con A diffusion neumann line rquad ls fs g ss v sol,
  ns <> [] -> length hs = length ns -> Forall (fun m => (0 < m)%nat) ns -> Forall (Rlt 0) hs ->
  positive (length ns) A ->
  (forall x i j, (i < length ns)%nat -> (j < length ns)%nat -> diffusion x i j = A i j) ->
  numbering ns num n -> outer_constrained ns num con ->
  Forall (fun p => 0 < snd p) line -> (exists x1 w1 x2 w2, In (x1, w1) line /\ In (x2, w2) line /\ x1 <> x2) ->
  (forall cs, In cs (cells ns) ->
     uncorrected (box_cell hs num cs (ls cs)) (volume hs) (product_rule line (length ns)) (rquad cs)) ->
  (forall cs f, In cs (cells ns) -> In f (fs cs) -> cf_neumann (list R) f = false) ->
  length ss = length ns -> linear ss v -> (forall js, node ns js -> outer_node ns js = true -> g (num js) = v js) ->
  (coarse_solution (length ns) (list R) diffusion (fun _ => 0) neumann n con g
     (map (fun cs => (box_cell hs num cs (ls cs), fs cs)) (cells ns)) sol <->
   forall js, node ns js -> sol (num js) = v js).
Proof.
  intros ns hs num n con A diffusion neumann line rquad ls fs g ss v sol NE Lh Fn Fh Po Dc Nu Oc Fl Two Un Nf Ls Li G.
  assert (E : forall u, (forall js, node ns js -> u (num js) = v js) ->
    coarse_solution (length ns) (list R) diffusion (fun _ => 0) neumann n con g
      (map (fun cs => (box_cell hs num cs (ls cs), fs cs)) (cells ns)) u).
  { intros u U. apply (balanced_solves ns hs num n con A diffusion neumann line rquad ls fs Nu Oc Dc Un Nf g u v U G).
    intros w W. now apply (flux_balanced_linear ns hs ss). }
  split; [|apply E]. intros S js N.
  destruct (nodal_values ns num n v Nu) as (u & U).
  rewrite <- (U js N).
  apply (solution_unique ns hs num n con A diffusion neumann line rquad ls fs Nu Oc Dc Un Nf g sol u); auto.
Qed.
Print Assumptions C108_linear_solutions_are_reproduced.

(** * A concrete case: two by two cells of size 1/2, nine nodes *)
Definition num3 (js : list nat) : nat := match js with [a; b] => a + 3 * b | _ => 9 end.
Definition outer9 (i : nat) : bool := negb (Nat.eqb i 4).
Definition half : list R := [1/2; 1/2].
Definition product_of (js : list nat) : R := match js with [a; b] => INR a * INR b | _ => 0 end.

Lemma num3_numbering : numbering [2; 2]%nat num3 9.
Proof.
  split; [|split].
  - intros js N. inversion N as [|a ? js1 ? La N1]; subst. inversion N1 as [|b ? js2 ? Lb N2]; subst. inversion N2; subst. cbn. lia.
  - intros js js' N N' E. inversion N as [|a ? js1 ? La N1]; subst. inversion N1 as [|b ? js2 ? Lb N2]; subst. inversion N2; subst.
    inversion N' as [|a' ? js1 ? La' N1']; subst. inversion N1' as [|b' ? js2 ? Lb' N2']; subst. inversion N2'; subst.
    unfold num3 in E. assert (b = b') by lia. subst b'. assert (a = a') by lia. now subst.
  - intros i L. exists [(i mod 3)%nat; (i / 3)%nat]. split.
    + constructor; [|constructor; [|constructor]]; do 9 (destruct i as [|i]; [cbn; lia|]); lia.
    + do 9 (destruct i as [|i]; [reflexivity|]). lia.
Qed.
Lemma outer9_constrained : outer_constrained [2; 2]%nat num3 outer9.
Proof.
  intros js N. inversion N as [|a ? js1 ? La N1]; subst. inversion N1 as [|b ? js2 ? Lb N2]; subst. inversion N2; subst.
  assert (a = 0 \/ a = 1 \/ a = 2)%nat as [->|[->| ->]] by lia; assert (b = 0 \/ b = 1 \/ b = 2)%nat as [->|[->| ->]] by lia; reflexivity.
Qed.
Lemma product_multilinear : multilinear 2 product_of.
Proof.
  exists (fun _ => 0), (fun js => match js with [b] => INR b | _ => 0 end). split; [|split].
  - exists (fun _ => 0), (fun _ => 0). repeat split; auto. intros. ring.
  - exists (fun _ => 0), (fun js => match js with [] => 1 | _ => 0 end). repeat split; auto.
    intros j [|k js]; cbn; ring.
  - intros j [|k [|m js]]; cbn; ring.
Qed.

Definition scalar (a : R) : nat -> nat -> R := fun i j => if Nat.eqb i j then a else 0.
Lemma scalar_diagonal : forall a, diagonal (scalar a).
Proof. intros a i j N. unfold scalar. destruct (Nat.eqb_spec i j); [congruence|reflexivity]. Qed.

(** Two local elements per coarse cell, each with half of its volume 1/4. *)
Definition half_element (up : bool) : local_cell (list R) :=
  {| lc_covered := true; lc_global := fun x => x; lc_factor := fun _ => 1/8;
     lc_grad := fun _ _ _ => 0; lc_val := fun _ _ => 0;
     lc_quad := product_rule (line_rule 2) 2; lc_rquad := [] |}.

(** The product of the coordinates is harmonic: it is neither corrected on a
    local grid nor changed by the coarse solve, which returns its value 1 at the
    middle node (coordinates in units of the edge length). *)
Example C108_case :
  (forall x, corrector 2 (grid_points 2 3 (box_elements [2; 2]%nat half num3 (scalar 7)))
      (grid_points 2 1 (box_elements [2; 2]%nat half num3 (scalar 7))) 9 outer9
      (field_of 9 (fun i => product_of [(i mod 3)%nat; (i / 3)%nat])) x <-> forall i, (i < 9)%nat -> x i = 0) /\
  (forall sol, coarse_solution 2 (list R) (fun _ => scalar 7) (fun _ => 0) (fun _ => 0) 9 outer9
     (fun i => product_of [(i mod 3)%nat; (i / 3)%nat])
     (map (fun cs => (box_cell half num3 cs [half_element false; half_element true], [])) (cells [2; 2]%nat)) sol ->
   sol 4%nat = 1).
Proof.
  assert (Y : forall js, node [2; 2]%nat js -> product_of [(num3 js mod 3)%nat; (num3 js / 3)%nat] = product_of js).
  { intros js N. inversion N as [|a ? js1 ? La N1]; subst. inversion N1 as [|b ? js2 ? Lb N2]; subst. inversion N2; subst.
    assert (a = 0 \/ a = 1 \/ a = 2)%nat as [->|[->| ->]] by lia; assert (b = 0 \/ b = 1 \/ b = 2)%nat as [->|[->| ->]] by lia; reflexivity. }
  assert (Fh : Forall (Rlt 0) half) by (repeat constructor; lra).
  assert (Fn : Forall (fun m => (0 < m)%nat) [2; 2]%nat) by (repeat constructor; lia).
  split.
  - intros x. apply (C108_multilinear_functions_need_no_correction [2; 2]%nat half num3 9 outer9 (scalar 7) 3 1 product_of); auto.
    + discriminate.
    + apply scalar_diagonal.
    + intros k _. unfold scalar. rewrite Nat.eqb_refl. lra.
    + apply num3_numbering.
    + apply outer9_constrained.
    + apply product_multilinear.
  - intros sol S. destruct (gauss_two 2) as (Fl & Two); [lia|].
    apply (C108_multilinear_solutions_are_reproduced [2; 2]%nat half num3 9 outer9 (scalar 7) (fun _ => scalar 7) (fun _ => 0)
      (line_rule 2) (fun _ => []) (fun _ => [half_element false; half_element true]) (fun _ => []) _ product_of) with (js := [1; 1]%nat) in S; auto.
    + change (num3 [1; 1]%nat) with 4%nat in S. rewrite S. cbn. ring.
    + discriminate.
    + apply scalar_diagonal.
    + intros k _. unfold scalar. rewrite Nat.eqb_refl. lra.
    + apply num3_numbering.
    + apply outer9_constrained.
    + intros cs _. exists (fun _ => 1/8). split; [cbn; lra|].
      intros l I. cbn in I. destruct I as [<-|[<-|[]]]; repeat split; auto.
    + intros cs f _ [].
    + apply product_multilinear.
    + repeat constructor.
Qed.

(** A matrix with mixed entries corrects the same function. *)
Definition mixed : nat -> nat -> R := fun i j => if Nat.eqb i j then 1 else 1/2.
Example C108_mixed_diffusion_corrects :
  positive 2 mixed /\
  ~ balanced 2 (grid_points 2 1 (box_elements [2; 2]%nat half num3 mixed)) 9 outer9
      (field_of 9 (fun i => product_of [(i mod 3)%nat; (i / 3)%nat])).
Proof.
  split.
  - intros z (k & L & N). unfold dot, mv, mixed. cbn.
    assert (P : z 0%nat <> 0 \/ z 1%nat <> 0).
    { destruct k as [|[|k]]; [now left|now right|lia]. }
    replace (0 + (0 + 1 * z 0%nat + 1 / 2 * z 1%nat) * z 0%nat + (0 + 1 / 2 * z 0%nat + 1 * z 1%nat) * z 1%nat)
      with ((z 0%nat + z 1%nat / 2) * (z 0%nat + z 1%nat / 2) + 3/4 * (z 1%nat * z 1%nat)) by field.
    pose proof (Rle_0_sqr (z 0%nat + z 1%nat / 2)) as H. unfold Rsqr in H.
    destruct (Req_dec (z 1%nat) 0) as [E|E].
    + rewrite E in *. destruct P as [P|P]; [|lra]. pose proof (Rsqr_pos_lt _ P) as Q. unfold Rsqr in Q. lra.
    + pose proof (Rsqr_pos_lt _ E) as Q. unfold Rsqr in Q. lra.
  - intros B. specialize (B (fun i => if Nat.eqb i 4 then 1 else 0)).
    rewrite (box_energy [2; 2]%nat half num3 9 mixed 1) in B by apply num3_numbering.
    assert (V : vanishes 9 outer9 (fun i => if Nat.eqb i 4 then 1 else 0)).
    { intros i L C. unfold outer9 in C. destruct (Nat.eqb i 4); [discriminate|reflexivity]. }
    specialize (B V). revert B. unfold bsum, volume, half, dot, mv, mixed, nodal. cbn. lra.
Qed.
