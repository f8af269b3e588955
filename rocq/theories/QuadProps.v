(** Theorems about quadrature orders: C107. *)
From Coq Require Import Reals List Arith Bool Lia Lra.
From Verif Require Import Util RSum BoundaryModel CoarseModel CoarseSpec SystemModel SystemSpec LinModel LinSpec
  QuadModel QuadSpec QuadProofs.
Import ListNotations.
Open Scope R_scope.

(** Orders of the stages: the coarse matrix is integrated with a higher order
    than both right hand sides, which do not ask the source. *)
Theorem C107_orders_requested :
  (forall p, p <> PRandom -> coarse_matrix_order p = 4%nat /\ coarse_rhs_order p = 3%nat /\ local_rhs_order p = 3%nat) /\
  coarse_matrix_order PRandom = 3%nat /\ coarse_rhs_order PRandom = 2%nat /\ local_rhs_order PRandom = 2%nat.
Proof.
  split; [|repeat split; reflexivity]. intros p N. destruct p; [repeat split; reflexivity|now elim N|repeat split; reflexivity..].
Qed.
Print Assumptions C107_orders_requested.

(** The integral over the cube is determined by the function. *)
Theorem C107_integral_is_unique : forall d f v w, is_integral d f v -> is_integral d f w -> v = w.
Proof. exact is_integral_unique. Qed.
Print Assumptions C107_integral_is_unique.

(** A rule of order [o] (all orders in use are at most 4) integrates
    polynomials exactly whose degree in each variable is at most [o], or [o + 1]
    if [o] is even. *)
Theorem C107_rules_are_exact : forall d o f, (o <= 5)%nat ->
  poly d (if Nat.even o then o + 1 else o) f -> is_integral d f (apply_rule (cube_rule d o) f).
Proof.
  intros d o f L P. apply cube_exact; auto. apply (poly_mono d (if Nat.even o then o + 1 else o)); auto.
  destruct o as [|[|[|[|[|[|o]]]]]]; cbn; lia.
Qed.
Print Assumptions C107_rules_are_exact.

(** The coarse matrix is integrated exactly if the diffusion has at most the
    declared degree ([u], [v]: gradients of functions of degree one in each
    variable, or what the assembly uses for them). *)
Theorem C107_coarse_matrix_is_exact : forall p d k diffusion l u v,
  (k <= diffusion_order p)%nat -> lc_quad _ l = cube_rule d (coarse_matrix_order p) ->
  poly_cell d k diffusion l -> poly_field d 1 u -> poly_field d 1 v ->
  is_integral d (energy_density d diffusion l u v) (CoarseSpec.energy d (list R) diffusion l u v).
Proof.
  intros p d k diffusion l u v Lk Q C U V. unfold CoarseSpec.energy. rewrite Q.
  apply (energy_integral d k); auto; destruct p; cbn in *; lia.
Qed.
Print Assumptions C107_coarse_matrix_is_exact.

(** The flux part of the coarse right hand side is integrated exactly only up
    to degree one, whatever is declared. *)
Theorem C107_coarse_rhs_flux_is_exact : forall p d k diffusion l u v,
  (k <= 1)%nat -> lc_rquad _ l = cube_rule d (coarse_rhs_order p) ->
  poly_cell d k diffusion l -> poly_field d 1 u -> poly_field d 1 v ->
  is_integral d (energy_density d diffusion l u v) (CoarseSpec.rhs_energy d (list R) diffusion l u v).
Proof.
  intros p d k diffusion l u v Lk Q C U V. unfold CoarseSpec.rhs_energy. rewrite Q.
  apply (energy_integral d k); auto; destruct p; cbn in *; lia.
Qed.
Print Assumptions C107_coarse_rhs_flux_is_exact.

(** Its source part is integrated exactly for sources of degree two. *)
Theorem C107_coarse_rhs_source_is_exact : forall p d k source l v,
  (k <= 2)%nat -> lc_rquad _ l = cube_rule d (coarse_rhs_order p) ->
  poly d 0 (lc_factor _ l) -> poly d k (fun x => source (lc_global _ l x)) -> poly d 1 v ->
  is_integral d (fun x => lc_factor _ l x * (source (lc_global _ l x) * v x)) (CoarseSpec.load (list R) source l v).
Proof.
  intros p d k source l v Lk Q F S V. unfold CoarseSpec.load. rewrite Q.
  rewrite (lsum_ext _ _ _ (fun q => snd q * (lc_factor _ l (fst q) * (source (lc_global _ l (fst q)) * v (fst q)))))
    by (intros; ring).
  apply cube_exact; [destruct p; cbn; lia|]. apply (poly_mono d (0 + (k + 1))); [destruct p; cbn; lia|].
  apply (poly_mult d 0 (k + 1) (lc_factor _ l) (fun x => source (lc_global _ l x) * v x)); auto.
  apply (poly_mult d k 1 (fun x => source (lc_global _ l x)) v); auto.
Qed.
Print Assumptions C107_coarse_rhs_source_is_exact.

(** So the two quadratures of the coarse system agree (premise of C90, C94) if
    the diffusion has degree at most one on each element; piecewise constant
    coefficients in particular. *)
Theorem C107_coarse_quadratures_agree : forall p d k diffusion cells,
  (k <= 1)%nat ->
  (forall c fs l, In (c, fs) cells -> In l (covered (list R) c) ->
     lc_quad _ l = cube_rule d (coarse_matrix_order p) /\ lc_rquad _ l = cube_rule d (coarse_rhs_order p) /\
     poly_cell d k diffusion l /\
     (forall i, (i < cc_n _ c)%nat -> poly_field d 1 (cc_grad _ c i)) /\
     (forall i, (i < cc_n _ c + 2)%nat -> poly_field d 1 (lc_grad _ l i))) ->
  rules_agree d (list R) diffusion cells.
Proof.
  intros p d k diffusion cells Lk H c fs l i I Il Li. destruct (H c fs l I Il) as (Q & RQ & C & G & GL).
  assert (B : poly_field d 1 (boundary_grad (list R) c l)).
  { intros j Lj. unfold boundary_grad.
    apply (poly_ext d 1 (fun x => lc_grad _ l (cc_n _ c + 1) x j + (-1) * lc_grad _ l (cc_n _ c) x j));
      [intros; ring|].
    apply (poly_plus d 1 (fun x => lc_grad _ l (cc_n _ c + 1) x j)).
    - apply (GL (cc_n _ c + 1)%nat); auto; lia.
    - apply (poly_scale d 1 (-1) (fun x => lc_grad _ l (cc_n _ c) x j)). apply (GL (cc_n _ c)); auto; lia. }
  assert (U : poly_field d 1 (used_grad (list R) c l i)).
  { intros j Lj. unfold used_grad.
    apply (poly_plus d 1 (fun x => cc_grad _ c i x j) (fun x => lc_grad _ l i x j)).
    - apply G; auto.
    - apply GL; auto; lia. }
  apply (is_integral_unique d (energy_density d diffusion l (boundary_grad (list R) c l) (used_grad (list R) c l i))).
  - apply (C107_coarse_matrix_is_exact p d k); auto. destruct p; cbn; lia.
  - apply (C107_coarse_rhs_flux_is_exact p d k); auto.
Qed.
Print Assumptions C107_coarse_quadratures_agree.

(** Local problems.  [o]: the order the external operator chooses for the
    matrix.  If the operator's rule is exact on the products, it agrees with the
    right hand sides on all local functions (premise of C18, C81, C95). *)
Theorem C107_local_quadratures_agree : forall p d k n els o con x,
  (k <= 1)%nat -> (o <= 5)%nat -> (k + 2 <= if Nat.even o then o + 1 else o)%nat ->
  (forall e, In e els -> poly_element d k n e) ->
  same_products d (grid_points d o els) (grid_points d (local_rhs_order p) els) n con (field_of n x).
Proof.
  intros p d k n els o con x Lk Lo Lq H y _.
  apply (grid_products_agree d k); auto.
  - unfold local_rhs_order, basis_order; destruct p; cbn; lia.
  - destruct o as [|[|[|[|[|[|o]]]]]]; cbn in *; lia.
  - unfold local_rhs_order, basis_order; destruct p; cbn; lia.
Qed.
Print Assumptions C107_local_quadratures_agree.

(** Orders two and three are the same rule: there the local quadratures agree
    for every diffusion and every field. *)
Theorem C107_local_quadratures_are_the_same : forall p d els o n con field,
  o = 2%nat \/ o = 3%nat ->
  same_products d (grid_points d o els) (grid_points d (local_rhs_order p) els) n con field.
Proof.
  intros p d els o n con field H y _. unfold grid_points.
  rewrite (same_points d o (local_rhs_order p)); auto. destruct p, H as [->| ->]; reflexivity.
Qed.
Print Assumptions C107_local_quadratures_are_the_same.

(** ** The declared order is not enough for the right hand side. *)
(** Unit square, diffusion x0^2 times identity, gradient of x0 x1. *)
Definition sq_diffusion : list R -> nat -> nat -> R :=
  fun x i j => if Nat.eqb i j then nth 0 x 0 * nth 0 x 0 else 0.
Definition sq_field : list R -> nat -> R := fun x k => if Nat.eqb k 0 then nth 1 x 0 else nth 0 x 0.
Definition sq_local (p : pname) : local_cell (list R) :=
  {| lc_covered := true; lc_global := fun x => x; lc_factor := fun _ => 1;
     lc_grad := fun i => if Nat.eqb i 2 then sq_field else fun _ _ => 0; lc_val := fun _ _ => 0;
     lc_quad := cube_rule 2 (coarse_matrix_order p); lc_rquad := cube_rule 2 (coarse_rhs_order p) |}.
Definition sq_coarse (p : pname) : coarse_cell (list R) :=
  {| cc_n := 1; cc_grad := fun _ => sq_field; cc_val := fun _ _ => 0; cc_index := fun i => i; cc_slots := 3;
     cc_locals := [sq_local p] |}.

Lemma sq_field_poly : poly_field 2 1 sq_field.
Proof.
  intros k L. unfold sq_field. destruct (Nat.eqb k 0); apply poly_coord.
Qed.
Lemma sq_cell_poly : forall p, poly_cell 2 2 sq_diffusion (sq_local p).
Proof.
  intros p. split; [apply (poly_const 2 0 1)|]. intros i j _ _. unfold sq_diffusion. cbn [lc_global sq_local].
  destruct (Nat.eqb i j); [|apply poly_const].
  apply (poly_mult 2 1 1 (fun x => nth 0 x 0) (fun x => nth 0 x 0)); apply poly_coord.
Qed.

Lemma sq_rhs : forall p, CoarseSpec.rhs_energy 2 (list R) sq_diffusion (sq_local p) sq_field sq_field = 7/36 + 1/9.
Proof.
  intros p. unfold CoarseSpec.rhs_energy. cbn [lc_rquad lc_factor lc_global sq_local].
  assert (E : cube_rule 2 (coarse_rhs_order p) = cube_rule 2 2) by (destruct p; reflexivity).
  rewrite E. unfold cube_rule, gauss_points. cbn [Nat.div2 Nat.add line_rule product_rule flat_map map app fst snd lsum].
  unfold dot, mv, sq_diffusion, sq_field. cbn [rsum Nat.eqb nth].
  pose proof (sqrt_sqrt 3 ltac:(lra)) as S. set (s := sqrt 3) in *.
  match goal with |- ?l = _ => replace l with
    ((1/16 + (1/24) * (s * s) + (1/1296) * (s * s) * (s * s)) + (1/4 + (s * s) / 36) * (1/4 + (s * s) / 36)) by field end.
  rewrite S. field.
Qed.

(** Declared order two, diffusion of degree two: the matrix product is the
    integral, the product of the right hand side is not, and the premise of C90
    fails. *)
Theorem C107_declared_order_is_not_enough : forall p, p <> PRandom ->
  poly_cell 2 (diffusion_order p) sq_diffusion (sq_local p) /\
  is_integral 2 (energy_density 2 sq_diffusion (sq_local p) sq_field sq_field) (1/5 + 1/9) /\
  CoarseSpec.energy 2 (list R) sq_diffusion (sq_local p) sq_field sq_field = 1/5 + 1/9 /\
  CoarseSpec.rhs_energy 2 (list R) sq_diffusion (sq_local p) sq_field sq_field = 7/36 + 1/9 /\
  ~ rules_agree 2 (list R) sq_diffusion [(sq_coarse p, [])].
Proof.
  intros p NR.
  assert (D2 : diffusion_order p = 2%nat) by (destruct p; [reflexivity|now elim NR|reflexivity..]).
  assert (I : is_integral 2 (energy_density 2 sq_diffusion (sq_local p) sq_field sq_field)
                (CoarseSpec.energy 2 (list R) sq_diffusion (sq_local p) sq_field sq_field)).
  { apply (C107_coarse_matrix_is_exact p 2 2); auto; try apply sq_field_poly; [lia|apply sq_cell_poly]. }
  assert (J : is_integral 2 (energy_density 2 sq_diffusion (sq_local p) sq_field sq_field) (1/5 + 1/9)).
  { apply (is_integral_ext 2 (fun x => monomial [2; 2]%nat x + monomial [4; 0]%nat x)).
    - intros [|a [|b [|c x]]] L; try discriminate. unfold energy_density, dot, mv, sq_diffusion, sq_field.
      cbn. ring.
    - assert (M : line_exact (line_rule 3) 5) by apply gauss3.
      replace (1/5 + 1/9) with (mono_value (line_rule 3) [2; 2]%nat + mono_value (line_rule 3) [4; 0]%nat).
      + apply is_integral_plus.
        * apply (monomial_integral (line_rule 3) 5 [2; 2]%nat M). intros e [<-|[<-|[]]]; lia.
        * apply (monomial_integral (line_rule 3) 5 [4; 0]%nat M). intros e [<-|[<-|[]]]; lia.
      + cbn [mono_value]. rewrite !(M 2%nat), !(M 4%nat), !(M 0%nat) by lia. cbn [Nat.add INR]. field. }
  pose proof (is_integral_unique _ _ _ _ I J) as E.
  split; [rewrite D2; apply sq_cell_poly|]. split; [exact J|]. split; [exact E|]. split; [apply sq_rhs|].
  intros H. specialize (H (sq_coarse p) [] (sq_local p) 0%nat (or_introl eq_refl)).
  specialize (H ltac:(now left) ltac:(cbn; lia)).
  assert (B : forall x k, boundary_grad (list R) (sq_coarse p) (sq_local p) x k = sq_field x k).
  { intros x k. unfold boundary_grad. cbn. ring. }
  assert (U : forall x k, used_grad (list R) (sq_coarse p) (sq_local p) 0 x k = sq_field x k).
  { intros x k. unfold used_grad. cbn. ring. }
  assert (X : CoarseSpec.energy 2 (list R) sq_diffusion (sq_local p) (boundary_grad (list R) (sq_coarse p) (sq_local p))
                (used_grad (list R) (sq_coarse p) (sq_local p) 0) =
              CoarseSpec.energy 2 (list R) sq_diffusion (sq_local p) sq_field sq_field).
  { apply lsum_ext. intros q _. f_equal. apply dot_ext; [|auto]. intros. apply mv_ext. auto. }
  assert (Y : CoarseSpec.rhs_energy 2 (list R) sq_diffusion (sq_local p)
                (boundary_grad (list R) (sq_coarse p) (sq_local p)) (used_grad (list R) (sq_coarse p) (sq_local p) 0) =
              CoarseSpec.rhs_energy 2 (list R) sq_diffusion (sq_local p) sq_field sq_field).
  { apply lsum_ext. intros q _. f_equal. apply dot_ext; [|auto]. intros. apply mv_ext. auto. }
  rewrite X, Y, E, sq_rhs in H. lra.
Qed.
Print Assumptions C107_declared_order_is_not_enough.

(** With diffusion x0 the premises of the agreement are met. *)
Definition sq_linear : list R -> nat -> nat -> R := fun x i j => if Nat.eqb i j then nth 0 x 0 else 0.

(** One element, identity diffusion, the function x0 x1: a one-point rule
    (orders zero and one) gives the product 1/2, the right hand side 2/3. *)
Definition sq_element : element :=
  {| el_factor := fun _ => 1; el_A := fun _ i j => if Nat.eqb i j then 1 else 0; el_grad := fun _ => sq_field |}.
Example C107_linear_case : forall p,
  poly_cell 2 1 sq_linear (sq_local p) /\ rules_agree 2 (list R) sq_linear [(sq_coarse p, [])].
Proof.
  intros p. assert (C : poly_cell 2 1 sq_linear (sq_local p)).
  { split; [apply (poly_const 2 0 1)|]. intros i j _ _. unfold sq_linear. cbn [lc_global sq_local].
    destruct (Nat.eqb i j); [apply poly_coord|apply poly_const]. }
  split; auto. apply (C107_coarse_quadratures_agree p 2 1); auto. intros c fs l [E|[]] I. injection E as <- <-.
  destruct I as [<-|[]]. split; [reflexivity|]. split; [reflexivity|]. split; auto. split.
  - intros i _. apply sq_field_poly.
  - intros i _. cbn [lc_grad sq_local]. destruct (Nat.eqb i 2); [apply sq_field_poly|].
    intros k _. apply poly_const.
Qed.

Example C107_local_case : forall p o, (o <= 1)%nat ->
  poly_element 2 0 1 sq_element /\
  same_products 2 (grid_points 2 2 [sq_element]) (grid_points 2 (local_rhs_order p) [sq_element]) 1
    (fun _ => false) (field_of 1 (fun _ => 1)) /\
  energy 2 (grid_points 2 o [sq_element]) (field_of 1 (fun _ => 1)) (field_of 1 (fun _ => 1)) = 1/2 /\
  ~ same_products 2 (grid_points 2 o [sq_element]) (grid_points 2 (local_rhs_order p) [sq_element]) 1
      (fun _ => false) (field_of 1 (fun _ => 1)).
Proof.
  intros p o L.
  assert (E : grid_points 2 o [sq_element] = grid_points 2 0 [sq_element]).
  { unfold grid_points. rewrite (same_points 2 o 0); auto. destruct o as [|[|o]]; [reflexivity..|lia]. }
  assert (E2 : grid_points 2 (local_rhs_order p) [sq_element] = grid_points 2 2 [sq_element]).
  { unfold grid_points. rewrite (same_points 2 (local_rhs_order p) 2); auto. destruct p; reflexivity. }
  assert (H : energy 2 (grid_points 2 0 [sq_element]) (field_of 1 (fun _ => 1)) (field_of 1 (fun _ => 1)) = 1/2).
  { unfold energy, grid_points, cube_rule, gauss_points, field_of, dot, mv, sq_element, sq_field. cbn. lra. }
  split; [|split; [|split]].
  - split; [apply (poly_const 2 0 1)|]. split.
    + intros i j _ _. cbn [el_A sq_element]. apply poly_const.
    + intros i _. apply sq_field_poly.
  - apply C107_local_quadratures_are_the_same. now left.
  - rewrite E. exact H.
  - intros X. specialize (X (fun _ => 1) ltac:(intros i _ C; discriminate)). rewrite E, E2, H in X.
    enough (energy 2 (grid_points 2 2 [sq_element]) (field_of 1 (fun _ => 1)) (field_of 1 (fun _ => 1)) = 2/3) by lra.
    unfold energy, grid_points, cube_rule, gauss_points, field_of, dot, mv, sq_element, sq_field.
    cbn [Nat.div2 Nat.add line_rule product_rule flat_map map app fst snd lsum rsum q_w q_A q_grad
         el_factor el_A el_grad Nat.eqb nth].
    pose proof (sqrt_sqrt 3 ltac:(lra)) as S. set (s := sqrt 3) in *.
    match goal with |- ?l = _ => replace l with (1/2 + (s * s) / 18) by field end. rewrite S. field.
Qed.
