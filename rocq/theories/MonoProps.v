(** C133: larger data and larger multiscale solutions on an interval. *)
From Coq Require Import Reals List Arith Bool Lra Lia.
From Verif Require Import Util RSum SpeModel BoundaryModel BoundarySpec BoundaryProofs LinModel LinSpec LinProofs QuadModel QuadProofs CoarseModel CoarseSpec SystemModel SystemSpec FemModel FemSpec.
From Verif Require Import PatchSpec PatchProofs SolveSpec SolveProofs SolveProps LayerSpec LayerProofs WholeSpec WholeProps MaxSpec MaxProofs MaxProps LineSpec LineProofs LineProps OverSpec ConvSpec ConvProofs MonoSpec MonoProofs.
Import ListNotations.
Open Scope R_scope.

(** Larger boundary values and larger prescribed fluxes give values at the coarse
    nodes that are not smaller, whatever the diffusion and the source. *)
Theorem C133_larger_data_at_the_ends : forall I neumann g gf u u', let J := with_data I (iv_source I) neumann g gf in
  sound_interval I -> sound_interval J -> coarse_result I u -> coarse_result J u' -> ends_le I J -> left_constrained I \/ right_constrained I ->
  forall c, (c <= iv_n I)%nat -> u (iv_num I [c]) <= u' (iv_num I [c]).
Proof.
  intros I neumann g gf u u' J S0 SJ Su Su' En Fx. apply (comparison I S0 (iv_source I) neumann g gf); auto.
  intros v V. apply loads_le; auto.
Qed.
Print Assumptions C133_larger_data_at_the_ends.

(** Without source and prescribed flux the values at the coarse nodes and the
    corrected function on the fine grid stay between the boundary values. *)
Theorem C133_between_the_boundary_values : forall I u lo hi, sound_interval I -> coarse_result I u -> nothing_supplied I -> ends_between I lo hi ->
  left_constrained I \/ right_constrained I ->
  (forall c, (c <= iv_n I)%nat -> lo <= u (iv_num I [c]) <= hi) /\
  (forall c j, (c < iv_n I)%nat -> (j <= iv_m I)%nat -> lo <= inner_at I u c j <= hi).
Proof.
  intros I u lo hi S0 Su Z B Fx. pose proof (within I u lo hi S0 Su Z B Fx) as W. split; [exact W|].
  intros c j Lc Lj. apply inner_convex; auto; apply W; lia.
Qed.
Print Assumptions C133_between_the_boundary_values.

(** A larger source gives values that are not smaller if the diffusion does not
    change inside the coarse cells ... *)
Theorem C133_larger_source_in_uniform_cells : forall I source neumann g gf u u', let J := with_data I source neumann g gf in
  sound_interval I -> sound_interval J -> coarse_result I u -> coarse_result J u' -> ends_le I J -> source_le I J -> uniform_cells I ->
  left_constrained I \/ right_constrained I -> forall c, (c <= iv_n I)%nat -> u (iv_num I [c]) <= u' (iv_num I [c]).
Proof.
  intros I source neumann g gf u u' J S0 SJ Su Su' En Sl U Fx. apply (comparison I S0 source neumann g gf); auto.
  intros v V. apply loads_le; auto.
Qed.
Print Assumptions C133_larger_source_in_uniform_cells.

(** * ... but not in general.  One coarse cell with two fine cells, diffusion 9
      and 1, value 0 at the left end, no flux at the right end. *)
Definition parts (p q : R) (y : list R) (i j : nat) : R :=
  if Nat.eqb i j then (if Rlt_dec (nth 0 y 0) (1/2) then p else q) else 0.
Definition heated (p q : R) (source : list R -> R) (x : list nat -> nat -> nat -> R) : interval :=
  {| iv_n := 1; iv_m := 2; iv_N := 2; iv_Nf := 3; iv_H := 1; iv_num := first_node; iv_numf := first_node;
     iv_diffusion := parts p q; iv_source := source; iv_neumann := fun _ => 0;
     iv_global := at_place; iv_a := fun g => if Nat.eqb g 0 then p else q;
     iv_order := 2; iv_rhs_order := 3; iv_o := 3; iv_fo := 3; iv_pa := one_patch; iv_x := x;
     iv_rq := fun _ => cube_rule 1 3; iv_rqf := fun _ => cube_rule 1 3;
     iv_nl := false; iv_nr := true; iv_left := [0]; iv_right := [1];
     iv_con := fun i => Nat.eqb i 0; iv_g := fun _ => 0; iv_conf := fun i => Nat.eqb i 0; iv_gf := fun _ => 0 |}.
Lemma parts_positive : forall p q y, 0 < p -> 0 < q -> positive 1 (parts p q y).
Proof.
  intros p q y P Q z (k & Lk & Z). assert (k = 0)%nat by lia. subst. unfold dot, mv, parts. cbn [rsum Nat.eqb].
  assert (0 < z 0%nat * z 0%nat) by (destruct (Rlt_dec 0 (z 0%nat)); nra). destruct (Rlt_dec (nth 0 y 0) (1/2)); nra.
Qed.
Lemma parts_means : forall p q g, (g < 2)%nat -> mean (parts p q) at_place (product_rule (line_rule 2) 1) g = if Nat.eqb g 0 then p else q.
Proof.
  intros p q g L. pose proof sqrt3_bounds as B. unfold mean, parts, at_place. cbn [product_rule line_rule flat_map map app lsum fst snd nth Nat.eqb].
  destruct g as [|[|]]; try lia; cbn [Nat.eqb INR].
  - destruct (Rlt_dec _ _); [|lra]. destruct (Rlt_dec _ _); [|lra]. lra.
  - destruct (Rlt_dec _ _); [lra|]. destruct (Rlt_dec _ _); [lra|]. lra.
Qed.

Lemma heated_results : forall p q source, 0 < p -> 0 < q -> exists x u uh, sound_interval (heated p q source x) /\ coarse_result (heated p q source x) u /\
  fine_result (heated p q source x) (fun _ => 0) uh.
Proof.
  intros p q source Pp Pq.
  assert (Pn : numbering [1]%nat first_node 2) by apply (line_numbering 1).
  assert (Pf : numbering [2]%nat first_node 3) by apply (line_numbering 2).
  assert (Cp : forall js, node [2]%nat js -> negb (Nat.eqb (first_node js) 1) = outer_node [2]%nat js).
  { intros js N. apply node_line in N. destruct N as (c & L & ->). destruct c as [|[|[|]]]; try lia; reflexivity. }
  destruct (C112_exactly_one_result_without_oversampling PEr2007 none none all_dirichlet [1]%nat [1] first_node 2 (fun i => Nat.eqb i 0) [2]%nat [1/2]
    one_patch (parts p q) 2 3 (line_rule 2) (fun _ _ => cube_rule 1 3) (fun _ _ _ => 0) (end_faces 1 false true [0] [1])
    source (fun _ => 0) (fun _ => 0)) as ((x & u & (X & U)) & _); auto.
  - discriminate.
  - repeat constructor. lra.
  - exists 0%nat. auto.
  - intros y. now apply parts_positive.
  - apply two_gauss.
  - intros cs _. split; [|split; [reflexivity|split; [reflexivity|split; [reflexivity|]]]].
    + repeat (split; [reflexivity|]). split; [repeat constructor|]. split; [repeat constructor; cbn; lra|exact Pf].
    + intros js N. apply node_line in N. destruct N as (c & L & ->). destruct c as [|[|[|]]]; try lia; reflexivity.
  - intros cs f z _ _ Q. now apply (rule_length _ _ _ Q).
  - destruct (C110_reference_solution_exists_once [2]%nat [1/2] first_node 3 (parts p q) at_place (line_rule 2) (fun _ => cube_rule 1 3)
      (end_faces 2 false true [0] [1]) (fun i => Nat.eqb i 0) source (fun _ => 0) (fun _ => 0) (fun _ => 0)) as ((uh & Uh) & _); auto.
    + repeat constructor. lra.
    + apply two_gauss.
    + intros y. now apply parts_positive.
    + exists 0%nat. split; [lia|reflexivity].
    + assert (Hh : iv_h (heated p q source x) = 1/2) by (unfold iv_h; cbn; lra).
      assert (S : sound_interval (heated p q source x)).
      { unfold sound_interval. rewrite Hh. cbn [heated iv_n iv_m iv_N iv_Nf iv_H iv_num iv_numf iv_diffusion iv_source iv_neumann iv_global iv_a
          iv_order iv_rhs_order iv_o iv_fo iv_pa iv_x iv_rq iv_rqf iv_nl iv_nr iv_left iv_right iv_con iv_g iv_conf iv_gf].
        split; [lia|]. split; [lia|]. split; [lra|]. split; [exact Pn|]. split; [exact Pf|].
        split. { intros c Lc. assert (c = 0)%nat by lia. subst. split; [reflexivity|]. split; [reflexivity|]. split; [reflexivity|].
          split; [exact Pf|]. split; [exact Cp|]. split; [reflexivity|]. intros f y Lf. reflexivity. }
        split. { intros g Lg. split; [destruct (Nat.eqb g 0); lra|]. intros rule J. rewrite <- (parts_means p q) by exact Lg.
          destruct J as [<-|[<-|[<-|[<-|[<-|[]]]]]]; reflexivity. }
        split. { intros c Lc. assert (c = 0)%nat by lia. subst. apply X. now left. }
        split. { intros c i Lc Hi. assert (c = 0)%nat by lia. subst. destruct (X [0]%nat) as (_ & Z); [now left|].
          specialize (Z i). cbn [corners map app length] in Z. specialize (Z ltac:(lia)). unfold local_problem, solves in Z.
          pose proof (Z 0%nat ltac:(cbn; lia)) as Z0. pose proof (Z 2%nat ltac:(cbn; lia)) as Z2. clear Z.
          unfold mv, constrain_matrix, constrain_vector in Z0, Z2. cbn in Z0, Z2. cbn. lra. }
        split. { intros g z [J|J]; now apply (rule_length _ _ _ J). }
        split; [reflexivity|].
        split. { intros c Lc. lia. }
        split. { intros c Lc. assert (c = 1)%nat by lia. now subst. }
        repeat split; reflexivity. }
      assert (Rs : coarse_result (heated p q source x) u) by exact U.
      assert (Rf : fine_result (heated p q source x) (fun _ => 0) uh) by (unfold fine_result, fine_line; rewrite Hh; exact Uh).
      exists x, u, uh. split; [exact S|]. split; [exact Rs|exact Rf].
Qed.


(** Heat is supplied in the left part of the second fine cell only. *)
Definition warm (y : list R) : R := if Rlt_dec (1/2) (nth 0 y 0) then (if Rlt_dec (nth 0 y 0) (3/4) then 1 else 0) else 0.

Theorem C133_heated_and_colder : exists x u uh, sound_interval (heated 9 1 warm x) /\
  coarse_result (heated 9 1 warm x) u /\ fine_result (heated 9 1 warm x) (fun _ => 0) uh /\
  left_constrained (heated 9 1 warm x) /\ (forall y, 0 <= warm y) /\
  u 1%nat < 0 /\ forall i, (i < 3)%nat -> 0 <= uh i.
Proof.
  destruct (heated_results 9 1 warm ltac:(lra) ltac:(lra)) as (x & u & uh & S0 & Su & Sf). exists x, u, uh.
  split; [exact S0|]. split; [exact Su|]. split; [exact Sf|]. split; [reflexivity|].
  assert (Hh : iv_h (heated 9 1 warm x) = 1/2) by (unfold iv_h; cbn; lra).
  assert (Wp : forall y, 0 <= warm y) by (intros y; unfold warm; destruct (Rlt_dec _ _); [destruct (Rlt_dec _ _)|]; lra).
  assert (Kp : kappa (heated 9 1 warm x) 0 = 9/5).
  { unfold kappa, harmonic. cbn [heated iv_m iv_a rsum Nat.mul Nat.add Nat.eqb INR]. field. }
  split; [exact Wp|]. split.
  - pose proof (proj1 (line_scheme _ u S0) Su) as (B & W).
    specialize (B 0%nat ltac:(cbn; lia) eq_refl). specialize (W (fun i => if Nat.eqb i 1 then 1 else 0)).
    rewrite (rsum_ext _ _ (fun c => 9/5 * (u 1%nat - u 0%nat))) in W.
    2:{ intros c Lc. cbn [heated iv_n] in Lc. assert (c = 0)%nat by lia. subst. rewrite Kp. cbn. field. }
    fold (load_of (heated 9 1 warm x) (fun i => if Nat.eqb i 1 then 1 else 0)) in W. rewrite (load_is _ S0) in W.
    specialize (W ltac:(intros [|[|]] L C; [reflexivity|discriminate|cbn in L; lia])).
    pose proof (inner_step _ S0 (fun i => if Nat.eqb i 1 then 1 else 0) 0%nat 0%nat ltac:(cbn; lia) ltac:(cbn; lia)) as St.
    rewrite !inner_is, Kp in St.
    destruct (added_zero_ends _ S0 0%nat (fun i => if Nat.eqb i 1 then 1 else 0) ltac:(cbn; lia)) as (A0 & A2).
    unfold tested in W.
    cbn [heated iv_n iv_m iv_num iv_a iv_pa iv_x first_node nth Nat.eqb Nat.mul Nat.add INR rsum iv_nl iv_nr iv_neumann iv_rq iv_source iv_global] in *.
    set (ad := added first_node 0 (one_patch [0%nat]) (x [0%nat]) (fun i => if Nat.eqb i 1 then 1 else 0)) in *.
    assert (A1 : ad 1%nat = - (2/5)) by lra. rewrite A0, A1, A2, Hh in W.
    pose proof sqrt3_bounds as (Q1 & Q2). assert (Q3 : 3/2 < sqrt 3) by (apply Rsqr_incrst_0; [unfold Rsqr; rewrite sqrt_sqrt; lra|lra|lra]).
    change (cube_rule 1 3) with (product_rule (line_rule 2) 1) in W. cbn [product_rule line_rule flat_map map app lsum fst snd nth] in W.
    unfold at_place, warm in W. cbn [nth INR] in W. cbn [heated iv_g] in B.
    repeat (destruct (Rlt_dec _ _) in W; try lra). 
    all: nra.
  - destruct (C116_maximum_principle [2]%nat [1/2] first_node 3 (parts 9 1) at_place (fun cs _ => if Nat.eqb (nth 0 cs 0%nat) 0 then 9 else 1) 2 (fun _ => cube_rule 1 3)
      (end_faces 2 false true [0] [1]) (fun i => Nat.eqb i 0) warm (fun _ => 0) (fun _ => 0) (fun _ => 0) uh 0) as (_ & P); auto.
    + repeat constructor. lra.
    + apply (line_numbering 2).
    + intros cs xs i j Ic Lx Fx Li Lj. apply in_line in Ic. destruct Ic as (c & Lc & ->). destruct xs as [|t [|]]; try discriminate.
      inversion Fx as [|? ? T _]. subst. cbn [length] in *. assert (i = 0)%nat by lia. assert (j = 0)%nat by lia. subst.
      unfold parts, at_place. cbn [nth Nat.eqb]. destruct c as [|[|]]; cbn [INR Nat.eqb]; [| |lia]; destruct (Rlt_dec _ _); lra.
    + intros cs k _ _. destruct (Nat.eqb _ 0); lra.
    + intros cs _. apply C116_shapes; [destruct (Nat.eqb _ 0); lra|lra].
    + intros cs Ic. split.
      * intros q J. destruct (gauss_ordinary 3 ltac:(lia)) as (O & _). destruct (O q J) as (W & T). split; [|exact W].
        pose proof (rule_length _ _ _ J) as Lq. split; [exact Lq|]. destruct (fst q) as [|t [|]]; try discriminate. constructor; [exact T|constructor].
      * intros f q J Jq. unfold end_faces in J. apply in_app_or in J.
        destruct J as [J|J]; [destruct (Nat.eqb _ 0)|destruct (Nat.eqb _ 2)]; try (destruct J; fail); destruct J as [<-|[]]; destruct Jq as [<-|[]]; cbn;
          (split; [split; [reflexivity|constructor; [lra|constructor]]|lra]).
    + exists 0%nat. split; [lia|reflexivity].
    + assert (V : forall c t, (c < 2)%nat -> 0 <= t <= 1 -> 0 <= uh c + t * (uh (S c) - uh c)).
      { intros c t Lc T. specialize (P Wp ltac:(intros; lra) ltac:(intros; lra)
          (fem_cell (box_cell [1/2] first_node [c] []) (at_place [c]) (volume [1/2]) (product_rule (line_rule 2) 1) (cube_rule 1 3))
          (end_faces 2 false true [0] [1] [c]) [t]).
        pose proof (fine_val_on 1 2 3 1 first_node at_place 3 (fun _ => cube_rule 1 3) (line_numbering 2) c t uh Lc) as Y.
        cbn [first_node nth] in Y. rewrite <- Y. apply P; [|split; [reflexivity|constructor; [exact T|constructor]]].
        apply in_map_iff. exists [c]. split; [reflexivity|]. apply in_line. exists c. auto. }
      intros i Li. destruct i as [|[|[|]]]; [| | |lia].
      * pose proof (V 0%nat 0 ltac:(lia) ltac:(lra)). lra.
      * pose proof (V 0%nat 1 ltac:(lia) ltac:(lra)). lra.
      * pose proof (V 1%nat 1 ltac:(lia) ltac:(lra)). lra.
Qed.
Print Assumptions C133_heated_and_colder.

(** * Cases meeting the assumptions *)
(** Diffusion 9 and 1, boundary value 0 and then 1, no source. *)
Example C133_ends_case : exists x u, let I := heated 9 1 (fun _ => 0) x in let J := with_data I (iv_source I) (fun _ => 0) (fun _ => 1) (fun _ => 1) in
  sound_interval I /\ sound_interval J /\ coarse_result I u /\ coarse_result J (fun _ => 1) /\ ends_le I J /\ left_constrained I /\
  nothing_supplied I /\ ends_between I 0 0.
Proof.
  destruct (heated_results 9 1 (fun _ => 0) ltac:(lra) ltac:(lra)) as (x & u & uh & S0 & Su & Sf). exists x, u. intros I J.
  assert (Z : nothing_supplied I) by (split; [reflexivity|split; reflexivity]).
  split; [exact S0|]. split; [exact (constant_sound I 1 S0)|]. split; [exact Su|]. split; [exact (constant_solution I 1 S0 Z)|].
  split. { split; [intros _; cbn; lra|split; [intros _; cbn; lra|split; intros _; cbn; lra]]. }
  split; [reflexivity|]. split; [exact Z|]. split; intros _; cbn; lra.
Qed.

(** Diffusion 1, no source and then heat in a part of the second fine cell. *)
Example C133_source_case : exists x u u', let I := heated 1 1 (fun _ => 0) x in let J := with_data I warm (fun _ => 0) (fun _ => 0) (fun _ => 0) in
  sound_interval I /\ sound_interval J /\ coarse_result I u /\ coarse_result J u' /\ ends_le I J /\ source_le I J /\ uniform_cells I /\
  left_constrained I /\ u 1%nat < u' 1%nat.
Proof.
  destruct (heated_results 1 1 (fun _ => 0) ltac:(lra) ltac:(lra)) as (x & u & uh & S0 & Su & Sf).
  assert (SJ : sound_interval (with_data (heated 1 1 (fun _ => 0) x) warm (fun _ => 0) (fun _ => 0) (fun _ => 0))).
  { destruct S0 as (L1 & L2 & L3 & Num & Numf & Dv & Me & Co & Bo & Rq & Ag & Re).
    exact (conj L1 (conj L2 (conj L3 (conj Num (conj Numf (conj Dv (conj Me (conj Co (conj Bo (conj Rq (conj (fun _ _ _ _ => eq_refl) Re))))))))))). }
  assert (U : uniform_cells (heated 1 1 (fun _ => 0) x)) by (intros c f f' _ _ _; cbn [heated iv_a]; now destruct (Nat.eqb _ 0), (Nat.eqb _ 0)).
  set (top := lsum (product_rule (line_rule 2) 1) (fun q => snd q * warm (at_place [1%nat] (fst q)) * nth 0 (fst q) 0) / 2).
  assert (T : 0 < top).
  { pose proof sqrt3_bounds as (Q1 & Q2). assert (Q3 : 3/2 < sqrt 3) by (apply Rsqr_incrst_0; [unfold Rsqr; rewrite sqrt_sqrt; lra|lra|lra]).
    unfold top. cbn [product_rule line_rule flat_map map app lsum fst snd nth]. unfold at_place, warm. cbn [nth INR].
    repeat (destruct (Rlt_dec _ _); try lra); nra. }
  assert (T0 : lsum (product_rule (line_rule 2) 1) (fun q => snd q * warm (at_place [0%nat] (fst q)) * nth 0 (fst q) 0) = 0).
  { pose proof sqrt3_bounds as (Q1 & Q2).
    cbn [product_rule line_rule flat_map map app lsum fst snd nth]. unfold at_place, warm. cbn [nth INR].
    repeat (destruct (Rlt_dec _ _); try lra). }
  exists x, u, (fun i => if Nat.eqb i 1 then top else 0). intros I J.
  split; [exact S0|]. split; [exact SJ|]. split; [exact Su|]. split; [|split; [|split; [|split; [exact U|split; [reflexivity|]]]]].
  - apply (line_scheme J _ SJ). split; [intros c Lc Cc; destruct c as [|c]; [reflexivity|discriminate]|].
    intros v V. specialize (V 0%nat ltac:(cbn; lia) eq_refl).
    match goal with |- _ = ?X => change X with (load_of J v) end. rewrite (load_is J SJ).
    change (kappa J) with (kappa I). assert (K : kappa I 0 = 1) by (unfold kappa, harmonic; cbn; field).
    change (tested J v) with (tested I v). change (iv_h J) with (iv_h I). assert (Hh : iv_h I = 1/2) by (unfold iv_h; cbn; lra).
    unfold J, I in *. cbn [with_data heated iv_n iv_m iv_rq iv_source iv_global iv_nl iv_nr iv_neumann iv_left iv_right iv_num iv_H rsum Nat.mul Nat.add] in *.
    rewrite K, Hh. unfold tested.
    rewrite !(uniform_adds_nothing (heated 1 1 (fun _ => 0) x) S0 0 v U) by (cbn; lia).
    cbn [heated iv_num first_node nth Nat.eqb] in *. rewrite V.
    change (cube_rule 1 3) with (product_rule (line_rule 2) 1).
    rewrite (lsum_ext _ _ _ (fun q => v 1%nat * (snd q * warm (at_place [0%nat] (fst q)) * nth 0 (fst q) 0))) by (intros; ring).
    rewrite (lsum_ext _ _ (fun q => snd q * warm (at_place [1%nat] (fst q)) * _) (fun q => v 1%nat * (snd q * warm (at_place [1%nat] (fst q)) * nth 0 (fst q) 0))) by (intros; ring).
    rewrite !lsum_scale, T0. unfold top. field.
  - split; [intros _; cbn; lra|split; [intros _; cbn; lra|split; intros _; cbn; lra]].
  - split; [intros y; unfold J, I; cbn [with_data heated iv_source]; unfold warm; repeat (destruct (Rlt_dec _ _)); lra|].
    intros g _. apply gauss_ordinary. lia.
  - cbn [Nat.eqb]. destruct (C133_between_the_boundary_values I u 0 0 S0 Su) as (W & _).
    + split; [reflexivity|split; reflexivity].
    + split; intros _; cbn; lra.
    + left. reflexivity.
    + specialize (W 1%nat ltac:(cbn; lia)). cbn in W. lra.
Qed.
