(** C128: on an interval oversampling makes the coarse system a different one. *)
From Coq Require Import Reals List Arith Bool Lra Lia.
From Verif Require Import Util RSum LinModel LinSpec LinProofs QuadModel QuadProofs CoarseModel CoarseSpec SystemModel SystemSpec FemModel FemSpec.
From Verif Require Import PatchSpec PatchProofs SolveSpec SolveProofs SolveProps LayerSpec LayerProofs WholeSpec WholeProps LineSpec LineProofs LineProps OverSpec OverProofs.
Import ListNotations.
Open Scope R_scope.

(** The coefficient of a coarse cell is the square of the harmonic mean over its
    local grid divided by the harmonic mean over the cell. *)
Theorem C128_coarse_system_with_oversampling : forall I k M u, sound_layers I k M ->
  (wide_result I k u <->
   (forall c, (c <= iv_n I)%nat -> iv_con I (iv_num I [c]) = true -> u (iv_num I [c]) = iv_g I (iv_num I [c])) /\
   forall v, (forall c, (c <= iv_n I)%nat -> iv_con I (iv_num I [c]) = true -> v (iv_num I [c]) = 0) ->
     rsum (iv_n I) (fun c => kappa_patch I k M c / iv_H I * (v (iv_num I [S c]) - v (iv_num I [c])) *
       (kappa_patch I k M c / kappa I c * (u (iv_num I [S c]) - u (iv_num I [c])) + moved I k c)) =
     lsum (wide_line I k) (fun cf => lsum (covered (list R) (fst cf)) (fun l => load (list R) (iv_source I) l (test_val (list R) v (fst cf) l))
       + boundary_load (list R) (iv_neumann I) (snd cf) (test_coarse (list R) v (fst cf)))).
Proof. intros I k M u S. now apply over_scheme. Qed.
Print Assumptions C128_coarse_system_with_oversampling.

(** Over the coarse cell the corrected function rises by the ratio of the two
    means times what the coarse function rises by. *)
Theorem C128_corrected_function_rises : forall I k M v c, sound_layers I k M -> (c < iv_n I)%nat ->
  corrected_at I k v c (k c + iv_m I) - corrected_at I k v c (k c) =
  kappa_patch I k M c / kappa I c * (v (iv_num I [S c]) - v (iv_num I [c])).
Proof. intros. now apply o_rise. Qed.
Print Assumptions C128_corrected_function_rises.

(** The coefficient is the right one exactly if the two means are the same. *)
Theorem C128_right_coefficient_iff : forall I k M c, sound_layers I k M -> (c < iv_n I)%nat ->
  (kappa_patch I k M c * kappa_patch I k M c / kappa I c = kappa I c <-> kappa_patch I k M c = kappa I c).
Proof.
  intros I k M c S Lc. destruct (o_kappa I k M S c Lc) as (A & B). split.
  - intros E. assert (Q : kappa_patch I k M c * kappa_patch I k M c = kappa I c * kappa I c).
    { rewrite <- E at 2. field. lra. }
    apply Rsqr_inj; unfold Rsqr; lra.
  - intros ->. field. lra.
Qed.
Print Assumptions C128_right_coefficient_iff.

(** No source, the flux given at the right end: the results of the method are
    the functions with these increments. *)
Theorem C128_driven_by_flux : forall I k M q u, sound_layers I k M -> driven_by_flux I k q ->
  (wide_result I k u <-> u (iv_num I [0%nat]) = iv_g I (iv_num I [0%nat]) /\
   forall c, (c < iv_n I)%nat -> u (iv_num I [S c]) - u (iv_num I [c]) = q * iv_H I * kappa I c / (kappa_patch I k M c * kappa_patch I k M c)).
Proof.
  intros I k M q u S D. rewrite (o_driven_iff I k M S q u D). apply and_iff_compat_l.
  pose proof (o_H I k M S) as Hp. split; intros A c Lc; specialize (A c Lc); destruct (o_kappa I k M S c Lc) as (B & C).
  - rewrite <- A. field. lra.
  - rewrite A. field. lra.
Qed.
Print Assumptions C128_driven_by_flux.

(** The reference solution has others: the two agree at all coarse nodes exactly
    if the means are the same for all coarse cells. *)
Theorem C128_increments : forall I k M q start u uh, sound_layers I k M -> driven_by_flux I k q ->
  wide_result I k u -> fine_result I start uh -> forall c, (c < iv_n I)%nat ->
  u (iv_num I [S c]) - u (iv_num I [c]) =
  kappa I c / kappa_patch I k M c * (kappa I c / kappa_patch I k M c) *
  (uh (iv_numf I [(S c * iv_m I)%nat]) - uh (iv_numf I [(c * iv_m I)%nat])).
Proof.
  intros I k M q start u uh S D U F c Lc. pose proof (o_H I k M S) as Hp. destruct (o_kappa I k M S c Lc) as (B & C).
  apply (C128_driven_by_flux I k M q u S D) in U. rewrite (proj2 U c Lc).
  pose proof (o_reference I k M S q start uh D F c Lc) as E. rewrite <- E. field. lra.
Qed.
Print Assumptions C128_increments.

Theorem C128_agree_iff : forall I k M q start u uh, sound_layers I k M -> driven_by_flux I k q -> q <> 0 ->
  iv_g I (iv_num I [0%nat]) = iv_gf I (iv_numf I [0%nat]) -> wide_result I k u -> fine_result I start uh ->
  ((forall c, (c <= iv_n I)%nat -> u (iv_num I [c]) = uh (iv_numf I [(c * iv_m I)%nat])) <->
   forall c, (c < iv_n I)%nat -> kappa_patch I k M c = kappa I c).
Proof.
  intros I k M q start u uh S D Q G U F. pose proof (o_H I k M S) as Hp. split.
  - intros A c Lc. destruct (o_kappa I k M S c Lc) as (B & C).
    apply (C128_right_coefficient_iff I k M c S Lc).
    pose proof (proj2 (proj1 (o_driven_iff I k M S q u D) U) c Lc) as E. pose proof (o_reference I k M S q start uh D F c Lc) as E'.
    rewrite !A in E by lia. rewrite <- E in E'.
    set (j := uh (iv_numf I [(Datatypes.S c * iv_m I)%nat]) - uh (iv_numf I [(c * iv_m I)%nat])) in *.
    assert (J : j <> 0) by (intros J; rewrite J in E; apply Q; rewrite <- E; ring).
    apply (Rmult_eq_reg_r (/ iv_H I * j)); [unfold Rdiv in *; lra|].
    apply Rmult_integral_contrapositive. split; [apply Rinv_neq_0_compat; lra|exact J].
  - intros A. induction c as [|c IH]; intros Lc.
    + pose proof (o_driven_iff I k M S q u D) as W. rewrite (proj1 (proj1 W U)), G. cbn [Nat.mul].
      symmetry. now apply (o_left I k M S q start uh D F).
    + pose proof (C128_increments I k M q start u uh S D U F c Lc) as E. rewrite A in E by lia.
      destruct (o_kappa I k M S c Lc) as (B & C). specialize (IH ltac:(lia)).
      replace (kappa I c / kappa I c * (kappa I c / kappa I c)) with 1 in E by (field; lra). lra.
Qed.
Print Assumptions C128_agree_iff.

(** Local grids over the whole interval: the change from the left to the right
    end is never smaller than that of the reference solution, and larger if the
    means over the coarse cells differ. *)
Theorem C128_whole_interval : forall I k M q start u uh, sound_layers I k M -> driven_by_flux I k q -> 0 < q ->
  (forall c, (c < iv_n I)%nat -> k c = (c * iv_m I)%nat /\ M c = (iv_n I * iv_m I)%nat) -> wide_result I k u -> fine_result I start uh ->
  let change := u (iv_num I [iv_n I]) - u (iv_num I [0%nat]) in
  let right := uh (iv_numf I [(iv_n I * iv_m I)%nat]) - uh (iv_numf I [0%nat]) in
  right <= change /\ ((exists c, (c < iv_n I)%nat /\ kappa I c <> kappa I 0) -> right < change).
Proof.
  intros I k M q start u uh S D Q P U F change right. pose proof (o_H I k M S) as Hp.
  assert (Ln : (0 < iv_n I)%nat) by apply S. set (K := INR (iv_n I) / rsum (iv_n I) (fun j => / kappa I j)).
  assert (Kc : forall c, (c < iv_n I)%nat -> kappa_patch I k M c = K).
  { intros c Lc. destruct (P c Lc) as (A & B). now apply whole_patch. }
  assert (Kp : forall c, (c < iv_n I)%nat -> 0 < kappa I c) by (intros c Lc; apply (o_kappa I k M S c Lc)).
  assert (K0 : 0 < K) by (rewrite <- (Kc 0%nat Ln); apply (o_kappa I k M S 0%nat Ln)).
  assert (E1 : change = q * iv_H I * rsum (iv_n I) (fun c => kappa I c / (K * K))).
  { unfold change. rewrite <- (rsum_tele (iv_n I) (fun c => u (iv_num I [c]))), <- rsum_scale. apply rsum_ext. intros c Lc.
    apply (C128_driven_by_flux I k M q u S D) in U. rewrite (proj2 U c Lc), Kc by exact Lc. unfold Rdiv. ring. }
  assert (E2 : right = q * iv_H I * rsum (iv_n I) (fun c => / kappa I c)).
  { unfold right. pose proof (rsum_tele (iv_n I) (fun c => uh (iv_numf I [(c * iv_m I)%nat]))) as T. cbv beta in T. cbn [Nat.mul] in T.
    rewrite <- T, <- rsum_scale. apply rsum_ext. intros c Lc. pose proof (o_reference I k M S q start uh D F c Lc) as E.
    cbn [Nat.mul] in *. rewrite <- E. pose proof (Kp c Lc). field. lra. }
  pose proof (square_mean (iv_n I) (kappa I) Ln Kp) as Sq. cbv zeta in Sq. fold K in Sq. rewrite Sq in E1.
  assert (N : forall c, (c < iv_n I)%nat -> 0 <= kappa I c * (/ K - / kappa I c) * (/ K - / kappa I c)).
  { intros c Lc. pose proof (Kp c Lc). rewrite Rmult_assoc. apply Rmult_le_pos; [lra|]. apply Rle_0_sqr. }
  assert (QH : 0 < q * iv_H I) by (now apply Rmult_lt_0_compat). rewrite E1, E2. split.
  - pose proof (rsum_nonneg (iv_n I) _ N). nra.
  - intros (c & Lc & Ne).
    assert (W : exists d, (d < iv_n I)%nat /\ kappa I d <> K).
    { destruct (Req_dec (kappa I 0) K) as [E|E]; [exists c; split; [exact Lc|congruence]|exists 0%nat; auto]. }
    destruct W as (d & Ld & Nd). pose proof (Kp d Ld).
    assert (Pos : 0 < kappa I d * (/ K - / kappa I d) * (/ K - / kappa I d)).
    { rewrite Rmult_assoc. apply Rmult_lt_0_compat; [lra|]. apply Rsqr_pos_lt. intros Z. apply Nd.
      rewrite <- (Rinv_involutive (kappa I d)), <- (Rinv_involutive K) by lra. f_equal. lra. }
    pose proof (rsum_pos_one (iv_n I) _ d Ld N Pos). nra.
Qed.
Print Assumptions C128_whole_interval.

(** * Concrete case: two coarse cells of length 1/2 with two fine cells each,
    diffusion 1, 1, 1, 4, one layer of oversampling, value 0 at the left end, flux
    1 at the right end.  The coefficients are 1 and 10/9 instead of 1 and 8/5, the
    value at the right end is 19/20 instead of 13/16. *)
Definition last_part (y : list R) (i j : nat) : R :=
  if Nat.eqb i j then (if Rlt_dec (nth 0 y 0) (3/4) then 1 else 4) else 0.
Definition at_quarter (g : list nat) (t : list R) : list R := [(INR (nth 0 g 0%nat) + nth 0 t 0) * (1/4)].
Definition three_patch (cs : list nat) : patch :=
  let c := nth 0 cs 0%nat in
  {| pa_cells := [3]%nat; pa_edges := [1/4]; pa_low := [- (INR c / 2)]; pa_num := first_node; pa_n := 4;
     pa_con := fun i => Nat.eqb i 0 || Nat.eqb i 3; pa_inside := fun f => Nat.leb c (nth 0 f 0%nat) && Nat.ltb (nth 0 f 0%nat) (c + 2);
     pa_global := fun f x => at_quarter [(c * 2 + nth 0 f 0 - c)%nat] x |}.
Definition pulled (x : list nat -> nat -> nat -> R) : interval :=
  {| iv_n := 2; iv_m := 2; iv_N := 3; iv_Nf := 5; iv_H := 1/2; iv_num := first_node; iv_numf := first_node;
     iv_diffusion := last_part; iv_source := fun _ => 0; iv_neumann := fun _ => 1;
     iv_global := at_quarter; iv_a := fun g => if Nat.eqb g 3 then 4 else 1;
     iv_order := 2; iv_rhs_order := 3; iv_o := 3; iv_fo := 3; iv_pa := three_patch; iv_x := x;
     iv_rq := fun _ => cube_rule 1 3; iv_rqf := fun _ => cube_rule 1 3;
     iv_nl := false; iv_nr := true; iv_left := [0]; iv_right := [1];
     iv_con := fun i => Nat.eqb i 0; iv_g := fun _ => 0; iv_conf := fun i => Nat.eqb i 0; iv_gf := fun _ => 0 |}.

Lemma last_part_positive : forall y, positive 1 (last_part y).
Proof.
  intros y z (k & Lk & Z). assert (k = 0)%nat by lia. subst. unfold dot, mv, last_part. cbn [rsum Nat.eqb].
  assert (0 < z 0%nat * z 0%nat) by (destruct (Rlt_dec 0 (z 0%nat)); nra). destruct (Rlt_dec (nth 0 y 0) (3/4)); nra.
Qed.
Lemma last_means : forall g, (g < 4)%nat -> mean last_part at_quarter (product_rule (line_rule 2) 1) g = if Nat.eqb g 3 then 4 else 1.
Proof.
  intros g L. pose proof sqrt3_bounds as B. unfold mean, last_part, at_quarter. cbn [product_rule line_rule flat_map map app lsum fst snd nth Nat.eqb].
  destruct g as [|[|[|[|]]]]; try lia; cbn [Nat.eqb INR].
  1-3: destruct (Rlt_dec _ _); [|lra]; destruct (Rlt_dec _ _); [|lra]; lra.
  destruct (Rlt_dec _ _); [lra|]. destruct (Rlt_dec _ _); [lra|]. lra.
Qed.

Example C128_case : exists x u uh, let k := fun c : nat => c in let M := fun _ => 3%nat in
  sound_layers (pulled x) k M /\ driven_by_flux (pulled x) k 1 /\ wide_result (pulled x) k u /\ fine_result (pulled x) (fun _ => 0) uh /\
  kappa (pulled x) 1 = 8/5 /\ kappa_patch (pulled x) k M 1 = 4/3 /\ u 2%nat = 19/20 /\ uh 4%nat = 13/16.
Proof.
  assert (Nn : forall n, numbering [n] first_node (S n)) by apply line_numbering.
  assert (Sp : forall cs, sound 1 (three_patch cs)).
  { intros cs. repeat (split; [reflexivity|]). split; [repeat constructor|]. split; [repeat constructor; cbn; lra|apply Nn]. }
  destruct (proj1 (C112_local_functions_are_determined [2]%nat [1/2] first_node 3 (fun i => Nat.eqb i 0) three_patch last_part 2 3 (line_rule 2) (fun _ _ => [])
    (fun _ _ _ => 0) (fun _ => []) (fun _ => 0) (fun _ => 0) (fun _ => 0) eq_refl last_part_positive ltac:(cbn; lia)
    ltac:(intros cs _; split; [apply Sp|exists 0%nat; split; [cbn; lia|reflexivity]]))) as (x0 & X0).
  (* boundary correctors zero *)
  set (x := fun cs i m => if Nat.ltb i 2 then x0 cs i m else 0).
  destruct (C110_reference_solution_exists_once [4]%nat [1/4] first_node 5 last_part at_quarter (line_rule 2) (fun _ => cube_rule 1 3)
      (end_faces 4 false true [0] [1]) (fun i => Nat.eqb i 0) (fun y => 0) (fun _ => 1) (fun _ => 0) (fun _ => 0)) as ((uh & Uh) & _); auto.
  - repeat constructor.
  - repeat constructor. lra.
  - apply two_gauss.
  - intros y. apply last_part_positive.
  - exists 0%nat. split; [lia|reflexivity].
  - assert (Hh : iv_h (pulled x) = 1/4) by (unfold iv_h; cbn; lra).
    set (k := fun c : nat => c). set (M := fun _ : nat => 3%nat).
    assert (S : sound_layers (pulled x) k M).
    { unfold sound_layers, widened. rewrite Hh. cbn [pulled iv_n iv_m iv_N iv_Nf iv_H iv_num iv_numf iv_diffusion iv_source iv_neumann iv_global iv_a
          iv_order iv_rhs_order iv_o iv_fo iv_pa iv_x iv_rq iv_rqf iv_nl iv_nr iv_left iv_right iv_con iv_g iv_conf iv_gf].
      split; [lia|]. split; [lia|]. split; [lra|]. split; [apply Nn|]. split; [apply Nn|].
      split. { intros c Lc. unfold k, M. split; [lia|]. split; [lia|]. split; [lia|]. split; [reflexivity|]. split; [reflexivity|].
        split; [reflexivity|]. split; [apply Nn|].
        split. { intros js N. apply node_line in N. destruct N as (j & L & ->). destruct j as [|[|[|[|]]]]; try lia; reflexivity. }
        split; [reflexivity|]. intros f y Lf. reflexivity. }
      split. { intros g Lg. split; [destruct (Nat.eqb g 3); lra|]. intros rule J. rewrite <- last_means by exact Lg.
        destruct J as [<-|[<-|[<-|[<-|[<-|[]]]]]]; reflexivity. }
      split. { intros c Lc i Li. destruct (X0 [c]) as (X & _); [destruct c as [|[|]]; [now left|right; now left|lia]|].
        specialize (X i Li). unfold x. cbn [corners map app length] in Li. destruct (Nat.ltb_spec i 2); [exact X|lia]. }
      intros g q J. now apply (rule_length _ _ _ J). }
    assert (D : driven_by_flux (pulled x) k 1).
    { split; [reflexivity|]. split. { intros c _. unfold moved. cbn. ring. } repeat (split; [reflexivity|]). split; intros g _; reflexivity. }
    assert (F : fine_result (pulled x) (fun _ => 0) uh) by (unfold fine_result, fine_line; rewrite Hh; exact Uh).
    assert (K0 : kappa (pulled x) 0 = 1) by (unfold kappa, harmonic; cbn; field).
    assert (K1 : kappa (pulled x) 1 = 8/5) by (unfold kappa, harmonic; cbn; field).
    assert (P0 : kappa_patch (pulled x) k M 0 = 1) by (unfold kappa_patch; cbn; field).
    assert (P1 : kappa_patch (pulled x) k M 1 = 4/3) by (unfold kappa_patch; cbn; field).
    set (u := fun i => match i with 0%nat => 0 | 1%nat => 1/2 | _ => 19/20 end).
    assert (U : wide_result (pulled x) k u).
    { apply (C128_driven_by_flux (pulled x) k M 1 u S D). split; [reflexivity|]. intros c Lc. destruct c as [|[|]]; [| |cbn in Lc; lia].
      - rewrite K0, P0. cbn. field.
      - rewrite K1, P1. cbn. field. }
    exists x, u, uh. cbv zeta. split; [exact S|]. split; [exact D|]. split; [exact U|]. split; [exact F|]. split; [exact K1|]. split; [exact P1|].
    split; [reflexivity|].
    pose proof (C128_increments (pulled x) k M 1 _ u uh S D U F 0 ltac:(cbn; lia)) as I0.
    pose proof (C128_increments (pulled x) k M 1 _ u uh S D U F 1 ltac:(cbn; lia)) as I1.
    pose proof (o_left (pulled x) k M S 1 _ uh D F) as Z. rewrite K0, P0 in I0. rewrite K1, P1 in I1. cbn in I0, I1, Z. lra.
Qed.
