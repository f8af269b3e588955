(** C131: on an interval the multiscale solution is near the reference solution,
    however fast the diffusion changes. *)
From Coq Require Import Reals List Arith Bool Lra Lia.
From Verif Require Import Util RSum QuadModel QuadProofs PatchSpec PatchProofs LayerSpec LayerProofs MaxProofs LineSpec LineProofs LineProps OverSpec ConvSpec ConvProofs.
Import ListNotations.
Open Scope R_scope.

(** Bounded source: the flow, the values and the energy norm of the error are of
    first order in the width of the coarse cells.  The factors contain the length
    of the interval, the bound of the source and the smallest value of the
    diffusion. *)
Theorem C131_first_order : forall I start u uh F, sound_interval I -> coarse_result I u -> fine_result I start uh -> bounded_source I F ->
  (forall c f, (c < iv_n I)%nat -> (f < iv_m I)%nat ->
     Rabs (flow I (inner_at I u) c f - flow I (reference_at I uh) c f) <= 3 * iv_H I * F) /\
  forall al, diffusion_from I al ->
    energy_of I (fun c j => inner_at I u c j - reference_at I uh c j) <= INR (iv_n I) * iv_H I * (3 * iv_H I * F) ^ 2 / al /\
    (left_constrained I \/ right_constrained I -> forall c j, (c < iv_n I)%nat -> (j <= iv_m I)%nat ->
       Rabs (multiscale_at I u c j - reference_at I uh c j) <=
       (2 * (INR (iv_n I) * iv_H I) + 3 * iv_H I) * iv_H I * F / al + Rabs (boundary_at I c j)).
Proof.
  intros I start u uh F S0 Su Sf Bs. assert (Bm : forall c, (c < iv_n I)%nat -> Rabs (iv_h I * mis I c) <= iv_H I * F) by (intros; now apply misplaced_bounded).
  split; [|intros al Da; split].
  - intros c f Lc Lf. eapply Rle_trans; [exact (flow_error I start u uh S0 Su Sf F Bs _ Bm c f Lc Lf)|]. lra.
  - eapply Rle_trans; [exact (energy_error I start u uh S0 Su Sf F Bs _ Bm al Da)|]. apply Req_le. f_equal. f_equal. ring.
  - intros E c j Lc Lj. unfold multiscale_at. pose proof (value_error I start u uh S0 Su Sf F Bs _ Bm al Da c j Lc Lj E) as V.
    replace (inner_at I u c j + boundary_at I c j - reference_at I uh c j) with (inner_at I u c j - reference_at I uh c j + boundary_at I c j) by ring.
    eapply Rle_trans; [apply Rabs_triang|]. apply Rplus_le_compat_r. eapply Rle_trans; [exact V|]. apply Req_le. destruct Da. field. lra.
Qed.
Print Assumptions C131_first_order.

(** Source that changes at most [K] times the distance: second order at all
    nodes. *)
Theorem C131_second_order : forall I start u uh y0 F K al, sound_interval I -> coarse_result I u -> fine_result I start uh ->
  bounded_source I F -> smooth_source I y0 K -> diffusion_from I al -> left_constrained I \/ right_constrained I ->
  (forall c, (c <= iv_n I)%nat -> Rabs (difference_at I u uh c) <= INR (iv_n I) * iv_H I * K * iv_H I ^ 2 / al) /\
  forall c j, (c < iv_n I)%nat -> (j <= iv_m I)%nat ->
    Rabs (multiscale_at I u c j - reference_at I uh c j) <=
    (INR (iv_n I) * iv_H I * K + iv_H I * K + F) * iv_H I ^ 2 / al + Rabs (boundary_at I c j).
Proof.
  intros I start u uh y0 F K al S0 Su Sf Bs Sm Da E.
  assert (Bm : forall c, (c < iv_n I)%nat -> Rabs (iv_h I * mis I c) <= K * iv_H I ^ 2 / 2) by (intros; now apply (misplaced_smooth I y0)).
  split.
  - intros c Lc. eapply Rle_trans; [exact (node_error I start u uh S0 Su Sf _ Bm al Da c Lc E)|]. apply Req_le. destruct Da. field. lra.
  - intros c j Lc Lj. unfold multiscale_at. pose proof (value_error I start u uh S0 Su Sf F Bs _ Bm al Da c j Lc Lj E) as V.
    replace (inner_at I u c j + boundary_at I c j - reference_at I uh c j) with (inner_at I u c j - reference_at I uh c j + boundary_at I c j) by ring.
    eapply Rle_trans; [apply Rabs_triang|]. apply Rplus_le_compat_r. eapply Rle_trans; [exact V|]. apply Req_le. destruct Da. field. lra.
Qed.
Print Assumptions C131_second_order.

(** The order of the flow cannot be improved: with a constant source and at least
    two fine cells, the flow is wrong by nearly half the source times the width
    in one of the fine cells of every coarse cell. *)
Theorem C131_flow_is_of_first_order_only : forall I start u uh y0 s0, sound_interval I -> fine_result I start uh ->
  affine_source I y0 s0 0 -> forall c, (c < iv_n I)%nat -> exists f, (f < iv_m I)%nat /\
  Rabs s0 * (iv_H I - iv_h I) / 2 <= Rabs (flow I (inner_at I u) c f - flow I (reference_at I uh) c f).
Proof.
  intros I start u uh y0 s0 S0 Sf A c Lc. pose proof (Lm I S0) as Lm_.
  pose proof (flow_drops I start uh y0 s0 S0 Sf A c (iv_m I - 1) Lc ltac:(lia)) as D.
  pose proof (inner_flow I u S0 c 0 Lc Lm_) as P. pose proof (inner_flow I u S0 c (iv_m I - 1) Lc ltac:(lia)) as Q.
  rewrite <- P in Q. rewrite minus_INR in D by lia. cbn [INR] in D.
  assert (X : (INR (iv_m I) - 1) * (s0 * iv_h I) = s0 * (iv_H I - iv_h I)) by (rewrite <- (Hmh I S0); ring).
  rewrite X in D. clear X. assert (W : 0 <= iv_H I - iv_h I).
  { rewrite <- (Hmh I S0). pose proof (Lh I S0). assert (1 <= INR (iv_m I)) by (change 1 with (INR 1); now apply le_INR). nra. }
  assert (V : Rabs s0 * (iv_H I - iv_h I) = Rabs (s0 * (iv_H I - iv_h I))) by (rewrite Rabs_mult, (Rabs_pos_eq (iv_H I - iv_h I)) by exact W; reflexivity).
  rewrite V, <- D.
  set (p := flow I (inner_at I u) c 0) in *. set (a := flow I (reference_at I uh) c 0) in *. set (b := flow I (reference_at I uh) c (iv_m I - 1)) in *.
  destruct (Rle_dec (Rabs (a - b) / 2) (Rabs (p - a))) as [Y|Y]; [exists 0%nat; split; [exact Lm_|exact Y]|].
  exists (iv_m I - 1)%nat. split; [lia|]. rewrite Q. fold b. apply Rnot_le_lt in Y.
  pose proof (Rabs_triang (p - b) (a - p)) as T. replace (p - b + (a - p)) with (a - b) in T by ring. rewrite (Rabs_minus_sym a p) in T. lra.
Qed.
Print Assumptions C131_flow_is_of_first_order_only.

(** Diffusion with period of [p] fine cells, whole numbers of periods in a coarse
    cell: the coefficient of the coarse system is the harmonic mean over one
    period in all cells, whatever the number of periods. *)
Theorem C131_periodic_diffusion : forall I p l u, (0 < p)%nat -> iv_m I = (l * p)%nat -> sound_interval I ->
  (forall g, (g + p < iv_n I * iv_m I)%nat -> iv_a I (g + p)%nat = iv_a I g) ->
  forall c f, (c < iv_n I)%nat -> (f < iv_m I)%nat ->
  flow I (inner_at I u) c f = INR p / rsum p (fun k => / iv_a I k) * ((u (iv_num I [S c]) - u (iv_num I [c])) / iv_H I).
Proof.
  intros I p l u Lp M S0 Per c f Lc Lf. rewrite (inner_flow I u S0 c f Lc Lf), (periodic_mean I p l Lp M S0 Per c Lc). unfold Rdiv. ring.
Qed.
Print Assumptions C131_periodic_diffusion.

(** * Concrete case: the case of C127 (diffusion 1 and 3, source [y]) meets the
    assumptions; its error -1/36 is within the bound 1. *)
Example C131_case : exists x u uh, sound_interval (ramp x) /\ coarse_result (ramp x) u /\ fine_result (ramp x) (fun _ => 0) uh /\
  bounded_source (ramp x) 1 /\ smooth_source (ramp x) 0 1 /\ diffusion_from (ramp x) 1 /\ left_constrained (ramp x) /\
  difference_at (ramp x) u uh 1 = - (1/36).
Proof.
  destruct C127_case as (x & u & uh & S0 & Su & Sf & A & L & _ & _ & D). exists x, u, uh.
  assert (Hh : iv_h (ramp x) = 1/2) by (unfold iv_h; cbn; lra).
  split; [exact S0|]. split; [exact Su|]. split; [exact Sf|]. split; [|split; [|split; [|split; [exact L|exact D]]]].
  - split; [intros g _; apply gauss_ordinary; lia|]. intros g q Lg J. destruct (gauss_ordinary 3 ltac:(lia)) as (O & _). destruct (O q J) as (_ & T).
    cbn [ramp halves iv_source iv_global]. unfold at_place. cbn [nth]. cbn [ramp halves iv_n iv_m Nat.mul Nat.add] in Lg.
    assert (0 <= INR g <= 1) by (destruct g as [|[|]]; [cbn; lra|cbn; lra|lia]). apply Rabs_le. lra.
  - split; [|split].
    + intros y z. cbn. lra.
    + intros g t _. rewrite Hh. reflexivity.
    + intros g. exists 3%nat. split; [lia|reflexivity].
  - split; [lra|]. intros g _. cbn. destruct (Nat.eqb g 0); lra.
Qed.

(** The same with the constant source one: a flow is wrong by a quarter. *)
Definition flat : (list nat -> nat -> nat -> R) -> interval := halves (fun _ => 1).
Example C131_constant_source_case : exists x u uh, sound_interval (flat x) /\ coarse_result (flat x) u /\
  fine_result (flat x) (fun _ => 0) uh /\ affine_source (flat x) 0 1 0 /\
  (forall g, (g + 2 < iv_n (flat x) * iv_m (flat x))%nat -> iv_a (flat x) (g + 2)%nat = iv_a (flat x) g) /\
  exists f, (f < 2)%nat /\ 1/4 <= Rabs (flow (flat x) (inner_at (flat x) u) 0 f
    - flow (flat x) (reference_at (flat x) uh) 0 f).
Proof.
  destruct (halves_results (fun _ => 1)) as (x & u & uh & S0 & Su & Sf). fold (flat x) in *. exists x, u, uh.
  assert (Hh : iv_h (flat x) = 1/2) by (unfold iv_h; cbn; lra).
  assert (A : affine_source (flat x) 0 1 0).
  { split; [intros y; cbn; ring|]. split; [intros g t _; rewrite Hh; reflexivity|]. intros g. exists 3%nat. split; [lia|reflexivity]. }
  split; [exact S0|]. split; [exact Su|]. split; [exact Sf|]. split; [exact A|]. split; [intros g Lg; cbn in Lg; lia|].
  destruct (C131_flow_is_of_first_order_only _ _ u uh 0 1 S0 Sf A 0%nat ltac:(cbn; lia)) as (f & Lf & B).
  exists f. split; [exact Lf|]. eapply Rle_trans; [|exact B]. rewrite Hh, Rabs_R1. cbn. lra.
Qed.
