(** Theorems about the range of the multiscale solution: C139. *)
From Coq Require Import Reals List Arith Bool Lra Lia.
From Verif Require Import Util RSum SpeModel BoundaryModel BoundarySpec BoundaryProofs CoarseModel CoarseSpec LinModel LinSpec LinProofs.
From Verif Require Import SystemModel SystemSpec SystemProofs QuadModel PatchSpec PatchProofs PatchProps SolveSpec SolveProofs SolveProps.
From Verif Require Import LayerSpec LayerProofs WholeSpec WholeProofs MaxSpec MaxProofs MaxProps BoundsSpec BoundsProofs ContrastSpec ContrastProofs.
From Verif Require Import CoarseProofs RaiseSpec RaiseProofs RaiseProps LeaveSpec LeaveProofs.
From Verif Require Import WholeProps.
From Verif Require BoundsProps ContrastProps.
Import ListNotations.
Open Scope R_scope.

(** Energies of all coarse functions, cell by cell. *)
Lemma total_form : forall ns hs num n diffusion order rhs_order o pa rquad x fs source neumann M V kappa u,
  length ns = 2%nat -> length hs = 2%nat -> Forall (Rlt 0) hs -> numbering ns num n ->
  (2 <= gauss_points order <= 3)%nat -> (2 <= gauss_points rhs_order <= 3)%nat -> (2 <= gauss_points o <= 3)%nat ->
  (forall cs, In cs (cells ns) -> no_oversampling hs (pa cs) /\ quartered hs (pa cs) diffusion (kappa cs) /\
     corrected hs num diffusion order rhs_order (pa cs) cs (x cs)) ->
  walk 2 (list R) diffusion source neumann (fun _ _ => 0) (fun _ => 0)
    (patched ns hs num pa (line_rule (gauss_points o)) rquad x fs) = Some (M, V) ->
  qform n M u = lsum (cells ns) (fun cs => cell_form (nth 0 hs 1) (nth 1 hs 1) (kappa cs) (fun js => u (num js)) cs).
Proof.
  intros ns hs num n diffusion order rhs_order o pa rquad x fs source neumann M V kappa u Ln Lh Fh Nu Og Or Oo H W.
  assert (W0 : exists r, walk 2 (list R) diffusion source neumann (fun _ _ => 0) (fun _ => 0)
    (patched ns hs num pa (line_rule (gauss_points o)) rquad (fun _ _ _ => 0) fs) = Some r).
  { apply walk_some. intros c f I. destruct (patched_in _ _ _ _ _ _ _ _ _ _ I) as (cs & J & -> & _). reflexivity. }
  destruct W0 as ((M0, V0) & W0).
  rewrite (C138_what_correctors_change ns hs num n diffusion order rhs_order o pa rquad x fs source neumann M V M0 V0 kappa u); auto.
  rewrite (C138_without_correctors ns hs num n diffusion o pa rquad fs source neumann M0 V0 kappa u); auto; [|intros cs I; destruct (H cs I) as (? & ? & _); auto].
  rewrite <- lsum_plus. apply lsum_ext. intros cs I. pose proof (cells_length _ _ I) as Lc. rewrite Ln in Lc.
  destruct cs as [|a [|b [|? ?]]]; try discriminate. unfold cell_form. f_equal.
  destruct hs as [|h1 [|h2 [|? ?]]]; try discriminate. inversion Fh as [|? ? ? Fh']; subst. inversion Fh'; subst. cbn [nth].
  now apply gradient_square_plane.
Qed.

(** Entry of the coarse matrix for opposite corners of a coarse cell, with
    correctors, and without. *)
Theorem C139_opposite_corners : forall ns hs num n diffusion order rhs_order o pa rquad x fs source neumann M V kappa a b,
  length ns = 2%nat -> length hs = 2%nat -> Forall (Rlt 0) hs -> numbering ns num n -> (forall y, sym 2 (diffusion y)) ->
  (2 <= gauss_points order <= 3)%nat -> (2 <= gauss_points rhs_order <= 3)%nat -> (2 <= gauss_points o <= 3)%nat ->
  (forall cs, In cs (cells ns) -> no_oversampling hs (pa cs) /\ quartered hs (pa cs) diffusion (kappa cs) /\
     corrected hs num diffusion order rhs_order (pa cs) cs (x cs)) ->
  walk 2 (list R) diffusion source neumann (fun _ _ => 0) (fun _ => 0)
    (patched ns hs num pa (line_rule (gauss_points o)) rquad x fs) = Some (M, V) ->
  In [a; b] (cells ns) ->
  let h1 := nth 0 hs 1 in let h2 := nth 1 hs 1 in let k := kappa [a; b] in
  let d1 := h2 / h1 * lower_upper1 k in let d2 := h1 / h2 * lower_upper2 k in
  M (num [a; b]) (num [S a; S b]) = opposite_entry h1 h2 k (d1 + d2) /\
  M (num [S a; b]) (num [a; S b]) = opposite_entry h1 h2 k (d1 - d2).
Proof.
  intros ns hs num n diffusion order rhs_order o pa rquad x fs source neumann M V kappa a b Ln Lh Fh Nu Sy Og Or Oo H W I h1 h2 k d1 d2.
  pose proof (walk_symmetric _ _ _ _ _ _ _ _ Sy W) as Sm.
  assert (Hp : 0 < h1 /\ 0 < h2).
  { unfold h1, h2. destruct hs as [|? [|? [|? ?]]]; try discriminate. inversion Fh as [|? ? ? Fh']; subst. inversion Fh'; subst. auto. }
  assert (Kp : 0 < all_parts k).
  { destruct (H _ I) as (_ & (_ & _ & Qp) & _). fold k in Qp. unfold all_parts. pose proof (Qp [0; 0]%nat ltac:(cbn; tauto)).
    pose proof (Qp [0; 1]%nat ltac:(cbn; tauto)). pose proof (Qp [1; 0]%nat ltac:(cbn; tauto)). pose proof (Qp [1; 1]%nat ltac:(cbn; tauto)). lra. }
  assert (Nc : forall js, In js (corners [a; b]) -> node ns js) by (intros js J; now apply (corner_node ns [a; b])).
  assert (E : forall js js', In js (corners [a; b]) -> In js' (corners [a; b]) ->
    (forall c d, In js (corners [c; d]) -> In js' (corners [c; d]) -> c = a /\ d = b) ->
    M (num js) (num js') = polar h1 h2 k (fun l => hat (num js') (num l)) (fun l => hat (num js) (num l)) [a; b]).
  { intros js js' J J' On. rewrite (entry_polar n M (num js) (num js')) by (auto; apply Nu; auto).
    rewrite !(total_form ns hs num n diffusion order rhs_order o pa rquad x fs source neumann M V kappa) by auto. fold h1 h2.
    transitivity (lsum (cells ns) (fun cs => polar h1 h2 (kappa cs) (fun l => hat (num js') (num l)) (fun l => hat (num js) (num l)) cs)).
    { unfold polar. rewrite (lsum_ext _ (cells ns) (fun cs => (_ - _ - _) / 2) (fun cs => / 2 * cell_form h1 h2 (kappa cs) (fun l => hat (num js') (num l) + hat (num js) (num l)) cs
        + (- / 2) * cell_form h1 h2 (kappa cs) (fun l => hat (num js') (num l)) cs + (- / 2) * cell_form h1 h2 (kappa cs) (fun l => hat (num js) (num l)) cs)) by (intros; field).
      rewrite !lsum_plus, !lsum_scale. field. }
    rewrite (lsum_only _ (cells ns) _ [a; b] (cells_NoDup ns) I); [reflexivity|].
    intros cs Ic Ne. pose proof (cells_length _ _ Ic) as Lc. rewrite Ln in Lc. destruct cs as [|c [|d [|? ?]]]; try discriminate.
    assert (Z : forall l, In l (corners [a; b]) -> ~ In l (corners [c; d]) -> forall l', In l' (corners [c; d]) -> hat (num l) (num l') = 0).
    { intros l J1 Nl l' J2. unfold hat. destruct (Nat.eqb_spec (num l') (num l)) as [Q|]; [|reflexivity].
      apply Nu in Q; [subst; contradiction|apply (corner_node ns [c; d]); auto|auto]. }
    destruct (in_dec (list_eq_dec Nat.eq_dec) js' (corners [c; d])) as [K'|K'].
    - destruct (in_dec (list_eq_dec Nat.eq_dec) js (corners [c; d])) as [K|K].
      + destruct (On c d K K') as (-> & ->). congruence.
      + rewrite polar_sym. apply polar_zero. intros l' J2. now apply Z.
    - apply polar_zero. intros l' J2. now apply Z. }
  assert (Hv : forall js, In js (corners [a; b]) -> forall l, In l (corners [a; b]) -> hat (num js) (num l) = if list_eq_dec Nat.eq_dec l js then 1 else 0).
  { intros js J l Jl. unfold hat. destruct (list_eq_dec Nat.eq_dec l js) as [->|Nl]; [now rewrite Nat.eqb_refl|].
    destruct (Nat.eqb_spec (num l) (num js)) as [Q|]; [|reflexivity]. apply Nu in Q; auto. contradiction. }
  assert (C : forall c d, In [c; d] (corners [a; b]) <-> (c = a \/ c = S a) /\ (d = b \/ d = S b)).
  { intros c d. cbn [corners map app In]. split.
    - intros [E'|[E'|[E'|[E'|[]]]]]; injection E' as <- <-; auto.
    - intros ([->| ->] & [->| ->]); tauto. }
  cbn [corners map app In] in Hv.
  assert (Pc : 0 < h2 / h1 /\ 0 < h1 / h2) by (split; apply Rdiv_lt_0_compat; tauto).
  assert (Nl : forall m, m <> S m) by (intros; lia).
  split.
  - rewrite (E [a; b] [S a; S b]); [|apply C; auto|apply C; auto|].
    2:{ clear. intros c d J J'. cbn [corners map app In] in *. destruct J as [J|[J|[J|[J|[]]]]], J' as [J'|[J'|[J'|[J'|[]]]]]; injection J as ? ?; injection J' as ? ?; lia. }
    unfold polar, cell_form, plain, raised, linear_load, twisted_load, side1, side2, twist, middle_energy. rewrite !Hv by tauto.
    repeat (destruct (list_eq_dec _ _ _) as [Q|Q]; [try (exfalso; injection Q; lia)|try (exfalso; apply Q; reflexivity)]; clear Q).
    unfold opposite_entry, d1, d2. generalize dependent (h2 / h1). generalize dependent (h1 / h2). intros. field. repeat split; lra.
  - rewrite (E [S a; b] [a; S b]); [|apply C; auto|apply C; auto|].
    2:{ clear. intros c d J J'. cbn [corners map app In] in *. destruct J as [J|[J|[J|[J|[]]]]], J' as [J'|[J'|[J'|[J'|[]]]]]; injection J as ? ?; injection J' as ? ?; lia. }
    unfold polar, cell_form, plain, raised, linear_load, twisted_load, side1, side2, twist, middle_energy. rewrite !Hv by tauto.
    repeat (destruct (list_eq_dec _ _ _) as [Q|Q]; [try (exfalso; injection Q; lia)|try (exfalso; apply Q; reflexivity)]; clear Q).
    unfold opposite_entry, d1, d2. generalize dependent (h2 / h1). generalize dependent (h1 / h2). intros. field. repeat split; lra.
Qed.
Print Assumptions C139_opposite_corners.

(** On squares: when the entry is positive; p, q, r, s are the diffusions of the
    lower left, upper left, lower right and upper right part. *)
Theorem C139_positive_entry : forall h k, 0 < h -> (forall f, In f (cells [2; 2]%nat) -> 0 < k f) ->
  let d := lower_upper1 k + lower_upper2 k in
  let p := k [0; 0]%nat in let q := k [0; 1]%nat in let r := k [1; 0]%nat in let s := k [1; 1]%nat in
  (0 < opposite_entry h h k d <-> 8 * ((p + q + r + s) * (p + q + r + s)) < 3 * ((q + r - p - s) * (q + r - p - s)) + 9 * ((p - s) * (p - s))) /\
  (q + r = p + s \/ p = s -> opposite_entry h h k d < 0).
Proof.
  intros h k Ph K d p q r s. pose proof (K [0; 0]%nat ltac:(cbn; tauto)) as P0. pose proof (K [0; 1]%nat ltac:(cbn; tauto)) as P1.
  pose proof (K [1; 0]%nat ltac:(cbn; tauto)) as P2. pose proof (K [1; 1]%nat ltac:(cbn; tauto)) as P3. fold p q r s in P0, P1, P2, P3.
  assert (E : opposite_entry h h k d = (3 * ((q + r - p - s) * (q + r - p - s)) + 9 * ((p - s) * (p - s)) - 8 * ((p + q + r + s) * (p + q + r + s)))
    * / (96 * (p + q + r + s))).
  { unfold opposite_entry, d, lower_upper1, lower_upper2, across, all_parts. fold p q r s. field. lra. }
  assert (Pi : 0 < / (96 * (p + q + r + s))) by (apply Rinv_0_lt_compat; lra). rewrite E. clear E. set (i := / _) in *.
  set (n := _ - _). split; [split; intros H|intros H].
  - destruct (Rle_or_lt n 0) as [N|N]; [|unfold n in N; lra]. exfalso. assert (n * i <= 0 * i) by (apply Rmult_le_compat_r; lra). lra.
  - apply Rmult_lt_0_compat; [unfold n; lra|exact Pi].
  - assert (n < 0); [|assert (n * i < 0 * i) by (apply Rmult_lt_compat_r; lra); lra]. unfold n. destruct H as [H|H].
    + replace (q + r - p - s) with 0 by lra. nra.
    + replace (p - s) with 0 by lra. nra.
Qed.
Print Assumptions C139_positive_entry.

(** With gradients at the right places the corrected functions of two opposite
    corners would always have a negative energy product in a square. *)
Theorem C139_at_the_right_places : forall h diffusion order rhs_order p k a b c c' y y' r r',
  0 < h -> (2 <= gauss_points order <= 3)%nat -> (2 <= gauss_points rhs_order <= 3)%nat ->
  no_oversampling [h; h] p -> quartered [h; h] p diffusion k ->
  (c, c') = ([a; b], [S a; S b]) \/ (c, c') = ([S a; b], [a; S b]) ->
  (forall js, node [2; 2]%nat js -> y (pa_num p js) = restricted [h; h] p (at_corner c) [a; b] js) ->
  (forall js, node [2; 2]%nat js -> y' (pa_num p js) = restricted [h; h] p (at_corner c') [a; b] js) ->
  corrector 2 (patch_points 2 order diffusion p) (patch_points 2 rhs_order diffusion p) (pa_n p) (pa_con p) (field_of (pa_n p) y) r ->
  corrector 2 (patch_points 2 order diffusion p) (patch_points 2 rhs_order diffusion p) (pa_n p) (pa_con p) (field_of (pa_n p) y') r' ->
  LinSpec.energy 2 (patch_points 2 order diffusion p) (field_of (pa_n p) (fun i => y i + r i)) (field_of (pa_n p) (fun i => y' i + r' i)) < 0.
Proof.
  intros h diffusion order rhs_order p k a b c c' y y' r r' Ph Og Or No Qu Cc Y Y' C C'.
  assert (Fh : Forall (Rlt 0) [h; h]) by (repeat constructor; lra).
  destruct (right_values h h diffusion order rhs_order p a b k Fh No Qu Og Or (at_corner c) y r Y C) as (_ & T0).
  destruct (right_values h h diffusion order rhs_order p a b k Fh No Qu Og Or (at_corner c') y' r' Y' C') as (_ & T1).
  destruct (right_pair h h diffusion order rhs_order p a b k Fh No Qu Og Or (at_corner c) (at_corner c') y y' r r' Y Y' C C')
    as (g1 & g2 & P1 & P2 & H1 & H2 & ->).
  destruct Qu as (_ & _ & Qp). pose proof (Qp [0; 0]%nat ltac:(cbn; tauto)) as K0. pose proof (Qp [0; 1]%nat ltac:(cbn; tauto)) as K1.
  pose proof (Qp [1; 0]%nat ltac:(cbn; tauto)) as K2. pose proof (Qp [1; 1]%nat ltac:(cbn; tauto)) as K3.
  unfold four, co0, co1, co2, co3. rewrite !T0, !T1 by lia. clear - Cc Ph P1 P2 H1 H2 K0 K1 K2 K3. cbn [INR volume fold_right].
  unfold part_form, linear_load, twisted_load, side1, side2, twist, lower_upper1, lower_upper2, across, middle_energy, all_parts.
  set (p := k [0; 0]%nat) in *. set (q := k [0; 1]%nat) in *. set (r := k [1; 0]%nat) in *. set (s := k [1; 1]%nat) in *. clearbody p q r s.
  assert (Ac : forall js, at_corner js js = 1) by (intros; unfold at_corner; now destruct list_eq_dec).
  assert (An : forall js js', js' <> js -> at_corner js js' = 0) by (intros; unfold at_corner; now destruct list_eq_dec).
  assert (N1 : S a <> a) by lia. assert (N2 : S b <> b) by lia. assert (g2 = g1) by lra. subst g2. subst h.
  destruct Cc as [E|E]; injection E as -> ->.
  - repeat rewrite ?Ac. rewrite !An by congruence.
    match goal with |- ?e < 0 => replace e with (- ((7/4 * ((p + s) * (q + r)) + 9/8 * ((q + r) * (q + r)) + 9/2 * (p * s)) / (12 * (p + q + r + s)))) by (field; lra) end.
    apply Ropp_lt_gt_0_contravar, Rdiv_lt_0_compat; nra.
  - repeat rewrite ?Ac. rewrite !An by congruence.
    match goal with |- ?e < 0 => replace e with (- ((7/4 * ((q + r) * (p + s)) + 9/8 * ((p + s) * (p + s)) + 9/2 * (q * r)) / (12 * (p + q + r + s)))) by (field; lra) end.
    apply Ropp_lt_gt_0_contravar, Rdiv_lt_0_compat; nra.
Qed.
Print Assumptions C139_at_the_right_places.

(** * Three by three coarse cells *)
Definition num4 (js : list nat) : nat := match js with [a; b] => a + 4 * b | _ => 16 end.
Definition outer16 (i : nat) : bool := outer_node [3; 3]%nat [i mod 4; i / 4]%nat.
Definition ninth (cs : list nat) : patch :=
  {| pa_cells := [2; 2]%nat; pa_edges := [1/2; 1/2]; pa_low := [0; 0]; pa_num := num3; pa_n := 9; pa_con := outer9;
     pa_inside := fun _ => true;
     pa_global := fun fs x => map (fun t => fst t + snd t / 2)
       (combine (map INR cs) (map (fun t => INR (fst t) + snd t) (combine fs x))) |}.
(** Diffusion 97 in the lower left part of the middle cell, 1000 in three
    cells at the boundary, 1 elsewhere. *)
Definition half_index (c : R) : nat :=
  if Rlt_dec c (1/2) then 0%nat else if Rlt_dec c 1 then 1%nat else if Rlt_dec c (3/2) then 2%nat else
  if Rlt_dec c 2 then 3%nat else if Rlt_dec c (5/2) then 4%nat else 5%nat.
Definition strength (f : list nat) : R :=
  match f with
  | [i; j] => if Nat.eqb i 2 && Nat.eqb j 2 then 97
              else match Nat.div2 i, Nat.div2 j with 0%nat, 0%nat => 1000 | 0%nat, 2%nat => 1000 | 2%nat, 0%nat => 1000 | _, _ => 1 end
  | _ => 1
  end.
Definition spots (y : list R) : nat -> nat -> R := times_unit strength (map half_index y).
Definition parts_of (cs f : list nat) : R :=
  match cs, f with [a; b], [i; j] => strength [2 * a + i; 2 * b + j]%nat | _, _ => 1 end.
(** Value one at the lower left corner of the domain. *)
Definition corner_one (i : nat) : R := if Nat.eqb i 0 then 1 else 0.

Lemma num4_numbering : numbering [3; 3]%nat num4 16.
Proof.
  split; [|split].
  - intros js N. inversion N as [|a ? ? ? La T]; subst. inversion T as [|b ? ? ? Lb T']; subst. inversion T'; subst. cbn. lia.
  - intros js js' N N'. inversion N as [|a ? ? ? La T]; subst. inversion T as [|b ? ? ? Lb T']; subst. inversion T'; subst.
    inversion N' as [|a' ? ? ? La' S]; subst. inversion S as [|b' ? ? ? Lb' S']; subst. inversion S'; subst. cbn [num4]. intros E.
    assert (b = b') by lia. assert (a = a') by lia. congruence.
  - intros i L. exists [i mod 4; i / 4]%nat. split.
    + constructor; [pose proof (Nat.mod_upper_bound i 4); lia|constructor; [|constructor]]. apply Nat.lt_succ_r, Nat.div_lt_upper_bound; lia.
    + cbn [num4]. rewrite (Nat.div_mod i 4) at 3 by lia. lia.
Qed.
Lemma ninth_sound : forall cs, sound 2 (ninth cs).
Proof. intros cs. destruct unit_sound as (A & B & C & D & E & F). repeat (split; auto). Qed.
Lemma ninth_no_oversampling : forall cs, no_oversampling [1; 1] (ninth cs).
Proof. intros cs. destruct unit_no_oversampling as (A & B & C & D). split; [apply ninth_sound|]. split; [exact B|split; [exact C|exact D]]. Qed.
Lemma strength_pos : forall f, 0 < strength f.
Proof.
  intros [|i [|j [|? ?]]]; cbn [strength]; try lra. destruct (_ && _); [lra|]. destruct (Nat.div2 i) as [|[|[|?]]], (Nat.div2 j) as [|[|[|?]]]; lra.
Qed.
Lemma half_index_at : forall a i x, (a < 3)%nat -> (i < 2)%nat -> 0 < x < 1 -> half_index (INR a + (INR i + x) / 2) = (2 * a + i)%nat.
Proof.
  intros a i x La Li X. destruct a as [|[|[|a]]]; [| | |lia]; (destruct i as [|[|i]]; [| |lia]); cbn [INR]; unfold half_index;
    repeat (destruct (Rlt_dec _ _); try lra); reflexivity.
Qed.
Lemma ninth_quartered : forall cs, In cs (cells [3; 3]%nat) -> quartered [1; 1] (ninth cs) spots (parts_of cs).
Proof.
  intros cs I. split; [reflexivity|]. 
  assert (C : exists a b, cs = [a; b] /\ (a < 3)%nat /\ (b < 3)%nat).
  { cbn in I. repeat (destruct I as [<-|I]; [eexists; eexists; split; [reflexivity|lia]|]). destruct I. }
  destruct C as (a & b & -> & La & Lb). split.
  - intros f xs i j If Lx Fx _ _. destruct xs as [|x [|y [|? ?]]]; try discriminate. inversion Fx as [|? ? Hx Fx']; subst. inversion Fx' as [|? ? Hy _]; subst.
    assert (F : exists c d, f = [c; d] /\ (c < 2)%nat /\ (d < 2)%nat).
    { cbn in If. repeat (destruct If as [<-|If]; [eexists; eexists; split; [reflexivity|lia]|]). destruct If. }
    destruct F as (c & d & -> & Lc & Ld). unfold spots. cbn [ninth pa_global combine map fst snd]. rewrite !half_index_at by auto. reflexivity.
  - intros f If. cbn in If. destruct If as [<-|[<-|[<-|[<-|[]]]]]; apply strength_pos.
Qed.
Lemma spots_positive : forall y, positive 2 (spots y).
Proof.
  intros y z (k & Lk & Nk). unfold spots. set (f := map _ _). pose proof (strength_pos f) as P.
  unfold dot, mv, times_unit. cbn [rsum Nat.eqb]. pose proof (Rle_0_sqr (z 0%nat)) as A. pose proof (Rle_0_sqr (z 1%nat)) as B. unfold Rsqr in *.
  assert (0 < z 0%nat * z 0%nat + z 1%nat * z 1%nat).
  { assert (0 < z k * z k) by (apply Rsqr_pos_lt; auto). destruct k as [|[|k]]; [lra|lra|lia]. }
  set (q := strength f) in *. replace (0 + (0 + q * z 0%nat + 0 * z 1%nat) * z 0%nat + (0 + 0 * z 0%nat + q * z 1%nat) * z 1%nat)
    with (q * (z 0%nat * z 0%nat + z 1%nat * z 1%nat)) by ring. now apply Rmult_lt_0_compat.
Qed.
Lemma spots_sym : forall y, sym 2 (spots y).
Proof. intros y i j _ _. unfold spots, times_unit. rewrite Nat.eqb_sym. reflexivity. Qed.

(** A row of the coarse matrix times a vector, cell by cell. *)
Lemma row_total : forall ns hs num n diffusion order rhs_order o pa rquad x fs source neumann M V kappa u i,
  length ns = 2%nat -> length hs = 2%nat -> Forall (Rlt 0) hs -> numbering ns num n -> (forall y, sym 2 (diffusion y)) ->
  (2 <= gauss_points order <= 3)%nat -> (2 <= gauss_points rhs_order <= 3)%nat -> (2 <= gauss_points o <= 3)%nat ->
  (forall cs, In cs (cells ns) -> no_oversampling hs (pa cs) /\ quartered hs (pa cs) diffusion (kappa cs) /\
     corrected hs num diffusion order rhs_order (pa cs) cs (x cs)) ->
  walk 2 (list R) diffusion source neumann (fun _ _ => 0) (fun _ => 0)
    (patched ns hs num pa (line_rule (gauss_points o)) rquad x fs) = Some (M, V) -> (i < n)%nat ->
  rsum n (fun j => M i j * u j) =
    lsum (cells ns) (fun cs => polar (nth 0 hs 1) (nth 1 hs 1) (kappa cs) (fun l => u (num l)) (fun l => hat i (num l)) cs).
Proof.
  intros ns hs num n diffusion order rhs_order o pa rquad x fs source neumann M V kappa u i Ln Lh Fh Nu Sy Og Or Oo H W Li.
  rewrite (row_polar n M u i Li (walk_symmetric _ _ _ _ _ _ _ _ Sy W)).
  rewrite !(total_form ns hs num n diffusion order rhs_order o pa rquad x fs source neumann M V kappa) by auto.
  set (h1 := nth 0 hs 1). set (h2 := nth 1 hs 1). unfold polar.
  rewrite (lsum_ext _ (cells ns) (fun cs => (_ - _ - _) / 2) (fun cs => / 2 * cell_form h1 h2 (kappa cs) (fun l => u (num l) + hat i (num l)) cs
    + (- / 2) * cell_form h1 h2 (kappa cs) (fun l => u (num l)) cs + (- / 2) * cell_form h1 h2 (kappa cs) (fun l => hat i (num l)) cs)) by (intros; field).
  rewrite !lsum_plus, !lsum_scale. field.
Qed.

Lemma polar_uniform : forall c k v w a b, 0 < c -> (forall f, In f (cells [2; 2]%nat) -> k f = c) ->
  polar 1 1 k v w [a; b] = c * (side1 v a b * side1 w a b + side2 v a b * side2 w a b + twist v a b * twist w a b / 6).
Proof.
  intros c k v w a b P K. unfold polar, cell_form, plain, raised, linear_load, twisted_load, middle_energy, lower_upper1, lower_upper2, across, all_parts.
  rewrite !K by (cbn; tauto). unfold side1, side2, twist. field. lra.
Qed.
Lemma polar_middle : forall k v w a b, k [0; 0]%nat = 97 -> k [0; 1]%nat = 1 -> k [1; 0]%nat = 1 -> k [1; 1]%nat = 1 ->
  polar 1 1 k v w [a; b] = 25 * (side1 v a b * side1 w a b + side2 v a b * side2 w a b + twist v a b * twist w a b / 6)
    + 3 / 200 * (192 * (twist v a b * twist w a b) - 192 * (twist v a b * (side1 w a b + side2 w a b) + twist w a b * (side1 v a b + side2 v a b))
                 - 576 * ((side1 v a b + side2 v a b) * (side1 w a b + side2 w a b))).
Proof.
  intros k v w a b K0 K1 K2 K3. unfold polar, cell_form, plain, raised, linear_load, twisted_load, middle_energy, lower_upper1, lower_upper2, across, all_parts.
  rewrite K0, K1, K2, K3. unfold side1, side2, twist. field.
Qed.
Lemma parts_uniform : forall cs, In cs (cells [3; 3]%nat) -> edge_cell [3; 3]%nat cs = true ->
  exists c, 0 < c /\ forall f, In f (cells [2; 2]%nat) -> parts_of cs f = c.
Proof.
  intros cs I E. exists (parts_of cs [0; 0]%nat). cbn in I. split.
  - repeat (destruct I as [<-|I]; [apply strength_pos|]). destruct I.
  - intros f If. cbn in If. repeat (destruct I as [<-|I]; [try discriminate; destruct If as [<-|[<-|[<-|[<-|[]]]]]; reflexivity|]). destruct I.
Qed.

(** Boundary values 0 and 1, no source, no flux: the value at an inner node is
    below -1/5. *)
Theorem C139_leaves_the_range : forall extra neumann,
  boundary_sides [3; 3]%nat [1; 1] num4 outer16 corner_one ninth spots 3 extra ->
  let res := result [3; 3]%nat [1; 1] num4 16 outer16 ninth spots 2 3 (line_rule 2) (fun _ _ => cube_rule 2 3) extra (fun _ => [])
    (fun _ => 0) neumann corner_one in
  (exists x u, res x u) /\ forall x u, res x u ->
    (forall i, (i < 16)%nat -> outer16 i = true -> u i = 0 \/ u i = 1) /\ u (num4 [2; 2]%nat) < - (1/5).
Proof.
  intros extra neumann B res. assert (Fh : Forall (Rlt 0) [1; 1]) by (repeat constructor; lra). split.
  - destruct (sub_boundary_info PSynthetic 2 none none) as [k|] eqn:K; [|discriminate].
    apply (C112_exactly_one_result_without_oversampling PSynthetic none none k [3; 3]%nat [1; 1] num4 16 outer16 [2; 2]%nat [1/2; 1/2]); auto using num4_numbering, spots_positive, two_gauss; try discriminate.
    + repeat constructor.
    + exists 0%nat. split; [lia|reflexivity].
    + intros cs _. split; [apply ninth_sound|]. split; [reflexivity|]. split; [reflexivity|]. split; [reflexivity|]. injection K as <-. intros js N.
      inversion N as [|a ? js1 ? La N1]; subst. inversion N1 as [|b ? js2 ? Lb N2]; subst. inversion N2; subst.
      assert (a = 0 \/ a = 1 \/ a = 2)%nat as [->|[->| ->]] by lia; assert (b = 0 \/ b = 1 \/ b = 2)%nat as [->|[->| ->]] by lia; reflexivity.
    + intros cs f q _ _ Q. now apply (rule_length _ _ _ Q).
  - intros x u (X & M & V & W & A). change (length [3; 3]%nat) with 2%nat in *.
    assert (Zx : forall cs js, In cs (cells [3; 3]%nat) -> node [2; 2]%nat js -> x cs 4%nat (num3 js) = 0 /\ x cs 5%nat (num3 js) = 0).
    { intros cs js I Nj. pose proof (cells_length _ _ I) as Lc. destruct cs as [|a [|b [|? ?]]]; try discriminate.
      destruct (X _ I) as (_ & Xl). destruct (B _ I) as (B4 & B5). change (length (corners [a; b])) with 4%nat in *. cbn [Nat.add] in B5.
      pose proof (Xl 4%nat ltac:(lia)) as X4. pose proof (Xl 5%nat ltac:(lia)) as X5. split.
      - apply (zero_corrector 1 1 spots 2 3 (ninth [a; b]) (parts_of [a; b]) (x [a; b] 4%nat) (extra [a; b] 4%nat)); auto using ninth_no_oversampling, ninth_quartered; cbn; lia.
      - destruct (edge_cell [3; 3]%nat [a; b]) eqn:Ec.
        + destruct B5 as (y & Y & Ey). destruct (parts_uniform _ I Ec) as (c & Pc & Kc).
          apply (middle_value 1 1 spots 2 3 (ninth [a; b]) a b (parts_of [a; b]) (fun js => if outer16 (num4 js) then corner_one (num4 js) else 0)
            Fh (ninth_no_oversampling _) (ninth_quartered _ I) ltac:(cbn; lia) ltac:(cbn; lia) y); auto.
          * unfold corrector. rewrite Ey in X5. exact X5.
          * unfold linear_load, twisted_load, lower_upper1, lower_upper2, across. rewrite !Kc by (cbn; tauto). unfold Rdiv. ring.
        + apply (zero_corrector 1 1 spots 2 3 (ninth [a; b]) (parts_of [a; b]) (x [a; b] 5%nat) (extra [a; b] 5%nat)); auto using ninth_no_oversampling, ninth_quartered; cbn; lia. }
    assert (V0 : forall a, V a = 0).
    { apply (no_load [3; 3]%nat [1; 1] num4 ninth spots (line_rule 2) (fun _ _ => cube_rule 2 3) x neumann M V); auto.
      intros cs I. split; [apply ninth_sound|]. split; [intros f q _ Q; now apply (rule_length _ _ _ Q)|].
      pose proof (cells_length _ _ I) as Lc. destruct cs as [|a [|b [|? ?]]]; try discriminate. intros js Nj. now apply Zx. }
    apply coarse_bvp in A.
    assert (Rw : forall i, (i < 16)%nat -> outer16 i = false ->
      lsum (cells [3; 3]%nat) (fun cs => polar 1 1 (parts_of cs) (fun l => u (num4 l)) (fun l => hat i (num4 l)) cs) = 0).
    { intros i Li Oi. pose proof (A i Li) as Ai. rewrite Oi, V0 in Ai. rewrite <- Ai.
      rewrite (row_total [3; 3]%nat [1; 1] num4 16 spots 2 3 2 ninth (fun _ _ => cube_rule 2 3) x (fun _ => []) (fun _ => 0) neumann M V parts_of u i);
        auto using num4_numbering, spots_sym; try (cbn; lia).
      intros cs I. split; [apply ninth_no_oversampling|]. split; [now apply ninth_quartered|]. now apply X. }
    assert (Bd : forall i, (i < 16)%nat -> outer16 i = true -> u i = corner_one i) by (intros i Li Oi; pose proof (A i Li) as Ai; rewrite Oi in Ai; exact Ai).
    split.
    { intros i Li Oi. rewrite Bd by auto. unfold corner_one. destruct (Nat.eqb i 0); auto. }
    set (Bf := fun (v w : list nat -> R) a b => side1 v a b * side1 w a b + side2 v a b * side2 w a b + twist v a b * twist w a b / 6).
    assert (Ex : forall v w, lsum (cells [3; 3]%nat) (fun cs => polar 1 1 (parts_of cs) v w cs) =
      1000 * Bf v w 0%nat 0%nat + Bf v w 0%nat 1%nat + 1000 * Bf v w 0%nat 2%nat + Bf v w 1%nat 0%nat +
      (25 * Bf v w 1%nat 1%nat + 3 / 200 * (192 * (twist v 1 1 * twist w 1 1)
         - 192 * (twist v 1 1 * (side1 w 1 1 + side2 w 1 1) + twist w 1 1 * (side1 v 1 1 + side2 v 1 1))
         - 576 * ((side1 v 1 1 + side2 v 1 1) * (side1 w 1 1 + side2 w 1 1)))) +
      Bf v w 1%nat 2%nat + 1000 * Bf v w 2%nat 0%nat + Bf v w 2%nat 1%nat + Bf v w 2%nat 2%nat).
    { intros v w. cbn [cells flat_map map app seq lsum].
      rewrite (polar_middle (parts_of [1; 1]%nat) v w 1 1) by reflexivity.
      rewrite (polar_uniform 1000 (parts_of [0; 0]%nat)), (polar_uniform 1000 (parts_of [0; 2]%nat)), (polar_uniform 1000 (parts_of [2; 0]%nat)),
        (polar_uniform 1 (parts_of [0; 1]%nat)), (polar_uniform 1 (parts_of [1; 0]%nat)), (polar_uniform 1 (parts_of [1; 2]%nat)),
        (polar_uniform 1 (parts_of [2; 1]%nat)), (polar_uniform 1 (parts_of [2; 2]%nat))
        by first [lra | intros f If; cbn in If; destruct If as [<-|[<-|[<-|[<-|[]]]]]; reflexivity].
      unfold Bf. ring. }
    pose proof (Rw 5%nat ltac:(lia) eq_refl) as E5. pose proof (Rw 6%nat ltac:(lia) eq_refl) as E6.
    pose proof (Rw 9%nat ltac:(lia) eq_refl) as E9. pose proof (Rw 10%nat ltac:(lia) eq_refl) as E10.
    rewrite Ex in E5, E6, E9, E10. unfold Bf, side1, side2, twist, hat in E5, E6, E9, E10. cbn [num4 Nat.add Nat.mul Nat.eqb] in *.
    assert (U0 : u 0%nat = 1) by exact (Bd 0%nat ltac:(lia) eq_refl).
    assert (U1 : u 1%nat = 0) by exact (Bd 1%nat ltac:(lia) eq_refl).
    assert (U2 : u 2%nat = 0) by exact (Bd 2%nat ltac:(lia) eq_refl).
    assert (U3 : u 3%nat = 0) by exact (Bd 3%nat ltac:(lia) eq_refl).
    assert (U4 : u 4%nat = 0) by exact (Bd 4%nat ltac:(lia) eq_refl).
    assert (U7 : u 7%nat = 0) by exact (Bd 7%nat ltac:(lia) eq_refl).
    assert (U8 : u 8%nat = 0) by exact (Bd 8%nat ltac:(lia) eq_refl).
    assert (U11 : u 11%nat = 0) by exact (Bd 11%nat ltac:(lia) eq_refl).
    assert (U12 : u 12%nat = 0) by exact (Bd 12%nat ltac:(lia) eq_refl).
    assert (U13 : u 13%nat = 0) by exact (Bd 13%nat ltac:(lia) eq_refl).
    assert (U14 : u 14%nat = 0) by exact (Bd 14%nat ltac:(lia) eq_refl).
    assert (U15 : u 15%nat = 0) by exact (Bd 15%nat ltac:(lia) eq_refl).
    rewrite ?U0, ?U1, ?U2, ?U3, ?U4, ?U7, ?U8, ?U11, ?U12, ?U13, ?U14, ?U15 in E5, E6, E9, E10.
    lra.
Qed.
Print Assumptions C139_leaves_the_range.

From Verif Require Import FemModel FemSpec FemProofs.
(** The reference solution on the fine grid of the same squares, for any values
    between 0 and 1 prescribed at any nodes: it stays there. *)
Definition num7 (js : list nat) : nat := match js with [a; b] => a + 7 * b | _ => 49 end.
Definition fine_place (f : list nat) (xs : list R) : list R := map (fun t => (INR (fst t) + snd t) / 2) (combine f xs).
Lemma num7_numbering : numbering [6; 6]%nat num7 49.
Proof.
  split; [|split].
  - intros js N. inversion N as [|a ? ? ? La T]; subst. inversion T as [|b ? ? ? Lb T']; subst. inversion T'; subst. cbn [num7]. lia.
  - intros js js' N N'. inversion N as [|a ? ? ? La T]; subst. inversion T as [|b ? ? ? Lb T']; subst. inversion T'; subst.
    inversion N' as [|a' ? ? ? La' S]; subst. inversion S as [|b' ? ? ? Lb' S']; subst. inversion S'; subst. cbn [num7]. intros E.
    assert (b = b') by lia. assert (a = a') by lia. congruence.
  - intros i L. exists [i mod 7; i / 7]%nat. split.
    + constructor; [pose proof (Nat.mod_upper_bound i 7); lia|constructor; [|constructor]]. apply Nat.lt_succ_r, Nat.div_lt_upper_bound; lia.
    + cbn [num7]. rewrite (Nat.div_mod i 7) at 3 by lia. lia.
Qed.
Lemma fine_half : forall c x, (c < 6)%nat -> 0 < x < 1 -> half_index ((INR c + x) / 2) = c.
Proof.
  intros c x L X. rewrite (Nat.div_mod c 2) at 1 by lia. rewrite plus_INR, mult_INR. cbn [INR].
  replace ((((1 + 1) * INR (c / 2)) + INR (c mod 2) + x) / 2) with (INR (c / 2) + (INR (c mod 2) + x) / 2) by field.
  rewrite half_index_at; auto.
  - symmetry. apply Nat.div_mod. lia.
  - apply Nat.div_lt_upper_bound; lia.
  - apply Nat.mod_upper_bound. lia.
Qed.
Theorem C139_reference_stays : forall con g start, (exists i, (i < 49)%nat /\ con i = true) ->
  (forall i, (i < 49)%nat -> con i = true -> 0 <= g i <= 1) ->
  let grid := fine_boxes [6; 6]%nat [1/2; 1/2] num7 fine_place (product_rule (line_rule 2) 2) (fun _ => cube_rule 2 3) (fun _ => []) in
  let reference := fem_solution 2 (list R) spots (fun _ => 0) (fun _ => 0) 49 con g start grid in
  (exists u, reference u) /\
  forall u c f xs, reference u -> In (c, f) grid -> in_cell 2 xs -> 0 <= fine_val (list R) u c xs <= 1.
Proof.
  intros con g start Cn G grid reference. assert (Fh : Forall (Rlt 0) [1/2; 1/2]) by (repeat constructor; lra).
  assert (Fn : Forall (fun m => (0 < m)%nat) [6; 6]%nat) by (repeat constructor; lia). split.
  - apply (C110_reference_solution_exists_once [6; 6]%nat [1/2; 1/2] num7 49 spots fine_place (line_rule 2) (fun _ => cube_rule 2 3) (fun _ => []) con
      (fun _ => 0) (fun _ => 0) g start); auto using num7_numbering, two_gauss, spots_positive.
  - intros u c f xs U I X.
    assert (M : forall s, ((forall y : list R, 0 <= 0) -> (forall y : list R, 0 <= 0) -> (forall i, (i < 49)%nat -> con i = true -> g i <= s) ->
        forall c f xs, In (c, f) grid -> in_cell 2 xs -> fine_val (list R) u c xs <= s) /\
      ((forall y : list R, 0 <= 0) -> (forall y : list R, 0 <= 0) -> (forall i, (i < 49)%nat -> con i = true -> s <= g i) ->
        forall c f xs, In (c, f) grid -> in_cell 2 xs -> s <= fine_val (list R) u c xs)).
    { intros s. apply (C116_maximum_principle [6; 6]%nat [1/2; 1/2] num7 49 spots fine_place (fun cs _ => strength cs) 2 (fun _ => cube_rule 2 3) (fun _ => []) con
        (fun _ => 0) (fun _ => 0) g start u s); auto using num7_numbering.
      - intros cs ys i j Ic Ly Fy _ _. change (length [6; 6]%nat) with 2%nat in *. destruct ys as [|y1 [|y2 [|? ?]]]; try discriminate.
        inversion Fy as [|? ? H1 Fy']; subst. inversion Fy' as [|? ? H2 _]; subst.
        assert (C : exists a b, cs = [a; b] /\ (a < 6)%nat /\ (b < 6)%nat).
        { apply in_flat_map in Ic. destruct Ic as (a & Ia & Ic). apply in_map_iff in Ic. destruct Ic as (t & <- & Ic).
          apply in_flat_map in Ic. destruct Ic as (b & Ib & Ic). apply in_map_iff in Ic. destruct Ic as (t' & <- & [<-|[]]).
          apply in_seq in Ia, Ib. exists a, b. split; [reflexivity|lia]. }
        destruct C as (a & b & -> & La & Lb). unfold spots, fine_place, times_unit. cbn [combine map fst snd]. now rewrite !fine_half.
      - intros. apply strength_pos.
      - intros cs _. apply square_even; [lra|apply strength_pos].
      - intros cs Ic. split; [|intros f' q []]. intros q Q. unfold cube_rule in Q. split.
        + split; [now apply rule_length in Q|]. apply Forall_impl with (P := fun x => 0 < x < 1); [intros; lra|].
          now apply (rule_inside _ (gauss_inside 2)) in Q.
        + cbn in Q. repeat (destruct Q as [<-|Q]; [cbn; lra|]). destruct Q. }
    split; [apply (proj2 (M 0)) with (f := f)|apply (proj1 (M 1)) with (f := f)]; auto; intros; try lra; apply G; auto.
Qed.
Print Assumptions C139_reference_stays.

(** The right hand sides of the boundary correctors in this case. *)
Example C139_sides : exists extra, boundary_sides [3; 3]%nat [1; 1] num4 outer16 corner_one ninth spots 3 extra.
Proof.
  set (y := fun cs m => restricted [1; 1] (ninth cs) (fun js => if outer16 (num4 js) then corner_one (num4 js) else 0) cs [m mod 3; m / 3]%nat).
  exists (fun cs i => if Nat.eqb i 4 then fun _ => 0 else
    if edge_cell [3; 3]%nat cs then local_rhs 2 (patch_points 2 3 spots (ninth cs)) (field_of 9 (y cs)) else fun _ => 0).
  intros cs I. pose proof (cells_length _ _ I) as Lc. destruct cs as [|a [|b [|? ?]]]; try discriminate.
  change (length (corners [a; b])) with 4%nat. split; [reflexivity|]. cbn [Nat.add Nat.eqb]. destruct (edge_cell _ _); [|reflexivity].
  exists (y [a; b]). split; [|reflexivity]. intros js N. cbn [ninth pa_cells] in N.
  inversion N as [|i ? js1 ? Li N1]; subst. inversion N1 as [|j ? js2 ? Lj N2]; subst. inversion N2; subst. unfold y. cbn [ninth pa_num num3].
  assert (i = 0 \/ i = 1 \/ i = 2)%nat as [->|[->| ->]] by lia; assert (j = 0 \/ j = 1 \/ j = 2)%nat as [->|[->| ->]] by lia; reflexivity.
Qed.
(** The middle cell of the three by three: its entry for opposite corners. *)
Example C139_case : opposite_entry 1 1 (parts_of [1; 1]%nat) (lower_upper1 (parts_of [1; 1]%nat) + lower_upper2 (parts_of [1; 1]%nat)) = 239 / 75
  /\ exists x M V,
  (forall cs, In cs (cells [3; 3]%nat) -> corrected [1; 1] num4 spots 2 3 (ninth cs) cs (x cs)) /\
  walk 2 (list R) spots (fun _ => 0) (fun _ => 0) (fun _ _ => 0) (fun _ => 0)
    (patched [3; 3]%nat [1; 1] num4 ninth (line_rule 2) (fun _ _ => cube_rule 2 3) x (fun _ => [])) = Some (M, V) /\ M 5%nat 10%nat = 239 / 75.
Proof.
  assert (E : opposite_entry 1 1 (parts_of [1; 1]%nat) (lower_upper1 (parts_of [1; 1]%nat) + lower_upper2 (parts_of [1; 1]%nat)) = 239 / 75).
  { unfold opposite_entry, lower_upper1, lower_upper2, across, all_parts. cbn. field. }
  split; [exact E|]. destruct C139_sides as (extra & Ex).
  destruct (C139_leaves_the_range extra (fun _ => 0) Ex) as ((x & u & X & M & V & W & _) & _). exists x, M, V.
  split; [intros cs I; now apply X|]. split; [exact W|]. transitivity (M (num4 [1; 1]%nat) (num4 [2; 2]%nat)); [reflexivity|].
  destruct (C139_opposite_corners [3; 3]%nat [1; 1] num4 16 spots 2 3 2 ninth (fun _ _ => cube_rule 2 3) x (fun _ => []) (fun _ => 0) (fun _ => 0) M V parts_of 1 1) as (A & _);
    auto using num4_numbering, spots_sym; try (cbn; lia).
  - repeat constructor; lra.
  - intros cs I. split; [apply ninth_no_oversampling|]. split; [now apply ninth_quartered|]. now apply X.
  - cbn; tauto.
  - rewrite A. cbn [nth]. rewrite <- E. f_equal. field.
Qed.
(** Coarse cells with a face in the boundary: all but the middle one. *)
Example C139_edge_cells : forall cs, In cs (cells [3; 3]%nat) -> edge_cell [3; 3]%nat cs = true <-> cs <> [1; 1]%nat.
Proof.
  intros cs I. cbn in I. repeat (destruct I as [<-|I]; [cbn; split; intros H; try reflexivity; try discriminate; now elim H|]). destruct I.
Qed.
(** With gradients at the right places the same entry would be negative. *)
Example C139_right_case : exists y y' r r',
  corrector 2 (patch_points 2 2 spots (ninth [1; 1]%nat)) (patch_points 2 3 spots (ninth [1; 1]%nat)) 9 (pa_con (ninth [1; 1]%nat)) (field_of 9 y) r /\
  corrector 2 (patch_points 2 2 spots (ninth [1; 1]%nat)) (patch_points 2 3 spots (ninth [1; 1]%nat)) 9 (pa_con (ninth [1; 1]%nat)) (field_of 9 y') r' /\
  y 0%nat = 1 /\ y' 8%nat = 1 /\
  LinSpec.energy 2 (patch_points 2 2 spots (ninth [1; 1]%nat)) (field_of 9 (fun i => y i + r i)) (field_of 9 (fun i => y' i + r' i)) < 0.
Proof.
  destruct C139_sides as (extra & Ex). destruct (C139_leaves_the_range extra (fun _ => 0) Ex) as ((x & u & X & _) & _).
  assert (I : In [1; 1]%nat (cells [3; 3]%nat)) by (cbn; tauto). destruct (X _ I) as (Xc & _).
  destruct (Xc 0%nat ltac:(cbn; lia)) as (y & Y & C). destruct (Xc 3%nat ltac:(cbn; lia)) as (y' & Y' & C').
  exists y, y', (x [1; 1]%nat 0%nat), (x [1; 1]%nat 3%nat). split; [exact C|]. split; [exact C'|].
  assert (Nd : forall i j, (i <= 2)%nat -> (j <= 2)%nat -> node [2; 2]%nat [i; j]) by (intros; constructor; [auto|constructor; [auto|constructor]]).
  split; [|split].
  - change 0%nat with (pa_num (ninth [1; 1]%nat) [0; 0]%nat) at 1. rewrite (Y _ (Nd 0%nat 0%nat ltac:(lia) ltac:(lia))). unfold restricted. cbn. field.
  - change 8%nat with (pa_num (ninth [1; 1]%nat) [2; 2]%nat) at 1. rewrite (Y' _ (Nd 2%nat 2%nat ltac:(lia) ltac:(lia))). unfold restricted. cbn. field.
  - apply (C139_at_the_right_places 1 spots 2 3 (ninth [1; 1]%nat) (parts_of [1; 1]%nat) 1 1 [1; 1]%nat [2; 2]%nat y y' (x [1; 1]%nat 0%nat) (x [1; 1]%nat 3%nat));
      auto using ninth_no_oversampling, ninth_quartered; try lra; try (cbn; lia).
Qed.
