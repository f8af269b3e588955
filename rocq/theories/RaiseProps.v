(** Theorems about what correctors do to the energy of coarse functions: C138. *)
From Coq Require Import Reals List Arith Bool Lra Lia.
From Verif Require Import Util RSum BoundaryModel CoarseModel CoarseSpec LinModel LinSpec LinProofs.
From Verif Require Import SystemModel SystemSpec SystemProofs QuadModel PatchSpec PatchProofs PatchProps SolveSpec SolveProofs SolveProps.
From Verif Require Import LayerSpec LayerProofs MaxSpec MaxProofs MaxProps BoundsSpec BoundsProofs ContrastSpec ContrastProofs.
From Verif Require Import CoarseProofs RaiseSpec RaiseProofs.
From Verif Require BoundsProps WholeProps ContrastProps.
Import ListNotations.
Open Scope R_scope.

Lemma pair_of_edges : forall hs : list R, length hs = 2%nat -> hs = [nth 0 hs 1; nth 1 hs 1].
Proof. intros [|h1 [|h2 [|? ?]]] L; try discriminate. reflexivity. Qed.

Lemma lsum_pos_one : forall A (l : list A) f a, In a l -> (forall b, In b l -> 0 <= f b) -> 0 < f a -> 0 < lsum l f.
Proof.
  intros A l f a I N P. induction l as [|b l IH]; [destruct I|]. cbn [lsum]. destruct I as [->|I].
  - assert (0 <= lsum l f) by (apply lsum_nonneg; intros; apply N; now right). lra.
  - assert (0 <= f b) by (apply N; now left). assert (0 < lsum l f) by (apply IH; auto; intros; apply N; now right). lra.
Qed.

(** Without correctors: the energy is that of the mean of the diffusions. *)
Theorem C138_without_correctors : forall ns hs num n diffusion o pa rquad fs source neumann M V kappa u,
  length ns = 2%nat -> length hs = 2%nat -> Forall (Rlt 0) hs -> numbering ns num n -> (2 <= gauss_points o <= 3)%nat ->
  (forall cs, In cs (cells ns) -> no_oversampling hs (pa cs) /\ quartered hs (pa cs) diffusion (kappa cs)) ->
  walk 2 (list R) diffusion source neumann (fun _ _ => 0) (fun _ => 0)
    (patched ns hs num pa (line_rule (gauss_points o)) rquad (fun _ _ _ => 0) fs) = Some (M, V) ->
  qform n M u = lsum (cells ns) (fun cs => all_parts (kappa cs) / 4 * gradient_square hs num u cs).
Proof.
  intros ns hs num n diffusion o pa rquad fs source neumann M V kappa u Ln Lh Fh Nu Oo H W.
  assert (W' : walk (length ns) (list R) diffusion source neumann (fun _ _ => 0) (fun _ => 0)
    (patched ns hs num pa (line_rule (gauss_points o)) rquad (fun _ _ _ => 0) fs) = Some (M, V)) by now rewrite Ln.
  rewrite (coarse_form_all ns hs num n diffusion o pa rquad (fun _ _ _ => 0) fs source neumann M V u); auto; [| |].
  - apply lsum_ext. intros cs I. destruct (H cs I) as (No & Qu). pose proof (cells_length _ _ I) as Lc. rewrite Ln in Lc.
    destruct cs as [|a [|b [|? ?]]]; try discriminate. rewrite Lh.
    pose proof (without_cell ns (nth 0 hs 1) (nth 1 hs 1) num diffusion o o o (pa [a; b]) a b u (kappa [a; b])) as B.
    rewrite <- (pair_of_edges hs Lh) in B. apply B; auto. now rewrite Ln.
  - now rewrite Ln.
  - intros cs I. destruct (H cs I) as ((So & _ & In_ & _) & _). rewrite Lh in So. rewrite Ln. split; auto.
Qed.
Print Assumptions C138_without_correctors.

(** What correctors add to the energy of a coarse function. *)
Theorem C138_what_correctors_change : forall ns hs num n diffusion order rhs_order o pa rquad x fs source neumann M V M0 V0 kappa u,
  length ns = 2%nat -> length hs = 2%nat -> Forall (Rlt 0) hs -> numbering ns num n ->
  (2 <= gauss_points order <= 3)%nat -> (2 <= gauss_points rhs_order <= 3)%nat -> (2 <= gauss_points o <= 3)%nat ->
  (forall cs, In cs (cells ns) -> no_oversampling hs (pa cs) /\ quartered hs (pa cs) diffusion (kappa cs) /\
     corrected hs num diffusion order rhs_order (pa cs) cs (x cs)) ->
  walk 2 (list R) diffusion source neumann (fun _ _ => 0) (fun _ => 0)
    (patched ns hs num pa (line_rule (gauss_points o)) rquad x fs) = Some (M, V) ->
  walk 2 (list R) diffusion source neumann (fun _ _ => 0) (fun _ => 0)
    (patched ns hs num pa (line_rule (gauss_points o)) rquad (fun _ _ _ => 0) fs) = Some (M0, V0) ->
  qform n M u = qform n M0 u + lsum (cells ns) (fun cs => raised (nth 0 hs 1) (nth 1 hs 1) (kappa cs) (fun js => u (num js)) cs).
Proof.
  intros ns hs num n diffusion order rhs_order o pa rquad x fs source neumann M V M0 V0 kappa u Ln Lh Fh Nu Og Or Oo H W W0.
  assert (Sd : forall cs, In cs (cells ns) -> sound (length ns) (pa cs) /\ forall f, pa_inside (pa cs) f = true).
  { intros cs I. destruct (H cs I) as ((So & _ & In_ & _) & _). rewrite Lh in So. rewrite Ln. auto. }
  assert (Lhn : length hs = length ns) by now rewrite Ln.
  assert (W1 : walk (length ns) (list R) diffusion source neumann (fun _ _ => 0) (fun _ => 0)
    (patched ns hs num pa (line_rule (gauss_points o)) rquad x fs) = Some (M, V)) by now rewrite Ln.
  assert (W2 : walk (length ns) (list R) diffusion source neumann (fun _ _ => 0) (fun _ => 0)
    (patched ns hs num pa (line_rule (gauss_points o)) rquad (fun _ _ _ => 0) fs) = Some (M0, V0)) by now rewrite Ln.
  rewrite (coarse_form_all ns hs num n diffusion o pa rquad x fs source neumann M V u Lhn Nu Sd W1).
  rewrite (coarse_form_all ns hs num n diffusion o pa rquad (fun _ _ _ => 0) fs source neumann M0 V0 u Lhn Nu Sd W2).
  rewrite <- lsum_plus. apply lsum_ext. intros cs I. destruct (H cs I) as (No & Qu & Co). pose proof (cells_length _ _ I) as Lc. rewrite Ln in Lc.
  destruct cs as [|a [|b [|? ?]]]; try discriminate. rewrite Lh.
  pose proof (with_cell ns (nth 0 hs 1) (nth 1 hs 1) num n diffusion order rhs_order o (pa [a; b]) a b (x [a; b]) u (kappa [a; b])) as B.
  rewrite <- (pair_of_edges hs Lh) in B. apply B; auto.
Qed.
Print Assumptions C138_what_correctors_change.

(** On the local grid itself, with gradients at the right places: there the
    corrector lowers the energy of the coarse function. *)
Theorem C138_at_the_right_places : forall hs (num : list nat -> nat) diffusion order rhs_order p k (u : nat -> R) a b y r,
  length hs = 2%nat -> Forall (Rlt 0) hs -> (2 <= gauss_points order <= 3)%nat -> (2 <= gauss_points rhs_order <= 3)%nat ->
  no_oversampling hs p -> quartered hs p diffusion k ->
  (forall js, node [2; 2]%nat js -> y (pa_num p js) = restricted hs p (fun js => u (num js)) [a; b] js) ->
  corrector 2 (patch_points 2 order diffusion p) (patch_points 2 rhs_order diffusion p) (pa_n p) (pa_con p) (field_of (pa_n p) y) r ->
  let energy := fun w => LinSpec.energy 2 (patch_points 2 order diffusion p) (field_of (pa_n p) w) (field_of (pa_n p) w) in
  let l := linear_load (nth 0 hs 1) (nth 1 hs 1) k (fun js => u (num js)) a b in
  let t := twisted_load (nth 0 hs 1) (nth 1 hs 1) k (fun js => u (num js)) a b in
  energy (fun i => y i + r i) = energy y - (t + l) * (t + l) / middle_energy (nth 0 hs 1) (nth 1 hs 1) k.
Proof.
  intros hs num diffusion order rhs_order p k u a b y r Lh Fh Og Or No Qu Y C.
  pose proof (right_cell [2; 2]%nat (nth 0 hs 1) (nth 1 hs 1) num 0%nat diffusion order rhs_order order p a b (fun _ _ => 0) u k) as B.
  rewrite <- (pair_of_edges hs Lh) in B. apply B; auto.
Qed.
Print Assumptions C138_at_the_right_places.

Lemma middle_pos : forall hs k, length hs = 2%nat -> Forall (Rlt 0) hs -> (forall f, In f (cells [2; 2]%nat) -> 0 < k f) ->
  0 < middle_energy (nth 0 hs 1) (nth 1 hs 1) k.
Proof.
  intros hs k Lh Fh Qp. destruct hs as [|h1 [|h2 [|? ?]]]; try discriminate. inversion Fh as [|? ? ? Fh']; subst. inversion Fh'; subst. cbn [nth].
  unfold middle_energy, all_parts. pose proof (Qp [0; 0]%nat ltac:(cbn; tauto)). pose proof (Qp [0; 1]%nat ltac:(cbn; tauto)).
  pose proof (Qp [1; 0]%nat ltac:(cbn; tauto)). pose proof (Qp [1; 1]%nat ltac:(cbn; tauto)).
  assert (0 < h2 / h1) by (apply Rdiv_lt_0_compat; lra). assert (0 < h1 / h2) by (apply Rdiv_lt_0_compat; lra).
  apply Rdiv_lt_0_compat; [|lra]. apply Rmult_lt_0_compat; lra.
Qed.

(** If in every coarse cell the function is linear or the diffusions of opposite
    parts have the same sum (so for layers), correctors never raise the energy. *)
Theorem C138_never_raised : forall ns hs num n diffusion order rhs_order o pa rquad x fs source neumann M V M0 V0 kappa u,
  length ns = 2%nat -> length hs = 2%nat -> Forall (Rlt 0) hs -> numbering ns num n ->
  (2 <= gauss_points order <= 3)%nat -> (2 <= gauss_points rhs_order <= 3)%nat -> (2 <= gauss_points o <= 3)%nat ->
  (forall cs, In cs (cells ns) -> no_oversampling hs (pa cs) /\ quartered hs (pa cs) diffusion (kappa cs) /\
     corrected hs num diffusion order rhs_order (pa cs) cs (x cs)) ->
  walk 2 (list R) diffusion source neumann (fun _ _ => 0) (fun _ => 0)
    (patched ns hs num pa (line_rule (gauss_points o)) rquad x fs) = Some (M, V) ->
  walk 2 (list R) diffusion source neumann (fun _ _ => 0) (fun _ => 0)
    (patched ns hs num pa (line_rule (gauss_points o)) rquad (fun _ _ _ => 0) fs) = Some (M0, V0) ->
  (forall a b, In [a; b] (cells ns) -> twist (fun js => u (num js)) a b = 0 \/ across (kappa [a; b]) = 0) ->
  qform n M u <= qform n M0 u.
Proof.
  intros ns hs num n diffusion order rhs_order o pa rquad x fs source neumann M V M0 V0 kappa u Ln Lh Fh Nu Og Or Oo H W W0 T.
  rewrite (C138_what_correctors_change ns hs num n diffusion order rhs_order o pa rquad x fs source neumann M V M0 V0 kappa u); auto.
  assert (lsum (cells ns) (fun cs => raised (nth 0 hs 1) (nth 1 hs 1) (kappa cs) (fun js => u (num js)) cs) <= lsum (cells ns) (fun _ => 0)).
  2:{ rewrite (lsum_0 _ _ (fun _ => 0)) in H0 by auto. lra. }
  apply lsum_le. intros cs I. destruct cs as [|a [|b [|? ?]]]; try (cbn; lra). cbn [raised]. destruct (H _ I) as (_ & (_ & _ & Qp) & _).
  pose proof (middle_pos hs _ Lh Fh Qp) as P.
  assert (Z : twisted_load (nth 0 hs 1) (nth 1 hs 1) (kappa [a; b]) (fun js => u (num js)) a b = 0).
  { unfold twisted_load. destruct (T a b I) as [-> | ->]; unfold Rdiv; ring. }
  rewrite Z. set (l := linear_load _ _ _ _ _ _). set (m := middle_energy _ _ _) in *.
  apply (Rmult_le_reg_l m); auto. replace (m * ((3 * 0 - l) * (0 + l) / m)) with (- (l * l)) by (field; lra). pose proof (Rle_0_sqr l) as Q. unfold Rsqr in Q. lra.
Qed.
Print Assumptions C138_never_raised.

(** If the diffusions of both halves have the same sum, in both directions (so
    for checkerboards), correctors never lower the energy, and raise it unless
    the function is linear in all coarse cells with different diffusions. *)
Theorem C138_never_lowered : forall ns hs num n diffusion order rhs_order o pa rquad x fs source neumann M V M0 V0 kappa u,
  length ns = 2%nat -> length hs = 2%nat -> Forall (Rlt 0) hs -> numbering ns num n ->
  (2 <= gauss_points order <= 3)%nat -> (2 <= gauss_points rhs_order <= 3)%nat -> (2 <= gauss_points o <= 3)%nat ->
  (forall cs, In cs (cells ns) -> no_oversampling hs (pa cs) /\ quartered hs (pa cs) diffusion (kappa cs) /\
     corrected hs num diffusion order rhs_order (pa cs) cs (x cs)) ->
  walk 2 (list R) diffusion source neumann (fun _ _ => 0) (fun _ => 0)
    (patched ns hs num pa (line_rule (gauss_points o)) rquad x fs) = Some (M, V) ->
  walk 2 (list R) diffusion source neumann (fun _ _ => 0) (fun _ => 0)
    (patched ns hs num pa (line_rule (gauss_points o)) rquad (fun _ _ _ => 0) fs) = Some (M0, V0) ->
  (forall cs, In cs (cells ns) -> lower_upper1 (kappa cs) = 0 /\ lower_upper2 (kappa cs) = 0) ->
  qform n M0 u <= qform n M u /\
  ((exists a b, In [a; b] (cells ns) /\ twist (fun js => u (num js)) a b <> 0 /\ across (kappa [a; b]) <> 0) -> qform n M0 u < qform n M u).
Proof.
  intros ns hs num n diffusion order rhs_order o pa rquad x fs source neumann M V M0 V0 kappa u Ln Lh Fh Nu Og Or Oo H W W0 T.
  rewrite (C138_what_correctors_change ns hs num n diffusion order rhs_order o pa rquad x fs source neumann M V M0 V0 kappa u); auto.
  set (f := fun cs => raised _ _ _ _ cs).
  assert (E : forall a b, In [a; b] (cells ns) -> let t := twisted_load (nth 0 hs 1) (nth 1 hs 1) (kappa [a; b]) (fun js => u (num js)) a b in
    f [a; b] = 3 * (t * t) / middle_energy (nth 0 hs 1) (nth 1 hs 1) (kappa [a; b]) /\ 0 < middle_energy (nth 0 hs 1) (nth 1 hs 1) (kappa [a; b])).
  { intros a b I t. destruct (H _ I) as (_ & (_ & _ & Qp) & _). pose proof (middle_pos hs _ Lh Fh Qp) as P. split; [|exact P].
    unfold f. cbn [raised]. fold t. destruct (T _ I) as (T1 & T2).
    assert (Z : linear_load (nth 0 hs 1) (nth 1 hs 1) (kappa [a; b]) (fun js => u (num js)) a b = 0) by (unfold linear_load; rewrite T1, T2; lra).
    rewrite Z. field. lra. }
  assert (N : forall cs, In cs (cells ns) -> 0 <= f cs).
  { intros cs I. pose proof (cells_length _ _ I) as Lc. rewrite Ln in Lc. destruct cs as [|a [|b [|? ?]]]; try discriminate.
    destruct (E a b I) as (-> & P). apply Rmult_le_pos; [|left; now apply Rinv_0_lt_compat].
    set (t := twisted_load _ _ _ _ _ _). pose proof (Rle_0_sqr t) as Q. unfold Rsqr in Q. lra. }
  split; [pose proof (lsum_nonneg _ _ _ N); lra|].
  intros (a & b & I & Nt & Na).
  assert (0 < f [a; b]).
  { destruct (E a b I) as (-> & P). apply Rdiv_lt_0_compat; [|exact P]. set (t := twisted_load _ _ _ _ _ _).
    assert (t <> 0).
    { unfold t, twisted_load. destruct hs as [|h1 [|h2 [|? ?]]]; try discriminate. inversion Fh as [|? ? ? Fh']; subst. inversion Fh'; subst. cbn [nth].
      assert (0 < h2 / h1) by (apply Rdiv_lt_0_compat; lra). assert (0 < h1 / h2) by (apply Rdiv_lt_0_compat; lra).
      unfold Rdiv at 1. repeat apply Rmult_integral_contrapositive_currified; auto; lra. }
    assert (0 < t * t) by (apply Rsqr_pos_lt; auto). lra. }
  assert (0 < lsum (cells ns) f) by (apply (lsum_pos_one _ (cells ns) f [a; b]); auto). lra.
Qed.
Print Assumptions C138_never_lowered.

(** * One coarse cell, a checkerboard of two by two parts *)
Definition num2 (js : list nat) : nat := match js with [a; b] => a + 2 * b | _ => 4 end.
Definition unit_patch : patch :=
  {| pa_cells := [2; 2]%nat; pa_edges := [1/2; 1/2]; pa_low := [0; 0]; pa_num := num3; pa_n := 9; pa_con := outer9;
     pa_inside := fun _ => true; pa_global := fun f xs => map (fun t => (INR (fst t) + snd t) / 2) (combine f xs) |}.
Definition two_colours (s t : R) (f : list nat) : R := if Nat.even (fold_right Nat.add 0%nat f) then s else t.
Definition checkers (s t : R) (y : list R) : nat -> nat -> R :=
  times_unit (two_colours s t) (map (fun c => if Rlt_dec c (1/2) then 0%nat else 1%nat) y).
(** Values 1 and -1 at opposite corners. *)
Definition saddle (i : nat) : R := nth i [1; -1; -1; 1] 0.

Lemma num2_numbering : numbering [1; 1]%nat num2 4.
Proof.
  split; [|split].
  - intros js N. inversion N as [|a ? ? ? La T]; subst. inversion T as [|b ? ? ? Lb T']; subst. inversion T'; subst. cbn. lia.
  - intros js js' N N'. inversion N as [|a ? ? ? La T]; subst. inversion T as [|b ? ? ? Lb T']; subst. inversion T'; subst.
    inversion N' as [|a' ? ? ? La' S]; subst. inversion S as [|b' ? ? ? Lb' S']; subst. inversion S'; subst. cbn. intros E.
    assert (a = a') by lia. assert (b = b') by lia. congruence.
  - intros i L. exists [i mod 2; i / 2]%nat. split.
    + constructor; [pose proof (Nat.mod_upper_bound i 2); lia|constructor; [|constructor]]. apply Nat.lt_succ_r, Nat.div_lt_upper_bound; lia.
    + cbn [num2]. rewrite (Nat.div_mod i 2) at 3 by lia. lia.
Qed.
Lemma unit_sound : sound 2 unit_patch.
Proof.
  unfold sound. cbn [unit_patch pa_cells pa_edges pa_low pa_num pa_n].
  split; [auto|split; [auto|split; [auto|split; [repeat constructor|split; [|apply num3_numbering]]]]]. repeat constructor; lra.
Qed.
Lemma unit_no_oversampling : no_oversampling [1; 1] unit_patch.
Proof.
  split; [apply unit_sound|]. split; [|split; [reflexivity|apply outer9_constrained]].
  intros k L. destruct k as [|[|k]]; [| |cbn in L; lia]; cbn; lra.
Qed.
Lemma unit_quartered : forall s t, 0 < s -> 0 < t -> quartered [1; 1] unit_patch (checkers s t) (two_colours s t).
Proof.
  intros s t Ps Pt. split; [reflexivity|]. split.
  - intros f xs i j If Lx Fx _ _. destruct xs as [|x [|y [|? ?]]]; try discriminate. inversion Fx as [|? ? Hx Fx']; subst. inversion Fx' as [|? ? Hy _]; subst.
    unfold checkers. cbn in If. destruct If as [<-|[<-|[<-|[<-|[]]]]]; cbn [unit_patch pa_global combine map fst snd INR];
      repeat (destruct (Rlt_dec _ _); try lra); reflexivity.
  - intros f _. unfold two_colours. destruct (Nat.even _); auto.
Qed.
Lemma checkers_positive : forall s t, 0 < s -> 0 < t -> forall y, positive 2 (checkers s t y).
Proof.
  intros s t Ps Pt y z (k & Lk & Nk). unfold checkers. set (f := map _ _). assert (P : 0 < two_colours s t f) by (unfold two_colours; destruct (Nat.even _); auto).
  unfold dot, mv, times_unit. cbn. pose proof (Rle_0_sqr (z 0%nat)) as A. pose proof (Rle_0_sqr (z 1%nat)) as B. unfold Rsqr in *.
  assert (0 < z 0%nat * z 0%nat + z 1%nat * z 1%nat).
  { assert (0 < z k * z k) by (apply Rsqr_pos_lt; auto). destruct k as [|[|k]]; [lra|lra|lia]. }
  set (q := two_colours s t f) in *. replace (0 + (0 + q * z 0%nat + 0 * z 1%nat) * z 0%nat + (0 + 0 * z 0%nat + q * z 1%nat) * z 1%nat)
    with (q * (z 0%nat * z 0%nat + z 1%nat * z 1%nat)) by ring. now apply Rmult_lt_0_compat.
Qed.

(** The energy of the saddle function, without and with correctors. *)
Theorem C138_checkerboard : forall s t, 0 < s -> 0 < t -> exists x M V M0 V0,
  corrected [1; 1] num2 (checkers s t) 2 3 unit_patch [0; 0]%nat x /\
  walk 2 (list R) (checkers s t) (fun _ => 0) (fun _ => 0) (fun _ _ => 0) (fun _ => 0)
    (patched [1; 1]%nat [1; 1] num2 (fun _ => unit_patch) (line_rule 2) (fun _ _ => []) (fun _ => x) (fun _ => [])) = Some (M, V) /\
  walk 2 (list R) (checkers s t) (fun _ => 0) (fun _ => 0) (fun _ _ => 0) (fun _ => 0)
    (patched [1; 1]%nat [1; 1] num2 (fun _ => unit_patch) (line_rule 2) (fun _ _ => []) (fun _ _ _ => 0) (fun _ => [])) = Some (M0, V0) /\
  qform 4 M0 saddle = 4/3 * (s + t) /\ qform 4 M saddle = 4/3 * (s + t) + (s - t) * (s - t) / (s + t).
Proof.
  intros s t Ps Pt.
  destruct (patch_corrected [1; 1] num2 (checkers s t) 2 3 unit_patch [0; 0]%nat eq_refl unit_sound eq_refl ltac:(cbn; lia) ltac:(cbn; lia)
    (checkers_positive s t Ps Pt)) as (x & X).
  assert (W : forall y, exists r, walk 2 (list R) (checkers s t) (fun _ => 0) (fun _ => 0) (fun _ _ => 0) (fun _ => 0)
    (patched [1; 1]%nat [1; 1] num2 (fun _ => unit_patch) (line_rule 2) (fun _ _ => []) y (fun _ => [])) = Some r).
  { intros y. apply walk_some. intros c f I. destruct (patched_in _ _ _ _ _ _ _ _ _ _ I) as (cs & J & -> & _). reflexivity. }
  destruct (W (fun _ => x)) as ((M, V) & Wx). destruct (W (fun _ _ _ => 0)) as ((M0, V0) & W0).
  exists x, M, V, M0, V0. split; [exact X|]. split; [exact Wx|]. split; [exact W0|].
  assert (Fh : Forall (Rlt 0) [1; 1]) by (repeat constructor; lra).
  assert (E0 : qform 4 M0 saddle = 4/3 * (s + t)).
  { rewrite (C138_without_correctors [1; 1]%nat [1; 1] num2 4 (checkers s t) 2 (fun _ => unit_patch) (fun _ _ => []) (fun _ => []) (fun _ => 0) (fun _ => 0)
      M0 V0 (fun _ => two_colours s t) saddle); auto using num2_numbering; [|intros; split; [apply unit_no_oversampling|now apply unit_quartered]].
    cbn [cells flat_map map app seq lsum]. unfold all_parts, two_colours. cbn [fold_right Nat.add Nat.even]. unfold gradient_square.
    cbn [length cube_rule]. unfold cube_rule. rewrite (rule_two _ (fun xs => dot 2 (grad [1; 1] _ [0; 0]%nat xs) (grad [1; 1] _ [0; 0]%nat xs))).
    change (gauss_points 2) with 2%nat. unfold dot. cbn. pose proof (sqrt_sqrt 3 ltac:(lra)) as S. set (w := sqrt 3) in *. unfold saddle. cbn [nth].
    field_simplify. replace (w ^ 2) with 3 by (cbn; lra). lra. }
  split; [exact E0|].
  rewrite (C138_what_correctors_change [1; 1]%nat [1; 1] num2 4 (checkers s t) 2 3 2 (fun _ => unit_patch) (fun _ _ => []) (fun _ => x) (fun _ => []) (fun _ => 0) (fun _ => 0)
    M V M0 V0 (fun _ => two_colours s t) saddle); auto using num2_numbering; try (cbn; lia).
  - rewrite E0. cbn [cells flat_map map app seq lsum raised nth]. unfold linear_load, twisted_load, middle_energy, lower_upper1, lower_upper2, across, all_parts, twist, side1, side2, two_colours, saddle.
    cbn [fold_right Nat.add Nat.even num2 nth Nat.mul]. field. lra.
  - intros cs I. cbn in I. destruct I as [<-|[]]. split; [apply unit_no_oversampling|]. split; [now apply unit_quartered|exact X].
Qed.
Print Assumptions C138_checkerboard.

(** On functions that are not linear, more diffusion can mean less energy in the
    coarse matrix (C119: never on linear functions). *)
Theorem C138_more_diffusion_less_energy : exists x M V x' M' V',
  (forall y z, dot 2 (mv 2 (checkers 10 1 y) z) z <= dot 2 (mv 2 (checkers 10 2 y) z) z) /\
  corrected [1; 1] num2 (checkers 10 1) 2 3 unit_patch [0; 0]%nat x /\
  corrected [1; 1] num2 (checkers 10 2) 2 3 unit_patch [0; 0]%nat x' /\
  walk 2 (list R) (checkers 10 1) (fun _ => 0) (fun _ => 0) (fun _ _ => 0) (fun _ => 0)
    (patched [1; 1]%nat [1; 1] num2 (fun _ => unit_patch) (line_rule 2) (fun _ _ => []) (fun _ => x) (fun _ => [])) = Some (M, V) /\
  walk 2 (list R) (checkers 10 2) (fun _ => 0) (fun _ => 0) (fun _ _ => 0) (fun _ => 0)
    (patched [1; 1]%nat [1; 1] num2 (fun _ => unit_patch) (line_rule 2) (fun _ _ => []) (fun _ => x') (fun _ => [])) = Some (M', V') /\
  qform 4 M' saddle < qform 4 M saddle.
Proof.
  destruct (C138_checkerboard 10 1 ltac:(lra) ltac:(lra)) as (x & M & V & _ & _ & X & W & _ & _ & E).
  destruct (C138_checkerboard 10 2 ltac:(lra) ltac:(lra)) as (x' & M' & V' & _ & _ & X' & W' & _ & _ & E').
  exists x, M, V, x', M', V'. split; [|split; [exact X|split; [exact X'|split; [exact W|split; [exact W'|rewrite E, E'; lra]]]]].
  intros y z. unfold checkers. set (f := map _ _). unfold dot, mv, times_unit. cbn. unfold two_colours.
  pose proof (Rle_0_sqr (z 0%nat)) as A. pose proof (Rle_0_sqr (z 1%nat)) as B. unfold Rsqr in *. destruct (Nat.even _); lra.
Qed.
Print Assumptions C138_more_diffusion_less_energy.

(** Stripes in 2 x 2 coarse cells (C119_case): never raised, for all functions.
    The checkerboard is C138_checkerboard. *)
Example C138_case : exists x M V M0 V0,
  (forall cs, In cs (cells [2; 2]%nat) -> corrected half num3 BoundsProps.stripes 2 3 (WholeProps.exact_patch outer9 cs) cs (x cs)) /\
  walk 2 (list R) BoundsProps.stripes (fun _ => 0) (fun _ => 0) (fun _ _ => 0) (fun _ => 0)
    (patched [2; 2]%nat half num3 (WholeProps.exact_patch outer9) (line_rule 3) (fun _ _ => []) x (fun _ => [])) = Some (M, V) /\
  walk 2 (list R) BoundsProps.stripes (fun _ => 0) (fun _ => 0) (fun _ _ => 0) (fun _ => 0)
    (patched [2; 2]%nat half num3 (WholeProps.exact_patch outer9) (line_rule 3) (fun _ _ => []) (fun _ _ _ => 0) (fun _ => [])) = Some (M0, V0) /\
  forall u, qform 9 M u <= qform 9 M0 u.
Proof.
  destruct ContrastProps.C136_case as (x & M & V & X & W & _).
  assert (W0 : exists r, walk 2 (list R) BoundsProps.stripes (fun _ => 0) (fun _ => 0) (fun _ _ => 0) (fun _ => 0)
    (patched [2; 2]%nat half num3 (WholeProps.exact_patch outer9) (line_rule 3) (fun _ _ => []) (fun _ _ _ => 0) (fun _ => [])) = Some r).
  { apply walk_some. intros c f I. destruct (patched_in _ _ _ _ _ _ _ _ _ _ I) as (cs & J & -> & _). reflexivity. }
  destruct W0 as ((M0, V0) & W0). exists x, M, V, M0, V0. split; [exact X|split; [exact W|split; [exact W0|]]]. intros u.
  apply (C138_never_raised [2; 2]%nat half num3 9 BoundsProps.stripes 2 3 4 (WholeProps.exact_patch outer9) (fun _ _ => []) x (fun _ => []) (fun _ => 0) (fun _ => 0)
    M V M0 V0 (fun _ => BoundsProps.halves) u); auto using half_pos, num3_numbering; try (cbn; lia).
  - intros cs I. split; [|split; [|now apply X]].
    + split; [apply WholeProps.exact_sound|]. split; [|split; [reflexivity|apply outer9_constrained]].
      intros k L. destruct k as [|[|k]]; [| |cbn in L; lia]; cbn; lra.
    + split; [reflexivity|]. split.
      * intros f xs i j If L F Li Lj. unfold times_unit. destruct (Nat.eqb_spec i j) as [->|D]; [now apply BoundsProps.stripes_halves|].
        unfold BoundsProps.stripes, crossed. destruct (Nat.eqb_spec i j); [congruence|reflexivity].
      * intros f If. cbn in If. destruct If as [<-|[<-|[<-|[<-|[]]]]]; cbn; lra.
  - intros a b I. right. unfold across. cbn. lra.
Qed.

(** The corrector of a corner of such a cell, at the right places. *)
Example C138_right_case : exists y r,
  corrector 2 (patch_points 2 2 BoundsProps.stripes (WholeProps.exact_patch outer9 [0; 0]%nat))
    (patch_points 2 3 BoundsProps.stripes (WholeProps.exact_patch outer9 [0; 0]%nat))
    (pa_n (WholeProps.exact_patch outer9 [0; 0]%nat)) outer9 (field_of (pa_n (WholeProps.exact_patch outer9 [0; 0]%nat)) y) r /\
  let energy := fun w => LinSpec.energy 2 (patch_points 2 2 BoundsProps.stripes (WholeProps.exact_patch outer9 [0; 0]%nat))
    (field_of (pa_n (WholeProps.exact_patch outer9 [0; 0]%nat)) w) (field_of (pa_n (WholeProps.exact_patch outer9 [0; 0]%nat)) w) in
  energy (fun i => y i + r i) = energy y - 3 / 64.
Proof.
  destruct ContrastProps.C136_case as (x & M & V & X & _).
  assert (I : In [0; 0]%nat (cells [2; 2]%nat)) by (cbn; tauto).
  destruct (X _ I 0%nat ltac:(cbn; lia)) as (y & Y & C). exists y, (x [0; 0]%nat 0%nat). split; [exact C|]. intros energy. unfold energy.
  rewrite (C138_at_the_right_places half num3 BoundsProps.stripes 2 3 (WholeProps.exact_patch outer9 [0; 0]%nat) BoundsProps.halves
    (fun m => if Nat.eqb m (num3 [0; 0]%nat) then 1 else 0) 0 0 y (x [0; 0]%nat 0%nat)); auto using half_pos; try (cbn; lia).
  - f_equal. unfold linear_load, twisted_load, middle_energy, side1, side2, twist, lower_upper1, lower_upper2, across, all_parts. cbn. field.
  - split; [apply WholeProps.exact_sound|]. split; [|split; [reflexivity|apply outer9_constrained]].
    intros k L. destruct k as [|[|k]]; [| |cbn in L; lia]; cbn; lra.
  - split; [reflexivity|]. split.
    + intros f xs i j If L F Li Lj. unfold times_unit. destruct (Nat.eqb_spec i j) as [->|D]; [now apply BoundsProps.stripes_halves|].
      unfold BoundsProps.stripes, crossed. destruct (Nat.eqb_spec i j); [congruence|reflexivity].
    + intros f If. cbn in If. destruct If as [<-|[<-|[<-|[<-|[]]]]]; cbn; lra.
Qed.
