(** Proofs for C129. *)
From Coq Require Import Reals List Arith Bool Lra Lia.
From Verif Require Import Util RSum CoarseModel CoarseSpec CoarseProofs LinModel LinSpec LinProofs.
From Verif Require Import SystemModel SystemSpec SystemProofs SystemProps FemModel FemSpec FemProofs FemProps.
From Verif Require Import EnergySpec EnergyProofs QuadModel PatchSpec PatchProofs PatchProps SolveSpec SolveProofs LayerSpec LayerProofs FoldSpec.
Import ListNotations.
Open Scope R_scope.

Lemma lsum_swap : forall A B (l : list A) (m : list B) F, lsum l (fun a => lsum m (F a)) = lsum m (fun b => lsum l (fun a => F a b)).
Proof.
  intros A B l m F. induction l as [|a l IH]; cbn [lsum]; [now rewrite lsum_zero|]. rewrite IH, <- lsum_plus. reflexivity.
Qed.
Lemma lsum_rsum_swap : forall A (l : list A) n F, lsum l (fun a => rsum n (F a)) = rsum n (fun i => lsum l (fun a => F a i)).
Proof. exact lsum_rsum. Qed.

Section Fold.
Variable d : nat.
Variable P : Type.

Lemma form_sum : forall A (l : list A) (f : A -> R) (D : A -> nat -> nat -> R) u v,
  lsum l (fun a => f a * dot d (mv d (D a) u) v) = dot d (mv d (fun i j => lsum l (fun a => f a * D a i j)) u) v.
Proof.
  intros A l f D u v. induction l as [|a l IH]; cbn [lsum].
  - unfold dot, mv. rewrite rsum_0; [reflexivity|]. intros i _. rewrite rsum_0; [ring|]. intros. ring.
  - rewrite IH. unfold dot. rewrite <- rsum_scale, <- rsum_plus. apply rsum_ext. intros i _. unfold mv.
    rewrite <- Rmult_assoc, <- rsum_scale, <- Rmult_plus_distr_r, <- rsum_plus. f_equal. apply rsum_ext. intros j _. ring.
Qed.

Lemma form_ext : forall D D' u u' v v', (forall i j, (i < d)%nat -> (j < d)%nat -> D i j = D' i j) ->
  (forall k, (k < d)%nat -> u k = u' k) -> (forall k, (k < d)%nat -> v k = v' k) -> dot d (mv d D u) v = dot d (mv d D' u') v'.
Proof.
  intros D D' u u' v v' E U V. unfold dot. apply rsum_ext. intros i Li. rewrite V by auto. f_equal. unfold mv. apply rsum_ext. intros j Lj.
  now rewrite E, U.
Qed.

Lemma folded_load : forall (source : P -> R) c vol quad rquad w, same_rules c quad rquad -> vol <> 0 ->
  lsum (covered P c) (fun l => load P source l w) = lsum rquad (fun q => vol * snd q * (folded c vol source (fst q) * w (fst q))).
Proof.
  intros source c vol quad rquad w S V.
  rewrite (lsum_ext _ _ _ (fun l => lsum rquad (fun q => lc_factor P l (fst q) * snd q * (source (lc_global P l (fst q)) * w (fst q))))).
  - rewrite lsum_swap. apply lsum_ext. intros q _. unfold folded.
    rewrite (lsum_ext _ _ _ (fun l => (snd q * w (fst q)) * (lc_factor P l (fst q) * source (lc_global P l (fst q))))) by (intros; ring).
    rewrite lsum_scale. field. exact V.
  - intros l I. unfold load. now rewrite (proj2 (S l I)).
Qed.

Lemma folded_energy : forall (diffusion : P -> nat -> nat -> R) c vol quad rquad u v, same_rules c quad rquad -> vol <> 0 ->
  lsum (covered P c) (fun l => CoarseSpec.energy d P diffusion l u v) =
  lsum quad (fun q => vol * snd q * dot d (mv d (fun i j => folded c vol (fun y => diffusion y i j) (fst q)) (u (fst q))) (v (fst q))).
Proof.
  intros diffusion c vol quad rquad u v S V.
  rewrite (lsum_ext _ _ _ (fun l => lsum quad (fun q => lc_factor P l (fst q) * snd q *
    dot d (mv d (diffusion (lc_global P l (fst q))) (u (fst q))) (v (fst q))))).
  - rewrite lsum_swap. apply lsum_ext. intros q _.
    rewrite (lsum_ext _ _ _ (fun l => snd q * (lc_factor P l (fst q) * dot d (mv d (diffusion (lc_global P l (fst q))) (u (fst q))) (v (fst q))))) by (intros; ring).
    rewrite lsum_scale, form_sum.
    replace (vol * snd q) with (snd q * vol) by ring. rewrite Rmult_assoc. f_equal.
    transitivity (vol * dot d (mv d (fun i j => / vol * lsum (covered P c) (fun l => lc_factor P l (fst q) * diffusion (lc_global P l (fst q)) i j)) (u (fst q))) (v (fst q))).
    + unfold dot. rewrite <- rsum_scale. apply rsum_ext. intros i _. unfold mv. rewrite <- Rmult_assoc. f_equal. rewrite <- rsum_scale.
      apply rsum_ext. intros j _. field. exact V.
    + f_equal. apply form_ext; auto. intros i j _ _. unfold folded. unfold Rdiv. ring.
  - intros l I. unfold CoarseSpec.energy. now rewrite (proj1 (S l I)).
Qed.

(** Nothing added: the functions used are the coarse functions. *)
Lemma plain_grad : forall c quad rquad l q v k, nothing_added c quad rquad -> In l (covered P c) -> In q (quad ++ rquad) ->
  test_grad P v c l (fst q) k = rsum (cc_n P c) (fun i => v (cc_index P c i) * cc_grad P c i (fst q) k).
Proof.
  intros c quad rquad l q v k N I Q. unfold test_grad, used_grad. apply rsum_ext. intros i Li.
  destruct (N l q i I Q) as (_ & Z); [lia|]. rewrite Z. ring.
Qed.
Lemma plain_val : forall c quad rquad l q v, nothing_added c quad rquad -> In l (covered P c) -> In q (quad ++ rquad) ->
  test_val P v c l (fst q) = test_coarse P v c (fst q).
Proof.
  intros c quad rquad l q v N I Q. unfold test_val, test_coarse, used_val. apply rsum_ext. intros i Li.
  destruct (N l q i I Q) as (Z & _); [lia|]. rewrite Z. ring.
Qed.

Lemma plain_energy : forall (diffusion : P -> nat -> nat -> R) c vol quad rquad u v, same_rules c quad rquad -> nothing_added c quad rquad -> vol <> 0 ->
  let G := fun w x k => rsum (cc_n P c) (fun i => w (cc_index P c i) * cc_grad P c i x k) in
  lsum (covered P c) (fun l => ms_energy d P diffusion u c l (test_grad P v c l)) =
  lsum quad (fun q => vol * snd q * dot d (mv d (fun i j => folded c vol (fun y => diffusion y i j) (fst q)) (G u (fst q))) (G v (fst q))).
Proof.
  intros diffusion c vol quad rquad u v S N V G. rewrite <- (folded_energy diffusion c vol quad rquad (G u) (G v) S V).
  apply lsum_ext. intros l I. unfold ms_energy. destruct (S l I) as (S1 & S2).
  assert (B : rhs_energy d P diffusion l (boundary_grad P c l) (test_grad P v c l) = 0).
  { unfold rhs_energy. rewrite S2. apply lsum_0. intros q Q. unfold dot. rewrite rsum_0; [ring|]. intros k Lk.
    unfold mv. rewrite rsum_0; [ring|]. intros m Lm. unfold boundary_grad.
    assert (Q' : In q (quad ++ rquad)) by (apply in_or_app; now right).
    destruct (N l q (cc_n P c + 1)%nat I Q') as (_ & Z1); [lia|]. destruct (N l q (cc_n P c) I Q') as (_ & Z2); [lia|].
    rewrite Z1, Z2. ring. }
  rewrite B, Rplus_0_r. unfold CoarseSpec.energy. rewrite S1. apply lsum_ext. intros q Q. f_equal.
  assert (Q' : In q (quad ++ rquad)) by (apply in_or_app; now left).
  apply form_ext; auto; intros k _; now apply (plain_grad c quad rquad).
Qed.

Lemma plain_load : forall (source : P -> R) c vol quad rquad v, same_rules c quad rquad -> nothing_added c quad rquad -> vol <> 0 ->
  lsum (covered P c) (fun l => load P source l (test_val P v c l)) =
  lsum rquad (fun q => vol * snd q * (folded c vol source (fst q) * test_coarse P v c (fst q))).
Proof.
  intros source c vol quad rquad v S N V. rewrite <- (folded_load source c vol quad rquad (test_coarse P v c) S V).
  apply lsum_ext. intros l I. unfold load. rewrite (proj2 (S l I)). apply lsum_ext. intros q Q. do 2 f_equal.
  apply (plain_val c quad rquad); auto. apply in_or_app. now right.
Qed.

Section System.
Variable diffusion : P -> nat -> nat -> R.
Variable source : P -> R.
Variable neumann : P -> R.
Variable T : Type.
Variables (idx : list T) (C : T -> coarse_cell P) (F : T -> list (cface P)).
Variables (vol : T -> R) (quad rquad : T -> list (P * R)).
Hypothesis Ok : forall a, In a idx -> cc_slots P (C a) = (cc_n P (C a) + 2)%nat /\ vol a <> 0 /\
  same_rules (C a) (quad a) (rquad a) /\ nothing_added (C a) (quad a) (rquad a).

Lemma folded_solution : forall diffusion' source' global N constrained g start u,
  (forall a q, In a idx -> In q (quad a) -> forall i j, (i < d)%nat -> (j < d)%nat ->
     diffusion' (global a (fst q)) i j = folded (C a) (vol a) (fun y => diffusion y i j) (fst q)) ->
  (forall a q, In a idx -> In q (rquad a) -> source' (global a (fst q)) = folded (C a) (vol a) source (fst q)) ->
  (forall a i, In a idx -> (i < cc_n P (C a))%nat -> (cc_index P (C a) i < N)%nat) ->
  (coarse_solution d P diffusion source neumann N constrained g (map (fun a => (C a, F a)) idx) u <->
   fem_solution d P diffusion' source' neumann N constrained g start
     (map (fun a => (fem_cell (C a) (global a) (vol a) (quad a) (rquad a), F a)) idx) u).
Proof.
  intros diffusion' source' global N constrained g start u Fd Fs L.
  rewrite C90_multiscale_solution_balances.
  2:{ intros c fs i I. apply in_map_iff in I. destruct I as (a & E & I). injection E as <- <-. now apply L. }
  2:{ intros c fs I. apply in_map_iff in I. destruct I as (a & E & I). injection E as <- <-. apply (Ok a I). }
  rewrite C93_reference_solution_balances.
  2:{ intros c fs i I. apply in_map_iff in I. destruct I as (a & E & I). injection E as <- <-. cbn [fst fem_cell fc_n fc_index]. now apply L. }
  apply and_iff_compat_l.
  assert (E1 : forall v, lsum (map (fun a => (C a, F a)) idx) (fun cf => lsum (covered P (fst cf)) (fun l => ms_energy d P diffusion u (fst cf) l (test_grad P v (fst cf) l))) =
      lsum (map (fun a => (fem_cell (C a) (global a) (vol a) (quad a) (rquad a), F a)) idx)
        (fun cf => fine_energy d P diffusion' (fst cf) (fine_grad P u (fst cf)) (fine_grad P v (fst cf)))).
  { intros v. rewrite !lsum_map. apply lsum_ext. intros a I. cbn [fst snd]. destruct (Ok a I) as (_ & V & S & Na).
    rewrite (plain_energy diffusion (C a) (vol a) (quad a) (rquad a)) by auto. unfold fine_energy. cbn [fem_cell fc_quad fc_factor fc_global].
    apply lsum_ext. intros q Q. f_equal. apply form_ext; auto. intros i j Li Lj. symmetry. now apply Fd. }
  assert (E2 : forall v, lsum (map (fun a => (C a, F a)) idx) (fun cf => lsum (covered P (fst cf)) (fun l => load P source l (test_val P v (fst cf) l))
        + boundary_load P neumann (snd cf) (test_coarse P v (fst cf))) =
      lsum (map (fun a => (fem_cell (C a) (global a) (vol a) (quad a) (rquad a), F a)) idx)
        (fun cf => fine_load P source' (fst cf) (fine_val P v (fst cf)) + boundary_load P neumann (snd cf) (fine_val P v (fst cf)))).
  { intros v. rewrite !lsum_map. apply lsum_ext. intros a I. cbn [fst snd]. destruct (Ok a I) as (_ & V & S & Na). f_equal.
    rewrite (plain_load source (C a) (vol a) (quad a) (rquad a)) by auto. unfold fine_load. cbn [fem_cell fc_rquad fc_factor fc_global].
    apply lsum_ext. intros q Q. do 2 f_equal. symmetry. now apply Fs. }
  split; intros B v Z; specialize (B v Z); [now rewrite <- E1, <- E2|now rewrite E1, E2].
Qed.
End System.

(** Two sources, arbitrary corrections. *)
Lemma split_load : forall (source : P -> R) v c l,
  load P source l (test_val P v c l) = load P source l (test_coarse P v c) + load P source l (correction v c l).
Proof.
  intros source v c l. unfold load. rewrite <- lsum_plus. apply lsum_ext. intros q _.
  assert (E : test_val P v c l (fst q) = test_coarse P v c (fst q) + correction v c l (fst q)).
  { unfold test_val, test_coarse, correction, used_val. rewrite <- rsum_plus. apply rsum_ext. intros i _. ring. }
  rewrite E. ring.
Qed.
Lemma same_fold_load : forall (source source' : P -> R) c vol quad rquad v, same_rules c quad rquad -> vol <> 0 ->
  (forall q, In q rquad -> folded c vol source (fst q) = folded c vol source' (fst q)) ->
  lsum (covered P c) (fun l => load P source l (test_val P v c l)) - lsum (covered P c) (fun l => load P source' l (test_val P v c l)) =
  lsum (covered P c) (fun l => load P (fun y => source y - source' y) l (correction v c l)).
Proof.
  intros source source' c vol quad rquad v S V E.
  rewrite (lsum_ext _ _ _ _ (fun l _ => split_load source v c l)), (lsum_ext _ _ _ _ (fun l _ => split_load source' v c l)).
  rewrite !lsum_plus, !(folded_load _ c vol quad rquad (test_coarse P v c) S V).
  rewrite (lsum_ext _ rquad (fun q => vol * snd q * (folded c vol source (fst q) * test_coarse P v c (fst q)))
    (fun q => vol * snd q * (folded c vol source' (fst q) * test_coarse P v c (fst q)))) by (intros q Q; now rewrite E).
  assert (F : lsum (covered P c) (fun l => load P (fun y => source y - source' y) l (correction v c l)) =
    lsum (covered P c) (fun l => load P source l (correction v c l)) - lsum (covered P c) (fun l => load P source' l (correction v c l))).
  { rewrite <- lsum_minus. apply lsum_ext. intros l _. unfold load. rewrite <- lsum_minus. apply lsum_ext. intros q _. ring. }
  rewrite F. ring.
Qed.
Lemma lsum_one : forall A (l : list A), lsum l (fun _ => 1) = INR (length l).
Proof. induction l as [|a l IH]; [reflexivity|]. cbn [length lsum]. rewrite S_INR, IH. ring. Qed.
End Fold.

(** * Boxes *)
Lemma multilinear_scale : forall d s w, multilinear d w -> multilinear d (fun js => s * w js).
Proof.
  induction d as [|d IH]; intros s w M; [exact I|]. destruct M as (a & b & A & B & E).
  exists (fun js => s * a js), (fun js => s * b js). split; [now apply IH|]. split; [now apply IH|]. intros j js. rewrite E. ring.
Qed.
Lemma restricted_multilinear : forall d hs os gs v cs, length hs = d -> length os = d -> length gs = d -> length cs = d ->
  multilinear d (fun js => value v cs (place os gs hs js (map (fun _ => 0) js))).
Proof.
  induction d as [|d IH]; intros [|h hs] [|o os] [|g gs] v [|c cs] Lh Lo Lg Lc; try discriminate; [exact I|].
  injection Lh as Lh. injection Lo as Lo. injection Lg as Lg. injection Lc as Lc.
  pose proof (IH hs os gs (fun js => v (c :: js)) cs Lh Lo Lg Lc) as M0.
  pose proof (IH hs os gs (fun js => v (S c :: js)) cs Lh Lo Lg Lc) as M1.
  exists (fun js => (1 - o) * value (fun js => v (c :: js)) cs (place os gs hs js (map (fun _ => 0) js))
            + o * value (fun js => v (S c :: js)) cs (place os gs hs js (map (fun _ => 0) js))),
         (fun js => g / h * value (fun js => v (S c :: js)) cs (place os gs hs js (map (fun _ => 0) js))
            + - (g / h) * value (fun js => v (c :: js)) cs (place os gs hs js (map (fun _ => 0) js))).
  split; [|split].
  - apply multilinear_comb; auto. now apply multilinear_scale.
  - apply multilinear_comb; auto. now apply multilinear_scale.
  - intros j js. cbn [map place value]. ring.
Qed.

(** Constant diagonal diffusion: the stored functions vanish. *)
Section Boxes.
Variables (ns : list nat) (hs : list R) (num : list nat -> nat) (n : nat) (A : nat -> nat -> R).
Variable diffusion : list R -> nat -> nat -> R.
Variables order rhs_order : nat.
Hypothesis NE : ns <> [].
Hypothesis Lh : length hs = length ns.
Hypothesis Dg : diagonal A.
Hypothesis Ap : forall k, (k < length ns)%nat -> 0 < A k k.
Hypothesis Dc : forall y, diffusion y = A.
Hypothesis Go : (2 <= gauss_points order <= 3)%nat.

Lemma constant_points : forall p o, patch_points (length ns) o diffusion p =
  grid_points (length ns) o (box_elements (pa_cells p) (pa_edges p) (pa_num p) A).
Proof.
  intros p o. unfold patch_points, varied_elements, box_elements. f_equal. apply map_ext. intros cs. f_equal.
  apply Coq.Logic.FunctionalExtensionality.functional_extensionality. intros x. apply Dc.
Qed.

Lemma corrector_vanishes : forall p cs x, sound (length ns) p -> outer_constrained (pa_cells p) (pa_num p) (pa_con p) -> In cs (cells ns) ->
  corrected hs num diffusion order rhs_order p cs x -> forall i m, (i < length (corners cs))%nat -> (m < pa_n p)%nat -> x i m = 0.
Proof.
  intros p cs x So Oc Ic Co i m Li Lm. pose proof So as (Lc & Le & Ll & Fc & Fe & Nu).
  destruct (Co i Li) as (y & Y & C). rewrite Lh, !constant_points in C.
  assert (NEp : pa_cells p <> []) by (intros E; rewrite E in Lc; destruct ns; [now apply NE|discriminate]).
  revert m Lm. rewrite <- Lc in C. 
  apply (proj1 (C108_multilinear_functions_need_no_correction (pa_cells p) (pa_edges p) (pa_num p) (pa_n p) (pa_con p) A order rhs_order
    (restricted hs p (one_at num (num (nth i (corners cs) []))) cs) y (x i) NEp ltac:(lia) Fc Fe Dg ltac:(intros k Lk; apply Ap; lia) Nu Oc Go
    ltac:(unfold restricted; apply restricted_multilinear; try lia; rewrite Lc; now apply cells_length) Y)). exact C.
Qed.
End Boxes.
