(** Proofs for C108. *)
From Coq Require Import Reals List Arith Bool Lra Lia.
From Verif Require Import Util RSum CoarseModel CoarseSpec CoarseProofs LinModel LinSpec LinProofs.
From Verif Require Import SystemModel SystemSpec SystemProofs FemModel FemSpec FemProofs.
From Verif Require Import EnergySpec EnergyProofs QuadModel PatchSpec.
Import ListNotations.
Open Scope R_scope.

(** * Interpolation on one cell *)
Lemma value_ext : forall cs xs v w, length xs = length cs ->
  (forall js, In js (corners cs) -> v js = w js) -> value v cs xs = value w cs xs.
Proof.
  induction cs as [|c cs IH]; intros [|x xs] v w L E; try discriminate L; [apply E; now left|].
  cbn [value]. injection L as L. f_equal; f_equal; apply IH; auto; intros js I; apply E; cbn [corners];
    apply in_or_app; [left|right]; now apply in_map.
Qed.
Lemma value_lin : forall cs xs a b v w,
  value (fun js => a * v js + b * w js) cs xs = a * value v cs xs + b * value w cs xs.
Proof.
  induction cs as [|c cs IH]; intros [|x xs] a b v w; cbn [value]; auto.
  rewrite (IH xs a b (fun js => v (c :: js)) (fun js => w (c :: js))).
  rewrite (IH xs a b (fun js => v (S c :: js)) (fun js => w (S c :: js))). ring.
Qed.
Lemma value_zero : forall cs xs, value (fun _ => 0) cs xs = 0.
Proof. induction cs as [|c cs IH]; intros [|x xs]; cbn [value]; auto. rewrite IH. ring. Qed.

Lemma grad_ext : forall hs cs xs k v w, length xs = length cs ->
  (forall js, In js (corners cs) -> v js = w js) -> grad hs v cs xs k = grad hs w cs xs k.
Proof.
  induction hs as [|h hs IH]; intros [|c cs] [|x xs] k v w L E; try discriminate L; auto.
  injection L as L.
  assert (E1 : forall js, In js (corners cs) -> v (c :: js) = w (c :: js))
    by (intros js I; apply E; cbn [corners]; apply in_or_app; left; now apply in_map).
  assert (E2 : forall js, In js (corners cs) -> v (S c :: js) = w (S c :: js))
    by (intros js I; apply E; cbn [corners]; apply in_or_app; right; now apply in_map).
  destruct k as [|k]; cbn [grad].
  - rewrite (value_ext cs xs (fun js => v (S c :: js)) (fun js => w (S c :: js))) by auto.
    rewrite (value_ext cs xs (fun js => v (c :: js)) (fun js => w (c :: js))) by auto. reflexivity.
  - rewrite (IH cs xs k (fun js => v (S c :: js)) (fun js => w (S c :: js))) by auto.
    rewrite (IH cs xs k (fun js => v (c :: js)) (fun js => w (c :: js))) by auto. reflexivity.
Qed.
Lemma grad_lin : forall hs cs xs k a b v w,
  grad hs (fun js => a * v js + b * w js) cs xs k = a * grad hs v cs xs k + b * grad hs w cs xs k.
Proof.
  induction hs as [|h hs IH]; intros [|c cs] [|x xs] k a b v w; cbn [grad]; try ring.
  destruct k as [|k].
  - rewrite (value_lin cs xs a b (fun js => v (S c :: js)) (fun js => w (S c :: js))).
    rewrite (value_lin cs xs a b (fun js => v (c :: js)) (fun js => w (c :: js))). unfold Rdiv. ring.
  - rewrite (IH cs xs k a b (fun js => v (S c :: js)) (fun js => w (S c :: js))).
    rewrite (IH cs xs k a b (fun js => v (c :: js)) (fun js => w (c :: js))). ring.
Qed.
Lemma grad_zero : forall hs cs xs k, grad hs (fun _ => 0) cs xs k = 0.
Proof.
  induction hs as [|h hs IH]; intros [|c cs] [|x xs] k; cbn [grad]; auto.
  destruct k; [rewrite value_zero; unfold Rdiv; ring|rewrite IH; ring].
Qed.
Lemma grad_sum : forall n hs cs xs k (y : nat -> R) (b : nat -> list nat -> R), length xs = length cs ->
  rsum n (fun j => y j * grad hs (b j) cs xs k) = grad hs (fun js => rsum n (fun j => y j * b j js)) cs xs k.
Proof.
  intros n hs cs xs k y b L. induction n as [|n IH]; cbn [rsum]; [now rewrite grad_zero|].
  rewrite IH. rewrite <- (Rmult_1_l (grad hs (fun js => rsum n _) cs xs k)).
  rewrite <- (grad_lin hs cs xs k 1 (y n)). apply grad_ext; auto. intros js _. ring.
Qed.
Lemma value_sum : forall n cs xs (y : nat -> R) (b : nat -> list nat -> R), length xs = length cs ->
  rsum n (fun j => y j * value (b j) cs xs) = value (fun js => rsum n (fun j => y j * b j js)) cs xs.
Proof.
  intros n cs xs y b L. induction n as [|n IH]; cbn [rsum]; [now rewrite value_zero|].
  rewrite IH. rewrite <- (Rmult_1_l (value (fun js => rsum n _) cs xs)).
  rewrite <- (value_lin cs xs 1 (y n)). apply value_ext; auto. intros js _. ring.
Qed.

(** * Sums over all cells and points *)
Lemma rule_length : forall line d q, In q (product_rule line d) -> length (fst q) = d.
Proof.
  intros line. induction d as [|d IH]; intros q I; cbn [product_rule] in I.
  - destruct I as [<-|[]]. reflexivity.
  - apply in_flat_map in I. destruct I as (p & _ & I). apply in_map_iff in I. destruct I as (r & <- & I).
    cbn. now rewrite (IH r I).
Qed.
Lemma cells_length : forall ns cs, In cs (cells ns) -> length cs = length ns.
Proof.
  induction ns as [|n ns IH]; intros cs I; cbn [cells] in I.
  - destruct I as [<-|[]]. reflexivity.
  - apply in_flat_map in I. destruct I as (c & _ & I). apply in_map_iff in I. destruct I as (r & <- & I).
    cbn. now rewrite (IH r I).
Qed.
Lemma corner_node : forall ns cs js, In cs (cells ns) -> In js (corners cs) -> node ns js.
Proof.
  induction ns as [|n ns IH]; intros cs js I J; cbn [cells] in I.
  - destruct I as [<-|[]]. destruct J as [<-|[]]. constructor.
  - apply in_flat_map in I. destruct I as (c & Ic & I). apply in_map_iff in I. destruct I as (r & <- & I).
    apply in_seq in Ic. cbn [corners] in J. apply in_app_or in J.
    destruct J as [J|J]; apply in_map_iff in J; destruct J as (js' & <- & J); constructor; try lia; now apply (IH r).
Qed.
Lemma node_corner : forall ns js, Forall (fun n => (0 < n)%nat) ns -> node ns js ->
  exists cs, In cs (cells ns) /\ In js (corners cs).
Proof.
  induction ns as [|n ns IH]; intros js F N; inversion N; subst.
  - exists []. split; now left.
  - inversion F; subst. destruct (IH l H4 H3) as (cs & I & J). destruct (Nat.eq_dec x n) as [->|D].
    + exists (pred n :: cs). split.
      * cbn [cells]. apply in_flat_map. exists (pred n). split; [apply in_seq; lia|now apply in_map].
      * cbn [corners]. apply in_or_app. right. replace (S (pred n)) with n by lia. now apply in_map.
    + exists (x :: cs). split.
      * cbn [cells]. apply in_flat_map. exists x. split; [apply in_seq; lia|now apply in_map].
      * cbn [corners]. apply in_or_app. left. now apply in_map.
Qed.

Definition bsum (ns : list nat) (line : list (R * R)) (f : list nat -> list R -> R) : R :=
  lsum (cells ns) (fun cs => lsum (product_rule line (length ns)) (fun q => snd q * f cs (fst q))).

Lemma bsum_ext : forall ns line f g,
  (forall cs xs, In cs (cells ns) -> length xs = length cs -> f cs xs = g cs xs) -> bsum ns line f = bsum ns line g.
Proof.
  intros ns line f g E. unfold bsum. apply lsum_ext. intros cs I. apply lsum_ext. intros q J.
  f_equal. apply E; auto. rewrite (rule_length _ _ _ J). symmetry. now apply cells_length.
Qed.
Lemma bsum_lin : forall ns line a b f g,
  bsum ns line (fun cs xs => a * f cs xs + b * g cs xs) = a * bsum ns line f + b * bsum ns line g.
Proof.
  intros. unfold bsum. rewrite <- !lsum_scale, <- lsum_plus. apply lsum_ext. intros cs _.
  rewrite <- !lsum_scale, <- lsum_plus. apply lsum_ext. intros q _. ring.
Qed.
Lemma bsum_scale : forall ns line a f, bsum ns line (fun cs xs => a * f cs xs) = a * bsum ns line f.
Proof.
  intros. unfold bsum. rewrite <- !lsum_scale. apply lsum_ext. intros cs _.
  rewrite <- !lsum_scale. apply lsum_ext. intros q _. ring.
Qed.
Lemma bsum_minus : forall ns line f g,
  bsum ns line (fun cs xs => f cs xs - g cs xs) = bsum ns line f - bsum ns line g.
Proof.
  intros. rewrite (bsum_ext ns line _ (fun cs xs => 1 * f cs xs + (-1) * g cs xs)) by (intros; ring).
  rewrite bsum_lin. ring.
Qed.
Lemma bsum_0 : forall ns line f,
  (forall cs xs, In cs (cells ns) -> length xs = length cs -> f cs xs = 0) -> bsum ns line f = 0.
Proof.
  intros ns line f Z. rewrite (bsum_ext ns line f (fun _ _ => 0 * 0)) by (intros; rewrite Z by auto; ring).
  rewrite (bsum_scale ns line 0 (fun _ _ => 0)). ring.
Qed.
Lemma bsum_rsum : forall ns line n (f : nat -> list nat -> list R -> R),
  bsum ns line (fun cs xs => rsum n (fun k => f k cs xs)) = rsum n (fun k => bsum ns line (f k)).
Proof.
  intros ns line n f. induction n as [|n IH]; cbn [rsum]; [now apply bsum_0|].
  rewrite <- IH. rewrite (bsum_ext ns line _ (fun cs xs => 1 * rsum n (fun k => f k cs xs) + 1 * f n cs xs)) by (intros; ring).
  rewrite bsum_lin. ring.
Qed.
Lemma bsum_cons : forall n ns line f,
  bsum (n :: ns) line f =
  lsum line (fun p => snd p * rsum n (fun c => bsum ns line (fun cs xs => f (c :: cs) (fst p :: xs)))).
Proof.
  intros n ns line f. unfold bsum. cbn [cells length product_rule]. rewrite lsum_flat_map.
  transitivity (rsum n (fun c => lsum line (fun p => snd p * lsum (cells ns) (fun cs =>
    lsum (product_rule line (length ns)) (fun q => snd q * f (c :: cs) (fst p :: fst q)))))).
  - rewrite lsum_seq. apply rsum_ext. intros c _. rewrite Nat.add_0_l. rewrite lsum_map.
    transitivity (lsum (cells ns) (fun cs => lsum line (fun p => snd p *
      lsum (product_rule line (length ns)) (fun q => snd q * f (c :: cs) (fst p :: fst q))))).
    + apply lsum_ext. intros cs _. rewrite lsum_flat_map. apply lsum_ext. intros p _. rewrite lsum_map.
      rewrite <- lsum_scale. apply lsum_ext. intros q _. cbn [fst snd]. ring.
    + induction (cells ns) as [|cs r IH]; cbn [lsum].
      * symmetry. apply lsum_0. intros. ring.
      * rewrite IH, <- lsum_plus. apply lsum_ext. intros p _. ring.
  - rewrite <- lsum_rsum. apply lsum_ext. intros p _. now rewrite rsum_scale.
Qed.

Lemma telescope : forall n (g : nat -> R), rsum n (fun c => g (S c) - g c) = g n - g 0%nat.
Proof. induction n as [|n IH]; intros g; cbn [rsum]; [ring|]. rewrite IH. ring. Qed.

(** * Multilinear functions *)
Lemma multilinear_ext : forall d v w, (forall js, v js = w js) -> multilinear d v -> multilinear d w.
Proof.
  destruct d; intros v w E M; [exact I|]. destruct M as (a & b & A & B & M). exists a, b.
  split; [exact A|]. split; [exact B|]. intros. now rewrite <- E.
Qed.
Lemma multilinear_comb : forall d s v w, multilinear d v -> multilinear d w -> multilinear d (fun js => v js + s * w js).
Proof.
  induction d as [|d IH]; intros s v w V W; [exact I|].
  destruct V as (a & b & A & B & V). destruct W as (a' & b' & A' & B' & W).
  exists (fun js => a js + s * a' js), (fun js => b js + s * b' js). split; [now apply IH|]. split; [now apply IH|].
  intros j js. rewrite V, W. ring.
Qed.
Lemma multilinear_slice : forall d v c, multilinear (S d) v -> multilinear d (fun js => v (c :: js)).
Proof.
  intros d v c (a & b & A & B & V). apply (multilinear_ext d (fun js => a js + INR c * b js)); [intros; now rewrite V|].
  now apply multilinear_comb.
Qed.

Definition vanishing (ns : list nat) (w : list nat -> R) : Prop :=
  forall js, node ns js -> outer_node ns js = true -> w js = 0.
Lemma vanishing_slice : forall n ns w c, (c <= n)%nat -> vanishing (n :: ns) w -> vanishing ns (fun js => w (c :: js)).
Proof.
  intros n ns w c L V js N O. apply V; [now constructor|]. cbn [outer_node]. rewrite O. now rewrite orb_true_r.
Qed.
Lemma vanishing_end : forall n ns w c, c = O \/ c = n -> vanishing (n :: ns) w -> forall js, node ns js -> w (c :: js) = 0.
Proof.
  intros n ns w c E V js N. apply V; [constructor; auto; lia|]. cbn [outer_node].
  destruct E as [->| ->]; rewrite Nat.eqb_refl; cbn; auto. now rewrite orb_true_r.
Qed.

(** A function vanishing on the boundary has no mean derivative, not even
    against something independent of the direction. *)
Lemma mean_slope : forall ns hs line k w, vanishing ns w ->
  bsum ns line (fun cs xs => grad hs w cs xs k) = 0.
Proof.
  induction ns as [|n ns IH]; intros hs line k w V.
  { apply bsum_0. intros [|c cs] [|x xs] I L; try discriminate L; destruct hs; try reflexivity; destruct I as [I|[]]; discriminate. }
  rewrite bsum_cons. apply lsum_0. intros p _. destruct hs as [|h hs].
  { rewrite rsum_0; [ring|]. intros c L. apply bsum_0. reflexivity. }
  destruct k as [|k]; cbn [grad].
  - set (g := fun c => bsum ns line (fun cs xs => / h * value (fun js => w (c :: js)) cs xs)).
    rewrite (rsum_ext n _ (fun c => g (S c) - g c)).
    + rewrite telescope. unfold g. rewrite !bsum_0; [ring| |].
      * intros cs xs I L. rewrite (value_ext cs xs _ (fun _ => 0)); [rewrite value_zero; ring|auto|].
        intros js J. apply (vanishing_end n ns w 0); auto. now apply (corner_node ns cs).
      * intros cs xs I L. rewrite (value_ext cs xs _ (fun _ => 0)); [rewrite value_zero; ring|auto|].
        intros js J. apply (vanishing_end n ns w n); auto. now apply (corner_node ns cs).
    + intros c L. unfold g. rewrite <- bsum_minus. apply bsum_ext. intros. unfold Rdiv. ring.
  - rewrite rsum_0; [ring|]. intros c L. rewrite bsum_lin.
    rewrite (IH hs line k (fun js => w (c :: js))) by (apply (vanishing_slice n); [lia|auto]).
    rewrite (IH hs line k (fun js => w (S c :: js))) by (apply (vanishing_slice n); [lia|auto]). ring.
Qed.

Lemma directional : forall ns hs line k v w, multilinear (length ns) v -> vanishing ns w ->
  bsum ns line (fun cs xs => grad hs v cs xs k * grad hs w cs xs k) = 0.
Proof.
  induction ns as [|n ns IH]; intros hs line k v w M V.
  { apply bsum_0. intros [|c cs] [|x xs] I L; try discriminate L; destruct hs; try (cbn; ring); destruct I as [I|[]]; discriminate. }
  rewrite bsum_cons. apply lsum_0. intros p _. destruct hs as [|h hs].
  { rewrite rsum_0; [ring|]. intros c L. apply bsum_0. intros. cbn. ring. }
  destruct k as [|k]; cbn [grad].
  - destruct M as (a & b & A & B & E).
    set (g := fun c => bsum ns line (fun cs xs => value b cs xs / h * (/ h * value (fun js => w (c :: js)) cs xs))).
    rewrite (rsum_ext n _ (fun c => g (S c) - g c)).
    + rewrite telescope. unfold g. rewrite !bsum_0; [ring| |].
      * intros cs xs I L. rewrite (value_ext cs xs (fun js => w (0%nat :: js)) (fun _ => 0)); [rewrite value_zero; ring|auto|].
        intros js J. apply (vanishing_end n ns w 0); auto. now apply (corner_node ns cs).
      * intros cs xs I L. rewrite (value_ext cs xs (fun js => w (n :: js)) (fun _ => 0)); [rewrite value_zero; ring|auto|].
        intros js J. apply (vanishing_end n ns w n); auto. now apply (corner_node ns cs).
    + intros c L. unfold g. rewrite <- bsum_minus. apply bsum_ext. intros cs xs I Lx.
      assert (D : value (fun js => v (S c :: js)) cs xs = value (fun js => v (c :: js)) cs xs + value b cs xs).
      { rewrite <- (Rmult_1_l (value b cs xs)). rewrite <- (Rmult_1_l (value (fun js => v (c :: js)) cs xs)).
        rewrite <- value_lin. apply value_ext; auto. intros js _. rewrite !E, S_INR. ring. }
      rewrite D. unfold Rdiv. ring.
  - rewrite rsum_0; [ring|]. intros c L.
    pose proof (fun c1 c2 (H1 : (c1 <= n)%nat) (H2 : (c2 <= n)%nat) => IH hs line k (fun js => v (c1 :: js)) (fun js => w (c2 :: js))
      (multilinear_slice _ _ _ M) (vanishing_slice n ns w c2 H2 V)) as T.
    set (x := fst p).
    rewrite (bsum_ext ns line _ (fun cs xs =>
      1 * ((1 - x) * (1 - x) * (grad hs (fun js => v (c :: js)) cs xs k * grad hs (fun js => w (c :: js)) cs xs k)
           + (1 - x) * x * (grad hs (fun js => v (c :: js)) cs xs k * grad hs (fun js => w (S c :: js)) cs xs k))
      + 1 * (x * (1 - x) * (grad hs (fun js => v (S c :: js)) cs xs k * grad hs (fun js => w (c :: js)) cs xs k)
           + x * x * (grad hs (fun js => v (S c :: js)) cs xs k * grad hs (fun js => w (S c :: js)) cs xs k)))) by (intros; ring).
    rewrite bsum_lin, !bsum_lin. rewrite !T by lia. ring.
Qed.

Lemma linear_grad : forall ss hs v cs xs k, linear ss v -> length hs = length ss -> length cs = length ss -> length xs = length ss ->
  (k < length ss)%nat -> grad hs v cs xs k = nth k ss 0 / nth k hs 1.
Proof.
  induction ss as [|s ss IH]; intros [|h hs] v [|c cs] [|x xs] k Li L1 L2 L3 K; try discriminate; cbn in K; try lia.
  injection L1 as L1. injection L2 as L2. injection L3 as L3. destruct Li as (Li & E).
  destruct k as [|k]; cbn [grad nth].
  - f_equal. rewrite (value_ext cs xs (fun js => v (S c :: js)) (fun js => 1 * v (c :: js) + s * 1)).
    + rewrite (value_lin cs xs 1 s (fun js => v (c :: js)) (fun _ => 1)).
      assert (O : forall cs xs, value (fun _ => 1) cs xs = 1).
      { clear. induction cs as [|c cs IH]; intros [|x xs]; cbn [value]; auto. rewrite IH. ring. }
      rewrite O. ring.
    + congruence.
    + intros js _. rewrite (E (S c)), (E c), S_INR. ring.
  - assert (T : forall m, grad hs (fun js => v (m :: js)) cs xs k = nth k ss 0 / nth k hs 1).
    { intros m. rewrite <- (IH hs (fun js => v (O :: js)) cs xs k) by (auto; lia).
      rewrite (grad_ext hs cs xs k (fun js => v (m :: js)) (fun js => 1 * v (O :: js) + (INR m * s) * 1)).
      - rewrite (grad_lin hs cs xs k 1 (INR m * s) (fun js => v (O :: js)) (fun _ => 1)).
        assert (G : forall hs cs xs k, grad hs (fun _ => 1) cs xs k = 0).
        { clear. induction hs as [|h hs IH]; intros [|c cs] [|x xs] k; cbn [grad]; auto.
          destruct k; [unfold Rdiv; ring|rewrite IH; ring]. }
        rewrite G. ring.
      - congruence.
      - intros js _. rewrite (E m). ring. }
    rewrite !T. ring.
Qed.

(** * Local problems *)
Definition nodal (num : list nat -> nat) (y : nat -> R) : list nat -> R := fun js => y (num js).

Lemma one_at_sum : forall ns num n y js, numbering ns num n -> node ns js ->
  rsum n (fun j => y j * one_at num j js) = y (num js).
Proof.
  intros ns num n y js (B & _) N. rewrite (rsum_single n (num js)).
  - unfold one_at. rewrite Nat.eqb_refl. ring.
  - now apply B.
  - intros j _ D. unfold one_at. destruct (Nat.eqb_spec (num js) j); [congruence|ring].
Qed.
Lemma nodal_grad : forall ns hs num n y cs xs k, numbering ns num n -> In cs (cells ns) -> length xs = length cs ->
  rsum n (fun j => y j * grad hs (one_at num j) cs xs k) = grad hs (nodal num y) cs xs k.
Proof.
  intros ns hs num n y cs xs k N I L. rewrite grad_sum by auto. apply grad_ext; auto. intros js J.
  apply (one_at_sum ns); auto. now apply (corner_node ns cs).
Qed.

Lemma box_energy : forall ns hs num n A order y z, numbering ns num n ->
  energy (length ns) (grid_points (length ns) order (box_elements ns hs num A)) (field_of n y) (field_of n z) =
  volume hs * bsum ns (line_rule (gauss_points order)) (fun cs xs =>
    dot (length ns) (mv (length ns) A (grad hs (nodal num y) cs xs)) (grad hs (nodal num z) cs xs)).
Proof.
  intros ns hs num n A order y z N. unfold energy, grid_points, box_elements, bsum.
  rewrite lsum_flat_map, lsum_map, <- lsum_scale. apply lsum_ext. intros cs I.
  rewrite lsum_map, <- lsum_scale. unfold cube_rule. apply lsum_ext. intros q J. cbn [q_w q_A el_factor el_A el_grad].
  assert (L : length (fst q) = length cs) by (rewrite (rule_length _ _ _ J); symmetry; now apply cells_length).
  rewrite (dot_ext _ _ (mv (length ns) A (grad hs (nodal num y) cs (fst q))) _ (grad hs (nodal num z) cs (fst q))).
  - ring.
  - intros k _. apply mv_ext. intros m _. unfold field_of. cbn [q_grad el_grad]. now apply (nodal_grad ns).
  - intros k _. unfold field_of. cbn [q_grad el_grad]. now apply (nodal_grad ns).
Qed.

Lemma diagonal_dot : forall d A u v, diagonal A -> dot d (mv d A u) v = rsum d (fun k => A k k * (u k * v k)).
Proof.
  intros d A u v D. unfold dot. apply rsum_ext. intros k L. unfold mv. rewrite (rsum_single d k); auto; [ring|].
  intros j _ N. rewrite D by auto. ring.
Qed.

Lemma flux_balanced : forall ns hs line A v w, diagonal A -> multilinear (length ns) v -> vanishing ns w ->
  bsum ns line (fun cs xs => dot (length ns) (mv (length ns) A (grad hs v cs xs)) (grad hs w cs xs)) = 0.
Proof.
  intros ns hs line A v w D M V.
  rewrite (bsum_ext ns line _ (fun cs xs => rsum (length ns) (fun k => A k k * (grad hs v cs xs k * grad hs w cs xs k))))
    by (intros; now apply diagonal_dot).
  rewrite bsum_rsum. apply rsum_0. intros k _. rewrite bsum_scale, directional by auto. ring.
Qed.
Lemma flux_balanced_linear : forall ns hs ss line A v w, length hs = length ns -> length ss = length ns ->
  linear ss v -> vanishing ns w ->
  bsum ns line (fun cs xs => dot (length ns) (mv (length ns) A (grad hs v cs xs)) (grad hs w cs xs)) = 0.
Proof.
  intros ns hs ss line A v w Lh Ls Li V.
  rewrite (bsum_ext ns line _ (fun cs xs => rsum (length ns) (fun k =>
    mv (length ns) A (fun m => nth m ss 0 / nth m hs 1) k * grad hs w cs xs k))).
  - rewrite bsum_rsum. apply rsum_0. intros k _. rewrite bsum_scale, mean_slope by auto. ring.
  - intros cs xs I L. unfold dot. apply rsum_ext. intros k _. f_equal. apply mv_ext. intros m Lm.
    pose proof (cells_length _ _ I). apply linear_grad; auto; lia.
Qed.

Lemma vanishes_nodal : forall ns num n con y, numbering ns num n -> outer_constrained ns num con ->
  vanishes n con y -> vanishing ns (nodal num y).
Proof.
  intros ns num n con y (B & _) O Y js N E. apply Y; [now apply B|]. rewrite O by auto. exact E.
Qed.

(** * Positive energy *)
Lemma volume_pos : forall hs, Forall (Rlt 0) hs -> 0 < volume hs.
Proof. induction 1; cbn; [lra|]. now apply Rmult_lt_0_compat. Qed.

Lemma value_determined : forall line x1 w1 x2 w2, In (x1, w1) line -> In (x2, w2) line -> x1 <> x2 ->
  forall cs v, (forall q, In q (product_rule line (length cs)) -> value v cs (fst q) = 0) ->
  forall js, In js (corners cs) -> v js = 0.
Proof.
  intros line x1 w1 x2 w2 I1 I2 D. induction cs as [|c cs IH]; intros v Z js J.
  - destruct J as [<-|[]]. apply (Z ([], 1)). now left.
  - assert (T : forall q, In q (product_rule line (length cs)) ->
      value (fun js => v (c :: js)) cs (fst q) = 0 /\ value (fun js => v (S c :: js)) cs (fst q) = 0).
    { intros q Q.
      assert (A : forall x w, In (x, w) line -> (1 - x) * value (fun js => v (c :: js)) cs (fst q)
                                              + x * value (fun js => v (S c :: js)) cs (fst q) = 0).
      { intros x w X. apply (Z (x :: fst q, w * snd q)). cbn [length product_rule]. apply in_flat_map.
        exists (x, w). split; auto. apply in_map_iff. exists q. split; auto. }
      pose proof (A _ _ I1) as A1. pose proof (A _ _ I2) as A2. clear A.
      set (a := value (fun js => v (c :: js)) cs (fst q)) in *. set (b := value (fun js => v (S c :: js)) cs (fst q)) in *.
      assert (E : (x1 - x2) * (b - a) = 0) by lra.
      apply Rmult_integral in E. destruct E as [E|E]; [lra|]. assert (b = a) by lra. subst b. rewrite H in *. split; lra. }
    cbn [corners] in J. apply in_app_or in J.
    destruct J as [J|J]; apply in_map_iff in J; destruct J as (js' & <- & J).
    + apply (IH (fun js => v (c :: js))); auto. intros q Q. now apply T.
    + apply (IH (fun js => v (S c :: js))); auto. intros q Q. now apply T.
Qed.

Lemma rule_positive : forall line d q, Forall (fun p => 0 < snd p) line -> In q (product_rule line d) -> 0 < snd q.
Proof.
  intros line d q F. revert q. induction d as [|d IH]; intros q I; cbn [product_rule] in I.
  - destruct I as [<-|[]]. cbn. lra.
  - apply in_flat_map in I. destruct I as (p & Ip & I). apply in_map_iff in I. destruct I as (r & <- & I). cbn [snd].
    apply Rmult_lt_0_compat; [|now apply IH]. rewrite Forall_forall in F. now apply F.
Qed.

Lemma nonzero_dec : forall d (z : nat -> R), (exists k, (k < d)%nat /\ z k <> 0) \/ (forall k, (k < d)%nat -> z k = 0).
Proof.
  induction d as [|d IH]; intros z; [right; intros; lia|]. destruct (Req_dec (z d) 0) as [E|N].
  - destruct (IH z) as [(k & L & N)|A]; [left; exists k; split; auto; lia|]. right. intros k L.
    destruct (Nat.eq_dec k d) as [->|D]; auto. apply A. lia.
  - left. exists d. split; auto.
Qed.
Lemma positive_nonneg : forall d A z, positive d A -> 0 <= dot d (mv d A z) z.
Proof.
  intros d A z Po. destruct (nonzero_dec d z) as [E|Z]; [left; now apply Po|].
  right. symmetry. unfold dot. apply rsum_0. intros k L. rewrite Z by auto. ring.
Qed.
Lemma diagonal_positive : forall d A, diagonal A -> (forall k, (k < d)%nat -> 0 < A k k) -> positive d A.
Proof.
  intros d A D Ap z (k & L & N). rewrite diagonal_dot by auto.
  assert (T : forall m, (m < d)%nat -> 0 <= A m m * (z m * z m)).
  { intros m Lm. apply Rmult_le_pos; [left; now apply Ap|apply Rle_0_sqr]. }
  assert (P : 0 < A k k * (z k * z k)).
  { apply Rmult_lt_0_compat; [now apply Ap|]. now apply Rsqr_pos_lt. }
  clear Ap N D. induction d as [|d IH]; [lia|]. cbn [rsum].
  assert (0 <= rsum d (fun k => A k k * (z k * z k))) by (apply rsum_nonneg; intros; apply T; lia).
  destruct (Nat.eq_dec k d) as [->|Nd]; [lra|].
  assert (0 < rsum d (fun k => A k k * (z k * z k))) by (apply IH; [lia|intros; apply T; lia]).
  pose proof (T d ltac:(lia)). lra.
Qed.

(** Without energy every function vanishing outside is zero, if there are two
    points per direction. *)
Lemma no_energy : forall ns hs A line x1 w1 x2 w2 w, ns <> [] -> length hs = length ns ->
  Forall (fun n => (0 < n)%nat) ns -> Forall (Rlt 0) hs -> positive (length ns) A ->
  Forall (fun p => 0 < snd p) line -> In (x1, w1) line -> In (x2, w2) line -> x1 <> x2 ->
  vanishing ns w ->
  bsum ns line (fun cs xs => dot (length ns) (mv (length ns) A (grad hs w cs xs)) (grad hs w cs xs)) <= 0 ->
  forall js, node ns js -> w js = 0.
Proof.
  intros ns hs A line x1 w1 x2 w2 w NE Lh Fn Fh Po Fl I1 I2 Dx V E.
  assert (Nn : forall cs q, In cs (cells ns) -> In q (product_rule line (length ns)) ->
     0 <= snd q * dot (length ns) (mv (length ns) A (grad hs w cs (fst q))) (grad hs w cs (fst q))).
  { intros cs q _ Q. apply Rmult_le_pos; [left; now apply (rule_positive line (length ns))|]. now apply positive_nonneg. }
  assert (Z : forall cs q, In cs (cells ns) -> In q (product_rule line (length ns)) -> grad hs w cs (fst q) 0%nat = 0).
  { intros cs q I Q. unfold bsum in E.
    assert (E0 : lsum (cells ns) (fun cs => lsum (product_rule line (length ns)) (fun q =>
       snd q * dot (length ns) (mv (length ns) A (grad hs w cs (fst q))) (grad hs w cs (fst q)))) = 0).
    { apply Rle_antisym; auto. apply lsum_nonneg. intros c Ic. apply lsum_nonneg. intros. now apply Nn. }
    pose proof (lsum_zero_each _ _ _ cs (fun c Ic => lsum_nonneg _ _ _ (fun q Q => Nn c q Ic Q)) E0 I) as E1. cbv beta in E1.
    pose proof (lsum_zero_each _ _ _ q (fun q Q => Nn cs q I Q) E1 Q) as E2. cbv beta in E2.
    pose proof (rule_positive line (length ns) q Fl Q) as P.
    apply Rmult_integral in E2. destruct E2 as [E2|E2]; [lra|].
    destruct (Req_dec (grad hs w cs (fst q) 0%nat) 0) as [|N]; auto.
    assert (0 < dot (length ns) (mv (length ns) A (grad hs w cs (fst q))) (grad hs w cs (fst q))).
    { apply Po. exists O. split; auto. destruct ns; [congruence|cbn; lia]. }
    lra. }
  destruct ns as [|n ns]; [congruence|]. destruct hs as [|h hs]; [discriminate Lh|].
  inversion Fn; subst. inversion Fh; subst. rename H1 into Pn, H2 into Fn', H3 into Ph, H4 into Fh'.
  assert (St : forall c js, (c < n)%nat -> node ns js -> w (S c :: js) = w (c :: js)).
  { intros c js Lc N. destruct (node_corner ns js Fn' N) as (cs & I & J).
    enough (1 * w (S c :: js) + (-1) * w (c :: js) = 0) by lra.
    apply (value_determined line x1 w1 x2 w2 I1 I2 Dx cs (fun js => 1 * w (S c :: js) + (-1) * w (c :: js))); auto.
    intros q Q. rewrite (value_lin cs (fst q) 1 (-1) (fun js => w (S c :: js)) (fun js => w (c :: js))).
    pose proof (cells_length _ _ I) as Lc'.
    assert (G : grad (h :: hs) w (c :: cs) (x1 :: fst q) 0%nat = 0).
    { apply (Z (c :: cs) (x1 :: fst q, w1 * snd q)).
      - cbn [cells]. apply in_flat_map. exists c. split; [apply in_seq; lia|now apply in_map].
      - cbn [length product_rule]. apply in_flat_map. exists (x1, w1). split; auto. apply in_map_iff.
        exists q. split; auto. rewrite <- Lc'. exact Q. }
    cbn [grad] in G. unfold Rdiv in G. apply Rmult_integral in G. destruct G as [G|G]; [lra|].
    pose proof (Rinv_0_lt_compat h Ph). lra. }
  intros js N. inversion N; subst. rename l into js', x into c.
  assert (G : forall c, (c <= n)%nat -> w (c :: js') = 0).
  { induction c0 as [|c0 IH]; intros L; [apply (vanishing_end n ns w 0); auto|]. rewrite St by (auto; lia). apply IH. lia. }
  now apply G.
Qed.

Lemma gauss_two : forall m, (2 <= m <= 3)%nat ->
  Forall (fun p => 0 < snd p) (line_rule m) /\
  exists x1 w1 x2 w2, In (x1, w1) (line_rule m) /\ In (x2, w2) (line_rule m) /\ x1 <> x2.
Proof.
  intros m L. assert (m = 2 \/ m = 3)%nat as [->| ->] by lia; cbn [line_rule].
  - split; [repeat constructor; cbn; lra|]. exists (1/2 - sqrt 3 / 6), (1/2), (1/2 + sqrt 3 / 6), (1/2).
    split; [now left|]. split; [right; now left|]. pose proof (sqrt_lt_R0 3 ltac:(lra)). lra.
  - split; [repeat constructor; cbn; lra|]. exists (1/2), (4/9), (1/2 + sqrt 15 / 10), (5/18).
    split; [right; now left|]. split; [right; right; now left|]. pose proof (sqrt_lt_R0 15 ltac:(lra)). lra.
Qed.

(** * Reduction to the coarse finite element method *)
Section Reduce.
Variable d : nat.
Variable P : Type.
Variable diffusion : P -> nat -> nat -> R.
Variable source : P -> R.
Variable neumann : P -> R.
Hypothesis Dc : forall x y i j, (i < d)%nat -> (j < d)%nat -> diffusion x i j = diffusion y i j.
Hypothesis Sc : forall x y, source x = source y.

Lemma dot_const : forall x y u u' v v', (forall k, (k < d)%nat -> u k = u' k) -> (forall k, (k < d)%nat -> v k = v' k) ->
  dot d (mv d (diffusion x) u) v = dot d (mv d (diffusion y) u') v'.
Proof.
  intros x y u u' v v' U V. unfold dot, mv. apply rsum_ext. intros i Li. rewrite V by auto. f_equal.
  apply rsum_ext. intros j Lj. rewrite U by auto. rewrite (Dc x y) by auto. reflexivity.
Qed.

Lemma reduced_energy : forall c global vol quad rquad u v, uncorrected c vol quad rquad ->
  lsum (covered P c) (fun l => ms_energy d P diffusion u c l (test_grad P v c l)) =
  fine_energy d P diffusion (fem_cell c global vol quad rquad) (fine_grad P u (fem_cell c global vol quad rquad))
    (fine_grad P v (fem_cell c global vol quad rquad)).
Proof.
  intros c global vol quad rquad u v (f & Ev & U). set (fc := fem_cell c global vol quad rquad).
  transitivity (lsum (covered P c) (fun l => f l * lsum quad (fun q => snd q *
    dot d (mv d (diffusion (global (fst q))) (fine_grad P u fc (fst q))) (fine_grad P v fc (fst q))))).
  - apply lsum_ext. intros l I. destruct (U l I) as (Q1 & Q2 & F & Z).
    assert (T : forall u x k, test_grad P u c l x k = fine_grad P u fc x k).
    { intros u' x k. unfold test_grad, fine_grad. cbn [fc fem_cell fc_n fc_index fc_grad]. apply rsum_ext. intros i Li.
      unfold used_grad. destruct (Z i x) as (_ & Z'); [lia|]. rewrite Z'. ring. }
    unfold ms_energy.
    assert (B : rhs_energy d P diffusion l (boundary_grad P c l) (test_grad P v c l) = 0).
    { unfold rhs_energy. apply lsum_0. intros q _. unfold dot. rewrite rsum_0; [ring|]. intros k Lk.
      unfold mv. rewrite rsum_0; [ring|]. intros m Lm. unfold boundary_grad.
      destruct (Z (cc_n P c + 1)%nat (fst q)) as (_ & Z1); [lia|]. destruct (Z (cc_n P c) (fst q)) as (_ & Z2); [lia|].
      rewrite Z1, Z2. ring. }
    rewrite B, Rplus_0_r. unfold CoarseSpec.energy. rewrite Q1, <- lsum_scale. apply lsum_ext. intros q _.
    rewrite F, (dot_const _ (global (fst q)) _ (fine_grad P u fc (fst q)) _ (fine_grad P v fc (fst q))) by (intros; apply T).
    ring.
  - rewrite (lsum_ext _ (covered P c) _ (fun l => lsum quad (fun q => snd q *
      dot d (mv d (diffusion (global (fst q))) (fine_grad P u fc (fst q))) (fine_grad P v fc (fst q))) * f l)) by (intros; ring).
    rewrite lsum_scale, Ev. unfold fine_energy. rewrite Rmult_comm, <- lsum_scale. cbn [fc fem_cell fc_quad fc_factor fc_global].
    apply lsum_ext. intros q _. ring.
Qed.

Lemma reduced_load : forall c global vol quad rquad v, uncorrected c vol quad rquad ->
  lsum (covered P c) (fun l => load P source l (test_val P v c l)) =
  fine_load P source (fem_cell c global vol quad rquad) (fine_val P v (fem_cell c global vol quad rquad)).
Proof.
  intros c global vol quad rquad v (f & Ev & U). set (fc := fem_cell c global vol quad rquad).
  transitivity (lsum (covered P c) (fun l => lsum rquad (fun q => snd q *
    (source (global (fst q)) * fine_val P v fc (fst q))) * f l)).
  - apply lsum_ext. intros l I. destruct (U l I) as (Q1 & Q2 & F & Z). unfold load. rewrite Q2, Rmult_comm, <- lsum_scale.
    apply lsum_ext. intros q _. rewrite F, (Sc _ (global (fst q))).
    replace (test_val P v c l (fst q)) with (fine_val P v fc (fst q)); [ring|].
    unfold test_val, fine_val. cbn [fc fem_cell fc_n fc_index fc_val]. apply rsum_ext. intros i Li.
    unfold used_val. destruct (Z i (fst q)) as (Z' & _); [lia|]. rewrite Z'. ring.
  - rewrite lsum_scale, Ev. unfold fine_load. rewrite Rmult_comm, <- lsum_scale. cbn [fc fem_cell fc_rquad fc_factor fc_global].
    apply lsum_ext. intros q _. ring.
Qed.

Lemma reduced_solution : forall (cells : list (coarse_cell P * list (cface P))) global (vol : coarse_cell P -> R)
    (quad rquad : coarse_cell P -> list (P * R)) N constrained g start u,
  (forall c fs, In (c, fs) cells -> cc_slots P c = (cc_n P c + 2)%nat /\ uncorrected c (vol c) (quad c) (rquad c)) ->
  (forall c fs i, In (c, fs) cells -> (i < cc_n P c)%nat -> (cc_index P c i < N)%nat) ->
  (coarse_solution d P diffusion source neumann N constrained g cells u <->
   fem_solution d P diffusion source neumann N constrained g start
     (map (fun cf => (fem_cell (fst cf) global (vol (fst cf)) (quad (fst cf)) (rquad (fst cf)), snd cf)) cells) u).
Proof.
  intros cells global vol quad rquad N constrained g start u U L.
  rewrite weak_form; auto.
  - rewrite fem_weak_form.
    + assert (E1 : forall u v, lsum cells (fun cf => lsum (covered P (fst cf)) (fun l => ms_energy d P diffusion u (fst cf) l (test_grad P v (fst cf) l))) =
        lsum (map (fun cf => (fem_cell (fst cf) global (vol (fst cf)) (quad (fst cf)) (rquad (fst cf)), snd cf)) cells)
          (fun cf => fine_energy d P diffusion (fst cf) (fine_grad P u (fst cf)) (fine_grad P v (fst cf)))).
      { intros a b. rewrite lsum_map. apply lsum_ext. intros (c, fs) I. cbn [fst snd]. apply reduced_energy. now apply (U c fs). }
      assert (E2 : forall v, lsum cells (fun cf => lsum (covered P (fst cf)) (fun l => load P source l (test_val P v (fst cf) l))
          + boundary_load P neumann (snd cf) (test_coarse P v (fst cf))) =
        lsum (map (fun cf => (fem_cell (fst cf) global (vol (fst cf)) (quad (fst cf)) (rquad (fst cf)), snd cf)) cells)
          (fun cf => fine_load P source (fst cf) (fine_val P v (fst cf)) + boundary_load P neumann (snd cf) (fine_val P v (fst cf)))).
      { intros v. rewrite lsum_map. apply lsum_ext. intros (c, fs) I. cbn [fst snd]. f_equal. apply reduced_load. now apply (U c fs). }
      split; intros (A & B); (split; [exact A|]); intros v Z; specialize (B v Z).
      * now rewrite <- E1, <- E2.
      * now rewrite E1, E2.
    + intros c fs i I. apply in_map_iff in I. destruct I as ((c', fs') & E & I). injection E as <- <-. cbn [fst fem_cell fc_n fc_index].
      now apply (L c' fs').
  - apply walk_some. intros c fs I. destruct (U c fs I) as (E & _). lia.
Qed.
End Reduce.

(** * The patch test *)
Lemma corners_nodup : forall cs, NoDup (corners cs).
Proof.
  induction cs as [|c cs IH]; cbn [corners]; [repeat constructor; auto|].
  assert (M : forall a, NoDup (map (cons a) (corners cs))).
  { intros a. apply FinFun.Injective_map_NoDup; auto. intros x y E. now injection E. }
  assert (G : forall (l m : list (list nat)), NoDup l -> NoDup m -> (forall x, In x l -> ~ In x m) -> NoDup (l ++ m)).
  { clear. induction l as [|a l IH]; intros m L M D; auto. inversion L; subst. cbn. constructor.
    - intros I. apply in_app_or in I. destruct I as [I|I]; [auto|]. apply (D a); auto. now left.
    - apply IH; auto. intros x I. apply D. now right. }
  apply G; auto. intros x I J. apply in_map_iff in I. apply in_map_iff in J.
  destruct I as (y & <- & _). destruct J as (z & E & _). injection E as E _. lia.
Qed.

Lemma corner_sum : forall ns num n u cs js, numbering ns num n -> In cs (cells ns) -> In js (corners cs) ->
  rsum (length (corners cs)) (fun i => u (num (nth i (corners cs) [])) * one_at num (num (nth i (corners cs) [])) js) =
  u (num js).
Proof.
  intros ns num n u cs js (_ & Inj & _) I J. destruct (In_nth _ _ [] J) as (i & Li & Ei).
  rewrite (rsum_single _ i); auto.
  - rewrite Ei. unfold one_at. rewrite Nat.eqb_refl. ring.
  - intros m Lm D. unfold one_at. destruct (Nat.eqb_spec (num js) (num (nth m (corners cs) []))) as [E|]; [|ring].
    exfalso. apply Inj in E; try (apply (corner_node ns cs); auto; now apply nth_In).
    rewrite <- Ei in E. apply D. symmetry. apply (proj1 (NoDup_nth (corners cs) []) (corners_nodup cs)); auto.
Qed.

Lemma box_fine_grad : forall ns hs num n u cs ls global vol quad rquad xs k, numbering ns num n -> In cs (cells ns) ->
  length xs = length cs ->
  fine_grad (list R) u (fem_cell (box_cell hs num cs ls) global vol quad rquad) xs k = grad hs (nodal num u) cs xs k.
Proof.
  intros ns hs num n u cs ls global vol quad rquad xs k N I L. unfold fine_grad. cbn [fem_cell box_cell fc_n fc_index fc_grad cc_n cc_index cc_grad].
  rewrite (grad_sum _ hs cs xs k (fun i => u (num (nth i (corners cs) []))) (fun i => one_at num (num (nth i (corners cs) [])))) by auto.
  apply grad_ext; auto. intros js J. now apply (corner_sum ns num n).
Qed.

Section Patch.
Variables (ns : list nat) (hs : list R) (num : list nat -> nat) (n : nat) (con : nat -> bool).
Variable A : nat -> nat -> R.
Variable diffusion : list R -> nat -> nat -> R.
Variable neumann : list R -> R.
Variable line : list (R * R).
Variable rquad : list nat -> list (list R * R).
Variable ls : list nat -> list (local_cell (list R)).
Variable fs : list nat -> list (cface (list R)).
Let d := length ns.
Let grid := map (fun cs => (box_cell hs num cs (ls cs), fs cs)) (cells ns).
Hypothesis Num : numbering ns num n.
Hypothesis Con : outer_constrained ns num con.
Hypothesis Dc : forall x i j, (i < d)%nat -> (j < d)%nat -> diffusion x i j = A i j.
Hypothesis Un : forall cs, In cs (cells ns) -> uncorrected (box_cell hs num cs (ls cs)) (volume hs) (product_rule line d) (rquad cs).
Hypothesis Nf : forall cs f, In cs (cells ns) -> In f (fs cs) -> cf_neumann _ f = false.

Lemma box_index : forall c f i, In (c, f) grid -> (i < cc_n _ c)%nat -> (cc_index _ c i < n)%nat.
Proof.
  intros c f i I L. apply in_map_iff in I. destruct I as (cs & E & I). injection E as <- <-. cbn [box_cell cc_n cc_index] in *.
  apply (proj1 Num). apply (corner_node ns cs); auto. now apply nth_In.
Qed.
Lemma box_walk : forall source, exists r, walk d (list R) diffusion source neumann (fun _ _ => 0) (fun _ => 0) grid = Some r.
Proof.
  intros source. apply walk_some. intros c f I. apply in_map_iff in I. destruct I as (cs & E & I). injection E as <- <-. reflexivity.
Qed.

(** The equations of the coarse system without source. *)
Lemma box_weak : forall g u,
  coarse_solution d (list R) diffusion (fun _ => 0) neumann n con g grid u <->
  (forall js, node ns js -> outer_node ns js = true -> u (num js) = g (num js)) /\
  (forall w, vanishing ns (nodal num w) ->
     volume hs * bsum ns line (fun cs xs => dot d (mv d A (grad hs (nodal num u) cs xs)) (grad hs (nodal num w) cs xs)) = 0).
Proof.
  intros g u. rewrite weak_form; [|apply box_index|apply box_walk].
  assert (E1 : forall w, lsum grid (fun cf => lsum (covered _ (fst cf)) (fun l => ms_energy d _ diffusion u (fst cf) l (test_grad _ w (fst cf) l))) =
    volume hs * bsum ns line (fun cs xs => dot d (mv d A (grad hs (nodal num u) cs xs)) (grad hs (nodal num w) cs xs))).
  { intros w. unfold grid. rewrite lsum_map. unfold bsum. rewrite <- lsum_scale. apply lsum_ext. intros cs I. cbn [fst].
    rewrite (reduced_energy d _ diffusion) with (global := fun x => x) (vol := volume hs) (quad := product_rule line d) (rquad := rquad cs).
    - unfold fine_energy. rewrite <- lsum_scale. cbn [fem_cell fc_quad fc_factor fc_global]. fold d. apply lsum_ext. intros q Q.
      assert (L : length (fst q) = length cs) by (rewrite (rule_length _ _ _ Q); symmetry; now apply cells_length).
      replace (dot d (mv d (diffusion (fst q)) _) _) with
        (dot d (mv d A (grad hs (nodal num u) cs (fst q))) (grad hs (nodal num w) cs (fst q))); [ring|].
      unfold dot, mv. apply rsum_ext. intros i Li. rewrite (box_fine_grad ns hs num n w) by auto. f_equal.
      apply rsum_ext. intros j Lj. rewrite (box_fine_grad ns hs num n u) by auto. now rewrite Dc.
    - intros. rewrite !Dc; auto.
    - now apply Un. }
  assert (E2 : forall w, lsum grid (fun cf => lsum (covered _ (fst cf)) (fun l => load _ (fun _ => 0) l (test_val _ w (fst cf) l))
       + boundary_load _ neumann (snd cf) (test_coarse _ w (fst cf))) = 0).
  { intros w. unfold grid. rewrite lsum_map. apply lsum_0. intros cs I. cbn [fst snd].
    rewrite lsum_0 by (intros l _; unfold load; apply lsum_0; intros; ring). unfold boundary_load.
    assert (F : filter (cf_neumann (list R)) (fs cs) = []).
    { specialize (fun f => Nf cs f I). induction (fs cs) as [|f r IH]; auto. cbn [filter]. rewrite Nf by now left.
      apply IH. intros f' I'. apply Nf. now right. }
    rewrite F. cbn. ring. }
  assert (V : forall w, (forall i, (i < n)%nat -> con i = true -> w i = 0) <-> vanishing ns (nodal num w)).
  { intros w. split.
    - intros H js N O. apply H; [now apply Num|]. now rewrite Con.
    - intros H i L C. destruct (proj2 (proj2 Num) i L) as (js & N & <-). apply H; auto. now rewrite <- Con. }
  split; intros (H1 & H2); split.
  - intros js N O. apply H1; [now apply Num|]. now rewrite Con.
  - intros w W. rewrite <- E1, <- (E2 w). apply H2. now apply V.
  - intros i L C. destruct (proj2 (proj2 Num) i L) as (js & N & <-). apply H1; auto. now rewrite <- Con.
  - intros w W. rewrite E1, E2. apply H2. now apply V.
Qed.

Lemma nodal_ext : forall u v, (forall js, node ns js -> u (num js) = v js) ->
  forall w, bsum ns line (fun cs xs => dot d (mv d A (grad hs (nodal num u) cs xs)) (grad hs w cs xs)) =
            bsum ns line (fun cs xs => dot d (mv d A (grad hs v cs xs)) (grad hs w cs xs)).
Proof.
  intros u v E w. apply bsum_ext. intros cs xs I L. apply dot_ext; auto. intros k _. apply mv_ext. intros m _.
  apply grad_ext; auto. intros js J. apply E. now apply (corner_node ns cs).
Qed.

(** A function whose flux balances solves the coarse system. *)
Lemma balanced_solves : forall g u v,
  (forall js, node ns js -> u (num js) = v js) ->
  (forall js, node ns js -> outer_node ns js = true -> g (num js) = v js) ->
  (forall w, vanishing ns w -> bsum ns line (fun cs xs => dot d (mv d A (grad hs v cs xs)) (grad hs w cs xs)) = 0) ->
  coarse_solution d (list R) diffusion (fun _ => 0) neumann n con g grid u.
Proof.
  intros g u v U G B. apply box_weak. split.
  - intros js N O. now rewrite U, G.
  - intros w W. rewrite (nodal_ext u v) by auto. rewrite B by auto. ring.
Qed.

Lemma solution_unique : forall g u u', ns <> [] -> length hs = length ns ->
  Forall (fun m => (0 < m)%nat) ns -> Forall (Rlt 0) hs -> positive d A ->
  Forall (fun p => 0 < snd p) line -> (exists x1 w1 x2 w2, In (x1, w1) line /\ In (x2, w2) line /\ x1 <> x2) ->
  coarse_solution d (list R) diffusion (fun _ => 0) neumann n con g grid u ->
  coarse_solution d (list R) diffusion (fun _ => 0) neumann n con g grid u' ->
  forall js, node ns js -> u (num js) = u' (num js).
Proof.
  intros g u u' NE Lh Fn Fh Po Fl (x1 & w1 & x2 & w2 & I1 & I2 & Dx) S S' js N.
  apply box_weak in S. apply box_weak in S'. destruct S as (B & W). destruct S' as (B' & W').
  set (e := fun i => u i - u' i).
  assert (V : vanishing ns (nodal num e)).
  { intros js' N' O'. unfold nodal, e. rewrite B, B' by auto. ring. }
  specialize (W e V). specialize (W' e V). pose proof (volume_pos hs Fh) as Vp.
  enough (nodal num e js = 0) by (unfold nodal, e in *; lra).
  apply (no_energy ns hs A line x1 w1 x2 w2); auto.
  fold d. right.
  transitivity (bsum ns line (fun cs xs => dot d (mv d A (grad hs (nodal num u) cs xs)) (grad hs (nodal num e) cs xs)) -
                bsum ns line (fun cs xs => dot d (mv d A (grad hs (nodal num u') cs xs)) (grad hs (nodal num e) cs xs))).
  - rewrite <- bsum_minus. apply bsum_ext. intros cs xs I L.
    rewrite <- (Rmult_1_l (dot d (mv d A (grad hs (nodal num u) cs xs)) _)).
    unfold dot. rewrite Rmult_1_l, <- rsum_minus. apply rsum_ext. intros k Lk.
    rewrite (mv_ext d A _ (fun m => grad hs (nodal num u) cs xs m - grad hs (nodal num u') cs xs m)).
    + rewrite mv_minus. ring.
    + intros m _. rewrite (grad_ext hs cs xs m (nodal num e) (fun js => 1 * nodal num u js + (-1) * nodal num u' js)).
      * rewrite grad_lin. ring.
      * auto.
      * intros. unfold nodal, e. ring.
  - apply Rmult_integral in W. apply Rmult_integral in W'.
    destruct W as [W|W]; [lra|]. destruct W' as [W'|W']; [lra|]. lra.
Qed.
End Patch.

(** Every function on the nodes is given by a vector of values. *)
Fixpoint all_nodes (ns : list nat) : list (list nat) :=
  match ns with [] => [[]] | n :: r => flat_map (fun j => map (cons j) (all_nodes r)) (seq 0 (S n)) end.
Lemma all_nodes_in : forall ns js, node ns js -> In js (all_nodes ns).
Proof.
  induction ns as [|n ns IH]; intros js N; inversion N; subst; [now left|].
  cbn [all_nodes]. apply in_flat_map. exists x. split; [apply in_seq; lia|]. apply in_map. now apply IH.
Qed.
Lemma all_nodes_node : forall ns js, In js (all_nodes ns) -> node ns js.
Proof.
  induction ns as [|n ns IH]; intros js I; cbn [all_nodes] in I.
  - destruct I as [<-|[]]. constructor.
  - apply in_flat_map in I. destruct I as (j & J & I). apply in_map_iff in I. destruct I as (r & <- & I).
    apply in_seq in J. constructor; [lia|]. now apply IH.
Qed.
Lemma nodal_values : forall ns num n v, numbering ns num n -> exists u : nat -> R, forall js, node ns js -> u (num js) = v js.
Proof.
  intros ns num n v (_ & Inj & _).
  exists (fun i => match find (fun js => Nat.eqb (num js) i) (all_nodes ns) with Some js => v js | None => 0 end).
  intros js N. destruct (find _ _) as [js'|] eqn:F.
  - apply find_some in F. destruct F as (I & E). apply Nat.eqb_eq in E. apply all_nodes_node in I. now rewrite (Inj js' js).
  - pose proof (find_none _ _ F js (all_nodes_in ns js N)) as E. cbv beta in E. now rewrite Nat.eqb_refl in E.
Qed.
