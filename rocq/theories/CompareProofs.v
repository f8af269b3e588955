(** Proofs for C88, C89. *)
From Coq Require Import Reals List Arith Bool String Sorted Lra Lia.
From Verif Require Import RSum ErrorModel ErrorSpec ErrorProofs CompareModel CompareSpec.
Import ListNotations.
Open Scope R_scope.

(** * Weighted sums: Cauchy-Schwarz and Minkowski *)
Section CS.
Variable A : Type.
Variable l : list A.
Variable w : A -> R.
Hypothesis W : forall a, In a l -> 0 <= w a.

Definition ip (f g : A -> R) : R := lsum l (fun a => w a * (f a * g a)).

Lemma ip_nonneg : forall f, 0 <= ip f f.
Proof. intros f. apply lsum_nonneg. intros a I. specialize (W a I). nra. Qed.

Lemma ip_expand : forall f g t, ip (fun a => f a + t * g a) (fun a => f a + t * g a) =
  ip f f + 2 * t * ip f g + t * t * ip g g.
Proof.
  intros. unfold ip. rewrite <- !lsum_scale, <- !lsum_plus. apply lsum_ext. intros. ring.
Qed.

Lemma cauchy : forall f g, ip f g * ip f g <= ip f f * ip g g.
Proof.
  intros f g. pose proof (ip_nonneg f) as F. pose proof (ip_nonneg g) as G.
  assert (Q : forall t, 0 <= ip f f + 2 * t * ip f g + t * t * ip g g).
  { intros t. rewrite <- ip_expand. apply ip_nonneg. }
  destruct (Req_dec (ip g g) 0) as [E|N].
  - rewrite E in *. destruct (Req_dec (ip f g) 0) as [Z|NZ]; [rewrite Z; lra|].
    specialize (Q (- (ip f f + 1) / (2 * ip f g))).
    replace (ip f f + 2 * (- (ip f f + 1) / (2 * ip f g)) * ip f g +
      - (ip f f + 1) / (2 * ip f g) * (- (ip f f + 1) / (2 * ip f g)) * 0) with (-1) in Q by (field; auto).
    lra.
  - specialize (Q (- ip f g / ip g g)).
    replace (ip f f + 2 * (- ip f g / ip g g) * ip f g + - ip f g / ip g g * (- ip f g / ip g g) * ip g g)
      with ((ip f f * ip g g - ip f g * ip f g) / ip g g) in Q by (field; auto).
    assert (P : 0 < ip g g) by lra.
    apply (Rmult_le_compat_r (ip g g)) in Q; [|lra].
    unfold Rdiv in Q. rewrite Rmult_assoc, Rinv_l in Q by auto. lra.
Qed.

Lemma minkowski : forall f g,
  sqrt (ip (fun a => f a + g a) (fun a => f a + g a)) <= sqrt (ip f f) + sqrt (ip g g).
Proof.
  intros f g. pose proof (ip_nonneg f) as F. pose proof (ip_nonneg g) as G. pose proof (cauchy f g) as C.
  pose proof (sqrt_pos (ip f f)) as SF. pose proof (sqrt_pos (ip g g)) as SG.
  assert (E : ip (fun a => f a + g a) (fun a => f a + g a) = ip f f + 2 * ip f g + ip g g).
  { unfold ip. rewrite <- !lsum_scale, <- !lsum_plus. apply lsum_ext. intros. ring. }
  rewrite E. rewrite <- (sqrt_Rsqr (sqrt (ip f f) + sqrt (ip g g))) by lra.
  apply sqrt_le_1_alt. unfold Rsqr.
  pose proof (sqrt_sqrt _ F) as F2. pose proof (sqrt_sqrt _ G) as G2.
  assert (B : ip f g <= sqrt (ip f f) * sqrt (ip g g)).
  { rewrite <- sqrt_mult by auto. apply Rle_trans with (Rabs (ip f g)); [apply Rle_abs|].
    rewrite <- sqrt_Rsqr_abs. apply sqrt_le_1_alt. exact C. }
  nra.
Qed.
End CS.

(** For one list of points. *)
Section N.
Variable d : nat.
Variable pts : list (nat * R).
Hypothesis W : forall q, In q pts -> 0 <= snd q.

Definition l2s (f : func) : R := lsum pts (fun q => snd q * (fv f (fst q) * fv f (fst q))).
Definition h1s (f : func) : R := lsum pts (fun q => snd q * dot d (fg f (fst q)) (fg f (fst q))).

Lemma l2_ip : forall f, l2s f = ip (nat * R) pts snd (fun q => fv f (fst q)) (fun q => fv f (fst q)).
Proof. reflexivity. Qed.

(** The H1 product as a weighted sum over points and directions. *)
Definition points : list (nat * nat * R) :=
  flat_map (fun q => map (fun k => (fst q, k, snd q)) (seq 0 d)) pts.
Lemma points_weights : forall p, In p points -> 0 <= snd p.
Proof.
  intros p I. apply in_flat_map in I. destruct I as (q & I & J). apply in_map_iff in J.
  destruct J as (k & <- & _). simpl. auto.
Qed.
Lemma lsum_seq : forall n f, lsum (seq 0 n) f = rsum n f.
Proof.
  induction n as [|n IH]; intros f; [reflexivity|].
  rewrite seq_S, lsum_app, IH. simpl. ring.
Qed.
Lemma lsum_map : forall A B (g : A -> B) l f, lsum (map g l) f = lsum l (fun a => f (g a)).
Proof. induction l as [|a l IH]; intros f; simpl; auto. now rewrite IH. Qed.
Lemma h1_ip : forall f, h1s f =
  ip (nat * nat * R) points snd (fun p => fg f (fst (fst p)) (snd (fst p))) (fun p => fg f (fst (fst p)) (snd (fst p))).
Proof.
  intros f. unfold h1s, ip, points. clear W. induction pts as [|q l IH]; [reflexivity|].
  cbn [flat_map]. rewrite lsum_app, lsum_map, lsum_seq. cbn [lsum]. rewrite IH. f_equal.
  cbn [fst snd]. unfold dot. rewrite <- rsum_scale. reflexivity.
Qed.
Lemma l2s_nonneg : forall f, 0 <= l2s f.
Proof. intros f. rewrite l2_ip. now apply ip_nonneg. Qed.
Lemma l2_triangle : forall f g h,
  sqrt (l2s (fdiff f h)) <= sqrt (l2s (fdiff f g)) + sqrt (l2s (fdiff g h)).
Proof.
  intros f g h. rewrite !l2_ip.
  eapply Rle_trans; [|apply minkowski; auto]. right. f_equal. apply lsum_ext. intros. simpl. ring.
Qed.
Lemma h1_triangle : forall f g h,
  sqrt (h1s (fdiff f h)) <= sqrt (h1s (fdiff f g)) + sqrt (h1s (fdiff g h)).
Proof.
  intros f g h. rewrite !h1_ip.
  eapply Rle_trans; [|apply minkowski; auto using points_weights]. right. f_equal.
  apply lsum_ext. intros. simpl. ring.
Qed.
Lemma l2_sym : forall f g, l2s (fdiff f g) = l2s (fdiff g f).
Proof. intros. unfold l2s. apply lsum_ext. intros. simpl. ring. Qed.
Lemma h1_sym : forall f g, h1s (fdiff f g) = h1s (fdiff g f).
Proof.
  intros. unfold h1s. apply lsum_ext. intros. f_equal. apply rsum_ext. intros. simpl. ring.
Qed.

Lemma sum_zero : forall A (l : list A) f, (forall a, In a l -> 0 <= f a) -> lsum l f = 0 ->
  forall a, In a l -> f a = 0.
Proof.
  induction l as [|x l IH]; intros f P E a I; [destruct I|]. cbn [lsum] in E.
  assert (Q : 0 <= lsum l f) by (apply lsum_nonneg; intros; apply P; simpl; auto).
  assert (X : 0 <= f x) by (apply P; simpl; auto).
  destruct I as [<-|I]; [lra|]. apply IH; auto; [|lra]. intros. apply P. simpl. auto.
Qed.

Lemma l2_zero_iff : forall f g, sqrt (l2s (fdiff f g)) = 0 <->
  forall q, In q pts -> snd q = 0 \/ fv f (fst q) = fv g (fst q).
Proof.
  intros f g. split.
  - intros E q I. apply sqrt_eq_0 in E; [|apply l2s_nonneg].
    assert (Z : snd q * (fv (fdiff f g) (fst q) * fv (fdiff f g) (fst q)) = 0).
    { apply (sum_zero _ pts (fun q => snd q * (fv (fdiff f g) (fst q) * fv (fdiff f g) (fst q)))); auto.
      intros a J. specialize (W a J). nra. }
    apply Rmult_integral in Z. destruct Z as [Z|Z]; [auto|]. right.
    apply Rmult_integral in Z. simpl in Z. destruct Z; lra.
  - intros H. replace (l2s (fdiff f g)) with 0; [apply sqrt_0|]. symmetry.
    apply lsum_0. intros q I. simpl. destruct (H q I) as [->| ->]; ring.
Qed.
End N.

Lemma l2_error_at : forall quad over f, l2_error quad over f = sqrt (l2s (quad (2 * fo f + over)%nat) f).
Proof. reflexivity. Qed.
Lemma h1s_error_at : forall d quad over f,
  h1s_error d quad over f = sqrt (h1s d (quad (2 * (fo f - 1) + over)%nat) f).
Proof. reflexivity. Qed.

(** * The comparison test *)
Lemma assoc_in : forall (m : errors) k v, assoc_str k m = Some v -> In (k, v) m.
Proof.
  induction m as [|(k', x) m IH]; simpl; intros k v H; [discriminate|].
  destruct (String.eqb k k') eqn:E; [|auto]. apply String.eqb_eq in E. subst. injection H as ->. auto.
Qed.
Lemma touch_in : forall keys m p, In p (fold_left touch keys m) <->
  In p m \/ exists k, In k keys /\ assoc_str k m = None /\ p = (k, 0).
Proof.
  induction keys as [|k keys IH]; intros m p; cbn [fold_left].
  - split; auto. intros [H|(k & [] & _)]; auto.
  - rewrite IH. unfold touch. destruct (assoc_str k m) eqn:E.
    + split; intros [H|(k' & I & N & ->)]; auto.
      * right. exists k'. simpl. auto.
      * destruct I as [<-|I]; [congruence|]. right. eauto.
    + split.
      * intros [[<-|H]|(k' & I & N & ->)]; auto.
        -- right. exists k. simpl. auto.
        -- simpl in N. destruct (String.eqb k' k) eqn:X; [discriminate|]. right. exists k'. simpl. auto.
      * intros [H|(k' & I & N & ->)]; [simpl; auto|]. destruct (String.eqb k' k) eqn:X.
        -- apply String.eqb_eq in X. subst. simpl. auto.
        -- destruct I as [<-|I]; [rewrite String.eqb_refl in X; discriminate|].
           right. exists k'. simpl. rewrite X. auto.
Qed.
Lemma gt_iff : forall a b, gt a b = true <-> b < a.
Proof. intros a b. unfold gt. destruct (Rlt_dec b a); split; auto; discriminate. Qed.

(** * Reports *)
Section Reports.
Variable d : nat.
Variable quad : nat -> list (nat * R).
Variable over : nat.
Variable zero : func.
Notation L := (l2_error quad over).
Notation H := (h1s_error d quad over).

Lemma print_entries : forall F V diff l2 h1s zero exact fem cs ms matched csv,
  print F V diff l2 h1s zero exact fem cs ms matched = Report csv ->
  exists m f c, (f = fem \/ f = None) /\ (cs = Done c \/ c = zero) /\
    (forall g, m = Some g -> ms = Some (Done g)) /\
    forall k v, In (k, v) csv <-> entry F V diff l2 h1s exact m f c k v.
Proof.
  intros F V diff l2 h1s z exact fem cs ms matched csv E. unfold print in E.
  destruct cs as [c| |]; try discriminate.
  - destruct ms as [[g| |]|]; [| | |].
    + destruct matched; try discriminate.
      destruct (collect_spec F V diff l2 h1s exact (Some g) fem c) as (csv' & A & B & _).
      rewrite A in E. injection E as <-. exists (Some g), fem, c. repeat split; auto.
      * intros ? X. injection X as ->. reflexivity.
      * apply B.
      * apply B.
    + destruct matched; discriminate.
    + destruct matched; discriminate.
    + destruct (collect_spec F V diff l2 h1s exact None fem c) as (csv' & A & B & _).
      rewrite A in E. injection E as <-. exists None, fem, c. repeat split; auto.
      * discriminate.
      * apply B.
      * apply B.
  - destruct ms as [[g| |]|].
    + destruct matched; try discriminate.
      destruct (collect_spec F V diff l2 h1s exact (Some g) None z) as (csv' & A & B & _).
      rewrite A in E. injection E as <-. exists (Some g), None, z. repeat split; auto.
      * intros ? X. injection X as ->. reflexivity.
      * apply B.
      * apply B.
    + destruct matched; discriminate.
    + destruct matched; discriminate.
    + destruct (collect_spec F V diff l2 h1s exact None None z) as (csv' & A & B & _).
      rewrite A in E. injection E as <-. exists None, None, z. repeat split; auto.
      * discriminate.
      * apply B.
      * apply B.
Qed.

Lemma C36_entries_exact' : forall F V diff l2 h1s zero exact f c m csv,
  print F V diff l2 h1s zero exact (Some f) (Done c) (Some (Done m)) true = Report csv ->
  forall k v, In (k, v) csv <-> entry F V diff l2 h1s exact (Some m) (Some f) c k v.
Proof.
  intros F V diff l2 h1s z exact f c m csv E. unfold print in E.
  destruct (collect_spec F V diff l2 h1s exact (Some m) (Some f) c) as (csv' & A & B & _).
  rewrite A in E. injection E as <-. exact B.
Qed.

Lemma sorted_nodup : forall l, StronglySorted key_lt l -> NoDup l.
Proof.
  induction 1 as [|a l S IH F]; constructor; auto. intros I. rewrite Forall_forall in F. specialize (F a I).
  unfold key_lt in F. pose proof (String.compare_antisym a a) as X. rewrite F in X. discriminate X.
Qed.
Lemma print_keys_nodup : forall F V diff l2 h1s zero exact fem cs ms matched csv,
  print F V diff l2 h1s zero exact fem cs ms matched = Report csv -> NoDup (map fst csv).
Proof.
  intros F V diff l2 h1s z exact fem cs ms matched csv E. apply sorted_nodup. unfold print in E.
  assert (X : forall ms fem c, match collect F V diff l2 h1s exact ms fem c with
     | Some csv => Report csv | None => Raised end = Report csv -> StronglySorted key_lt (map fst csv)).
  { intros ms' fem' c Y. destruct (collect_spec F V diff l2 h1s exact ms' fem' c) as (csv' & A & _ & B).
    rewrite A in Y. injection Y as <-. exact B. }
  destruct cs; try discriminate; (destruct ms as [[g| |]|]; [| | |]; try (destruct matched; try discriminate); eapply X; exact E).
Qed.

Lemma entry_value : forall F V diff l2 h1s exact m f c k v,
  entry F V diff l2 h1s exact m f c k v -> exists g, v = l2 g \/ v = h1s g.
Proof. intros F V diff l2 h1s exact m f c k v E. destruct E; eauto. Qed.

Lemma key_me_l : forall F V diff l2 h1s exact m f c v,
  entry F V diff l2 h1s exact m f c "msfem_exact_L2" v ->
  exists u g, exact = Some u /\ m = Some g /\ v = l2 (diff u g).
Proof. intros until v. intros E. inversion E; subst; eauto. Qed.
Lemma key_me_h : forall F V diff l2 h1s exact m f c v,
  entry F V diff l2 h1s exact m f c "msfem_exact_H1s" v ->
  exists u g, exact = Some u /\ m = Some g /\ v = h1s (diff u g).
Proof. intros until v. intros E. inversion E; subst; eauto. Qed.
Lemma key_fe_l : forall F V diff l2 h1s exact m f c v,
  entry F V diff l2 h1s exact m f c "fem_exact_L2" v ->
  exists u g, exact = Some u /\ f = Some g /\ v = l2 (diff u g).
Proof. intros until v. intros E. inversion E; subst; eauto. Qed.
Lemma key_fe_h : forall F V diff l2 h1s exact m f c v,
  entry F V diff l2 h1s exact m f c "fem_exact_H1s" v ->
  exists u g, exact = Some u /\ f = Some g /\ v = h1s (diff u g).
Proof. intros until v. intros E. inversion E; subst; eauto. Qed.
Lemma key_ce_l : forall F V diff l2 h1s exact m f c v,
  entry F V diff l2 h1s exact m f c "coarse_fem_exact_L2" v ->
  exists u, exact = Some u /\ v = l2 (diff u c).
Proof. intros until v. intros E. inversion E; subst; eauto. Qed.
Lemma key_ce_h : forall F V diff l2 h1s exact m f c v,
  entry F V diff l2 h1s exact m f c "coarse_fem_exact_H1s" v ->
  exists u, exact = Some u /\ v = h1s (diff u c).
Proof. intros until v. intros E. inversion E; subst; eauto. Qed.
Lemma key_mc_l : forall F V diff l2 h1s exact m f c v,
  entry F V diff l2 h1s exact m f c "msfem_coarse_fem_L2" v ->
  exists g, m = Some g /\ v = l2 (diff g c).
Proof. intros until v. intros E. inversion E; subst; eauto. Qed.
Lemma key_mc_h : forall F V diff l2 h1s exact m f c v,
  entry F V diff l2 h1s exact m f c "msfem_coarse_fem_H1s" v ->
  exists g, m = Some g /\ v = h1s (diff g c).
Proof. intros until v. intros E. inversion E; subst; eauto. Qed.
Lemma key_mf_l : forall F V diff l2 h1s exact m f c v,
  entry F V diff l2 h1s exact m f c "msfem_fem_L2" v ->
  exists g h, m = Some g /\ f = Some h /\ v = l2 (diff g h).
Proof. intros until v. intros E. inversion E; subst; eauto 6. Qed.
Lemma key_mf_h : forall F V diff l2 h1s exact m f c v,
  entry F V diff l2 h1s exact m f c "msfem_fem_H1s" v ->
  exists g h, m = Some g /\ f = Some h /\ v = h1s (diff g h).
Proof. intros until v. intros E. inversion E; subst; eauto 6. Qed.

Hypothesis W : forall n q, In q (quad n) -> 0 <= snd q.

(** Three functions, two of them of order [p]. *)
Lemma sides_l2 : forall u g h p, fo g = p -> fo h = p ->
  lsum (quad (2 * Nat.max (fo u) p + over)) (fun q => snd q * (fv (fdiff g h) (fst q) * fv (fdiff g h) (fst q))) =
  lsum (quad (2 * p + over)) (fun q => snd q * (fv (fdiff g h) (fst q) * fv (fdiff g h) (fst q))) ->
  sides (L (fdiff u g)) (L (fdiff u h)) (L (fdiff g h)).
Proof.
  intros u g h p G K X. rewrite !l2_error_at. cbn [fdiff fo]. rewrite G, K, Nat.max_id.
  fold (fdiff u g) (fdiff u h) (fdiff g h). change (l2s (quad (2 * Nat.max (fo u) p + over)) (fdiff g h) =
    l2s (quad (2 * p + over)) (fdiff g h)) in X. change (sides (sqrt (l2s (quad (2 * Nat.max (fo u) p + over)) (fdiff u g)))
    (sqrt (l2s (quad (2 * Nat.max (fo u) p + over)) (fdiff u h))) (sqrt (l2s (quad (2 * p + over)) (fdiff g h)))).
  rewrite <- X. set (Q := quad (2 * Nat.max (fo u) p + over)%nat).
  assert (WQ : forall q, In q Q -> 0 <= snd q) by (intros q; apply W).
  unfold sides. pose proof (l2_triangle Q WQ u h g) as A. pose proof (l2_triangle Q WQ u g h) as B.
  pose proof (l2_triangle Q WQ g u h) as C. rewrite (l2_sym Q h g) in A. rewrite (l2_sym Q g u) in C.
  repeat split; lra.
Qed.
Lemma sides_h1 : forall u g h p, fo g = p -> fo h = p ->
  lsum (quad (2 * (Nat.max (fo u) p - 1) + over)) (fun q => snd q * dot d (fg (fdiff g h) (fst q)) (fg (fdiff g h) (fst q))) =
  lsum (quad (2 * (p - 1) + over)) (fun q => snd q * dot d (fg (fdiff g h) (fst q)) (fg (fdiff g h) (fst q))) ->
  sides (H (fdiff u g)) (H (fdiff u h)) (H (fdiff g h)).
Proof.
  intros u g h p G K X. rewrite !h1s_error_at. cbn [fdiff fo]. rewrite G, K, Nat.max_id.
  change (h1s d (quad (2 * (Nat.max (fo u) p - 1) + over)) (fdiff g h) =
    h1s d (quad (2 * (p - 1) + over)) (fdiff g h)) in X.
  change (sides (sqrt (h1s d (quad (2 * (Nat.max (fo u) p - 1) + over)) (fdiff u g)))
    (sqrt (h1s d (quad (2 * (Nat.max (fo u) p - 1) + over)) (fdiff u h))) (sqrt (h1s d (quad (2 * (p - 1) + over)) (fdiff g h)))).
  rewrite <- X. set (Q := quad (2 * (Nat.max (fo u) p - 1) + over)%nat).
  assert (WQ : forall q, In q Q -> 0 <= snd q) by (intros q; apply W).
  unfold sides. pose proof (h1_triangle d Q WQ u h g) as A. pose proof (h1_triangle d Q WQ u g h) as B.
  pose proof (h1_triangle d Q WQ g u h) as C. rewrite (h1_sym d Q h g) in A. rewrite (h1_sym d Q g u) in C.
  repeat split; lra.
Qed.
End Reports.

(** * The test *)
Lemma assoc_none : forall A (m : list (string * A)) k, assoc_str k m = None <-> ~ In k (map fst m).
Proof.
  induction m as [|(k', x) m IH]; simpl; intros k; [tauto|].
  destruct (String.eqb k k') eqn:E.
  - apply String.eqb_eq in E. subst. split; [discriminate|intros N; exfalso; auto].
  - apply String.eqb_neq in E. rewrite IH. intuition congruence.
Qed.
Lemma assoc_nodup : forall A (m : list (string * A)) k v, NoDup (map fst m) ->
  (assoc_str k m = Some v <-> In (k, v) m).
Proof.
  induction m as [|(k', x) m IH]; simpl; intros k v N; [split; [discriminate|tauto]|].
  inversion N; subst. destruct (String.eqb k k') eqn:E.
  - apply String.eqb_eq in E. subst. split.
    + intros X. injection X as ->. auto.
    + intros [X|I]; [congruence|]. apply (in_map fst) in I. contradiction.
  - apply String.eqb_neq in E. rewrite IH by auto. intuition congruence.
Qed.
Lemma at_or_zero_spec : forall m k v, NoDup (map fst m) -> (at_or_zero m k = v <-> value_or_zero m k v).
Proof.
  intros m k v N. unfold at_or_zero, value_or_zero. destruct (assoc_str k m) as [x|] eqn:E.
  - pose proof (proj1 (assoc_nodup _ m k x N) E) as I. split.
    + intros ->. auto.
    + intros [J|(J & _)].
      * apply (assoc_nodup _ m k v N) in J. congruence.
      * apply (in_map fst) in I. contradiction.
  - apply assoc_none in E. split.
    + intros <-. auto.
    + intros [J|(_ & ->)]; auto. apply (in_map fst) in J. contradiction.
Qed.

Lemma compare_test_iff : forall feq keys expected first second,
  NoDup (map fst first) -> NoDup (map fst second) ->
  (compare_test feq keys expected first second = true <->
   (forall k v, In k keys -> value_or_zero first k v ->
      v < match expected k with Some e => e | None => -1 end) /\
   (forall k v w, In k keys \/ In k (map fst first) -> value_or_zero first k v ->
      value_or_zero second k w -> feq v w = true)).
Proof.
  intros feq keys expected first second N1 N2. unfold compare_test. rewrite andb_true_iff, !forallb_forall. split.
  - intros (A & B). split.
    + intros k v I V. apply (at_or_zero_spec first k v N1) in V. subst v. apply gt_iff. now apply A.
    + intros k v w I V U. apply (at_or_zero_spec second k w N2) in U. subst w.
      apply (B (k, v)). apply touch_in. destruct V as [V|(NV & ->)]; auto.
      destruct I as [I|I]; [|contradiction]. right. exists k. repeat split; auto. now apply assoc_none.
  - intros (A & B). split.
    + intros k I. apply gt_iff. apply A; auto. now apply at_or_zero_spec.
    + intros (k, v) I. apply touch_in in I. cbn [fst snd].
      assert (Z : value_or_zero second k (at_or_zero second k)) by now apply at_or_zero_spec.
      destruct I as [I|(k' & I & E & X)].
      * apply (B k v); auto; [right; now apply (in_map fst) in I|]. left. exact I.
      * injection X as -> ->. apply (B k' 0); auto. right. split; auto. now apply assoc_none.
Qed.

Lemma forallb_agree : forall A (f g : A -> bool) l, (forall a, In a l -> f a = g a) -> forallb f l = forallb g l.
Proof.
  induction l as [|a l IH]; intros E; simpl; auto. rewrite (E a) by (simpl; auto). f_equal.
  apply IH. intros x I. apply E. simpl. auto.
Qed.
