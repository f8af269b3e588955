(** Proofs for C106. *)
From Coq Require Import List Arith ZArith QArith Qround Qminmax Lia Lqa Bool.
From Verif Require Import Util GridModel GridSpec GridProofs LocalGridModel SearchModel SearchSpec SearchProofs GtestModel GtestSpec.
Import ListNotations.
Open Scope Q_scope.

(** ** Corners and reference coordinates. *)
Lemma corners_in : forall b p, In p (corners b) <-> Forall2 (fun x iv => x = fst iv \/ x = snd iv) p b.
Proof.
  induction b as [|iv b IH]; intros p; cbn [corners fold_right].
  - split; [intros [<-|[]]; constructor|intros H; inversion H; now left].
  - fold (corners b). rewrite in_app_iff, !in_map_iff. split.
    + intros [(q & <- & H)|(q & <- & H)]; constructor; auto; now apply IH.
    + intros H. inversion H as [|x y q l [E|E] T]; subst; [left|right]; exists q; split; auto; now apply IH.
Qed.

Definition iv_inside (eps : Q) (iv : Q * Q) (x : Q) : bool :=
  let t := (x - fst iv) / (snd iv - fst iv) in (Qle_bool (- eps) t && Qle_bool t (1 + eps))%bool.

Lemma inside_spec eps : forall b p, length p = length b ->
  (reference_inside eps (to_local b p) = true <-> Forall2 (fun x iv => iv_inside eps iv x = true) p b).
Proof.
  unfold reference_inside, to_local. induction b as [|iv b IH]; intros [|x p] L; try discriminate.
  - split; [constructor|reflexivity].
  - cbn [combine map forallb fst snd]. rewrite andb_true_iff. injection L as L. rewrite (IH p L). split.
    + intros (H1 & H2). constructor; auto.
    + intros H; inversion H; subst; auto.
Qed.

Lemma Forall2_len {A B} (P : A -> B -> Prop) l m : Forall2 P l m -> length l = length m.
Proof. induction 1; simpl; congruence. Qed.

Lemma iv_inside_end eps iv x : 0 <= eps -> fst iv < snd iv -> fst iv <= x -> x <= snd iv -> iv_inside eps iv x = true.
Proof.
  intros E W X1 X2. unfold iv_inside. apply andb_true_iff. rewrite !Qle_bool_iff. split.
  - apply Qle_trans with 0; [lra|]. apply Qle_shift_div_l; lra.
  - apply Qle_trans with 1; [|lra]. apply Qle_shift_div_r; lra.
Qed.

Lemma iv_inside_exact iv x : fst iv < snd iv -> (iv_inside 0 iv x = true <-> fst iv <= x /\ x <= snd iv).
Proof.
  intros W. split; [|intros (H1 & H2); apply iv_inside_end; auto; lra].
  unfold iv_inside. rewrite andb_true_iff, !Qle_bool_iff. intros (H1 & H2).
  set (w := snd iv - fst iv) in *. assert (Hw : 0 < w) by (unfold w; lra).
  assert (E : x - fst iv == ((x - fst iv) / w) * w) by (field; lra).
  split.
  - assert (0 <= ((x - fst iv) / w) * w) by (apply Qmult_le_0_compat; lra). lra.
  - assert (((x - fst iv) / w) * w <= 1 * w) by (apply Qmult_le_compat_r; lra). unfold w in *. lra.
Qed.

Lemma vacuous eps coarse fine : 0 <= eps -> coarse <> [] -> (forall b, In b fine -> solid b) ->
  check_fine_lp_in_coarse eps coarse fine = true.
Proof.
  intros E NE S. unfold check_fine_lp_in_coarse. apply forallb_forall. intros b B.
  apply forallb_forall. intros p P. destruct coarse as [|c r]; [congruence|].
  cbn [existsb]. apply orb_true_iff. left. apply corners_in in P.
  apply inside_spec; [exact (Forall2_len _ _ _ P)|]. specialize (S b B). clear B. unfold solid in S.
  induction P as [|x iv p b X P IH]; constructor.
  - inversion S; subst. destruct X as [->| ->]; apply iv_inside_end; auto; lra.
  - inversion S; subst; auto.
Qed.

Lemma inside_exact b p : solid b -> length p = length b ->
  (reference_inside 0 (to_local b p) = true <-> lies_in p b).
Proof.
  intros S L. rewrite inside_spec by exact L. unfold lies_in. revert p L.
  induction S as [|iv b W S IH]; intros [|x p] L; try discriminate.
  - split; constructor.
  - injection L as L. specialize (IH p L). split; intros H; inversion H; subst; constructor;
      try (apply iv_inside_exact; assumption); now apply IH.
Qed.

Lemma check_inside_exact coarse fine d :
  (forall b, In b coarse -> solid b /\ length b = d) -> (forall b, In b fine -> length b = d) ->
  (check_inside 0 coarse fine = true <->
   forall b p, In b fine -> In p (corners b) -> exists c, In c coarse /\ lies_in p c).
Proof.
  intros C F. unfold check_inside. rewrite forallb_forall. split.
  - intros H b p B P. specialize (H b B). rewrite forallb_forall in H. specialize (H p P).
    apply existsb_exists in H as (c & I & H). exists c. split; [exact I|].
    apply inside_exact; [apply C; exact I| |exact H].
    apply corners_in, Forall2_len in P. rewrite P, (F b B). symmetry. apply C, I.
  - intros H b B. apply forallb_forall. intros p P. apply existsb_exists.
    destruct (H b p B P) as (c & I & L). exists c. split; [exact I|].
    apply inside_exact; [apply C; exact I| |exact L].
    apply corners_in, Forall2_len in P. rewrite P, (F b B). symmetry. apply C, I.
Qed.

(** ** Structured grids. *)
Lemma axis_cells_in a b n iv : In iv (axis_cells a b n) <->
  exists i, (0 <= i < n)%Z /\ iv = (GridModel.node a b n i, GridModel.node a b n (i + 1)).
Proof.
  unfold axis_cells. rewrite in_map_iff. split.
  - intros (i & <- & I). apply in_seq in I. exists (Z.of_nat i). split; [lia|reflexivity].
  - intros (i & I & ->). exists (Z.to_nat i). rewrite Z2Nat.id by lia. split; [reflexivity|]. apply in_seq. lia.
Qed.

Lemma structured_cons a b n ll ur ns p : In p (structured (a :: ll) (b :: ur) (n :: ns)) <->
  exists iv q, p = iv :: q /\ In iv (axis_cells a b n) /\ In q (structured ll ur ns).
Proof.
  cbn [structured]. rewrite in_flat_map. split.
  - intros (iv & I & H). apply in_map_iff in H as (q & <- & H). eauto.
  - intros (iv & q & -> & I & H). exists iv. split; [exact I|]. apply in_map, H.
Qed.

Lemma structured_length ll ur ns : proper ll ur ns -> forall b, In b (structured ll ur ns) -> length b = length ns.
Proof.
  induction 1 as [|a b n ll ur ns AB N P IH]; intros c I.
  - destruct I as [<-|[]]. reflexivity.
  - apply structured_cons in I as (iv & q & -> & _ & I). cbn. now rewrite (IH q I).
Qed.

Lemma node_diff a b n i : (0 < n)%Z -> (GridModel.node a b n (i + 1) - GridModel.node a b n i == (b - a) / inject_Z n)%Q.
Proof.
  intros N. pose proof (injZ_pos n N). unfold GridModel.node. rewrite inject_Z_plus. field. lra.
Qed.

Lemma width_pos a b n : a < b -> (0 < n)%Z -> 0 < (b - a) / inject_Z n.
Proof. intros AB N. pose proof (injZ_pos n N). apply Qlt_shift_div_l; lra. Qed.

Lemma structured_solid ll ur ns : proper ll ur ns -> forall b, In b (structured ll ur ns) -> solid b.
Proof.
  induction 1 as [|a b n ll ur ns AB N P IH]; intros c I.
  - destruct I as [<-|[]]. constructor.
  - apply structured_cons in I as (iv & q & -> & I1 & I). constructor; [|exact (IH q I)].
    apply axis_cells_in in I1 as (i & _ & ->). cbn [fst snd].
    pose proof (node_diff a b n i N). pose proof (width_pos a b n AB N). lra.
Qed.

Lemma axis_cells_length a b n : length (axis_cells a b n) = Z.to_nat n.
Proof. unfold axis_cells. now rewrite map_length, seq_length. Qed.

Lemma flat_map_len {A B} (f : A -> list B) k : forall l, (forall x, length (f x) = k) -> length (flat_map f l) = (length l * k)%nat.
Proof. intros l H. induction l as [|x l IH]; [reflexivity|]. cbn. now rewrite app_length, H, IH. Qed.

Lemma structured_count ll ur ns : proper ll ur ns -> Z.of_nat (length (structured ll ur ns)) = total ns.
Proof.
  induction 1 as [|a b n ll ur ns AB N P IH]; [reflexivity|]. cbn [structured].
  rewrite (flat_map_len _ (length (structured ll ur ns))) by (intros; apply map_length).
  rewrite axis_cells_length, Nat2Z.inj_mul, IH, Z2Nat.id by lia. reflexivity.
Qed.

Lemma total_pos ll ur ns : proper ll ur ns -> (0 < total ns)%Z.
Proof.
  induction 1 as [|a b n ll ur ns AB N P IH]; [reflexivity|]. unfold total in *. cbn [fold_right]. nia.
Qed.

Lemma structured_nonempty ll ur ns : proper ll ur ns -> structured ll ur ns <> [].
Proof.
  intros P E. pose proof (structured_count ll ur ns P) as C. rewrite E in C. cbn [length Z.of_nat] in C.
  pose proof (total_pos ll ur ns P). lia.
Qed.

(** A node of the fine grid in the coordinates of a coarse cell. *)
Lemma local_node a b n k i j : a < b -> (0 < n)%Z -> (0 < k)%Z ->
  (GridModel.node a b k j - GridModel.node a b n i) / (GridModel.node a b n (i + 1) - GridModel.node a b n i) ==
  inject_Z (n * j - i * k) / inject_Z k.
Proof.
  intros AB N K. pose proof (injZ_pos n N). pose proof (injZ_pos k K). rewrite node_diff by exact N.
  unfold GridModel.node. unfold Z.sub. rewrite inject_Z_plus, inject_Z_opp, !inject_Z_mult. field. lra.
Qed.

Lemma iv_inside_node eps a b n k i j : a < b -> (0 < n)%Z -> (0 < k)%Z -> 0 <= eps ->
  ((0 <= n * j - i * k <= k)%Z -> iv_inside eps (GridModel.node a b n i, GridModel.node a b n (i + 1)) (GridModel.node a b k j) = true) /\
  (eps * inject_Z k < 1 ->
   iv_inside eps (GridModel.node a b n i, GridModel.node a b n (i + 1)) (GridModel.node a b k j) = true -> (0 <= n * j - i * k <= k)%Z).
Proof.
  intros AB N K E. pose proof (injZ_pos k K) as PK. unfold iv_inside. cbn [fst snd].
  rewrite andb_true_iff, !Qle_bool_iff, local_node by assumption.
  set (z := (n * j - i * k)%Z). split.
  - intros (H1 & H2). split.
    + apply Qle_trans with 0; [lra|]. apply Qle_shift_div_l; [lra|].
      setoid_replace (0 * inject_Z k) with (inject_Z 0) by (change (inject_Z 0) with 0; ring).
      rewrite <- Zle_Qle. lia.
    + apply Qle_trans with 1; [|lra]. apply Qle_shift_div_r; [lra|].
      setoid_replace (1 * inject_Z k) with (inject_Z k) by ring. rewrite <- Zle_Qle. lia.
  - intros T (H1 & H2).
    assert (EQ : inject_Z z == (inject_Z z / inject_Z k) * inject_Z k) by (field; lra).
    split.
    + assert ((- eps) * inject_Z k <= (inject_Z z / inject_Z k) * inject_Z k) by (apply Qmult_le_compat_r; lra).
      assert (L : inject_Z (-1) < inject_Z z) by (change (inject_Z (-1)) with (-1 # 1); lra).
      rewrite <- Zlt_Qlt in L. lia.
    + assert ((inject_Z z / inject_Z k) * inject_Z k <= (1 + eps) * inject_Z k) by (apply Qmult_le_compat_r; lra).
      assert (L : inject_Z z < inject_Z (k + 1)) by (rewrite inject_Z_plus; change (inject_Z 1) with 1; lra).
      rewrite <- Zlt_Qlt in L. lia.
Qed.

(** Every node lies in some coarse cell, whatever the numbers of cells. *)
Lemma node_somewhere n k j : (0 < n)%Z -> (0 < k)%Z -> (0 <= j <= k)%Z ->
  exists i, (0 <= i < n)%Z /\ (0 <= n * j - i * k <= k)%Z.
Proof.
  intros N K J. destruct (Z.eq_dec j k) as [->|NE].
  - exists (n - 1)%Z. split; [lia|]. nia.
  - exists (n * j / k)%Z. pose proof (Z.div_mod (n * j) k ltac:(lia)) as D.
    pose proof (Z.mod_pos_bound (n * j) k K). split; [|nia]. split; [apply Z.div_pos; nia|].
    apply Z.div_lt_upper_bound; nia.
Qed.

Lemma corner_somewhere eps ll ur ns : 0 <= eps -> proper ll ur ns -> forall ks, proper ll ur ks ->
  forall b p, In b (structured ll ur ks) -> In p (corners b) ->
  exists c, In c (structured ll ur ns) /\ Forall2 (fun x iv => iv_inside eps iv x = true) p c.
Proof.
  intros E. induction 1 as [|a b n ll ur ns AB N P IH]; intros ks Q c p I C.
  - inversion Q; subst. exists []. split; [now left|]. destruct I as [<-|[]]. destruct C as [<-|[]]. constructor.
  - inversion Q as [|a' b' k l1 l2 ks' AB' K Q']; subst.
    apply structured_cons in I as (iv & q & -> & I1 & I).
    apply corners_in in C. inversion C as [|x y p' l X C']; subst.
    destruct (IH ks' Q' q p' I) as (c & I2 & H); [now apply corners_in|].
    apply axis_cells_in in I1 as (j & J & ->). cbn [fst snd] in X.
    assert (exists j', (0 <= j' <= k)%Z /\ x = GridModel.node a b k j') as (j' & J' & ->).
    { destruct X as [->| ->]; eexists; (split; [|reflexivity]); lia. }
    destruct (node_somewhere n k j' N K J') as (i & Hi & Z).
    exists ((GridModel.node a b n i, GridModel.node a b n (i + 1)) :: c). split.
    + apply structured_cons. do 2 eexists. split; [reflexivity|]. split; [|exact I2].
      apply axis_cells_in. eauto.
    + constructor; [|exact H]. now apply iv_inside_node.
Qed.

Lemma check_inside_always eps ll ur ns ks : 0 <= eps -> proper ll ur ns -> proper ll ur ks ->
  check_inside eps (structured ll ur ns) (structured ll ur ks) = true.
Proof.
  intros E P Q. unfold check_inside. apply forallb_forall. intros b B. apply forallb_forall. intros p C.
  apply existsb_exists. destruct (corner_somewhere eps ll ur ns E P ks Q b p B C) as (c & I & H).
  exists c. split; [exact I|]. apply inside_spec; [exact (Forall2_len _ _ _ H)|exact H].
Qed.

(** ** One coarse cell for a whole fine cell. *)
Lemma divides_arith n k : (0 < n)%Z -> (0 < k)%Z ->
  ((forall j, (0 <= j < k)%Z -> exists i, (0 <= i < n)%Z /\ (i * k <= n * j)%Z /\ (n * (j + 1) <= (i + 1) * k)%Z)
   <-> exists q, k = (q * n)%Z).
Proof.
  intros N K. split.
  - intros H. destruct (Z.eq_dec n 1) as [->|N1]; [exists k; lia|].
    pose proof (Z.div_mod k n ltac:(lia)) as D. pose proof (Z.mod_pos_bound k n N) as M.
    exists (k / n)%Z. assert (0 <= k / n < k)%Z as B.
    { split; [apply Z.div_pos; lia|]. apply Z.div_lt_upper_bound; nia. }
    destruct (H (k / n)%Z B) as (i & I & H1 & H2).
    assert (i = 0 \/ i = 1 \/ 2 <= i)%Z as [->|[->|I2]] by lia; [lia|lia|nia].
  - intros (q & ->) j J. assert (0 < q)%Z by nia. exists (j / q)%Z.
    pose proof (Z.div_mod j q ltac:(lia)) as D. pose proof (Z.mod_pos_bound j q ltac:(lia)) as M.
    split; [|nia]. split; [apply Z.div_pos; lia|]. apply Z.div_lt_upper_bound; lia.
Qed.

Lemma corners_all {C} (P : Q -> C -> Prop) : forall b c, length b = length c ->
  ((forall p, In p (corners b) -> Forall2 P p c) <->
   Forall2 (fun iv jv => P (fst iv) jv /\ P (snd iv) jv) b c).
Proof.
  induction b as [|iv b IH]; intros [|jv c] L; try discriminate.
  - split; [constructor|]. intros _ p [<-|[]]. constructor.
  - injection L as L. specialize (IH c L). split.
    + intros H. constructor.
      * assert (exists p, In p (corners b)) as (p & Hp).
        { clear. induction b as [|iv b (p & H)]; [exists []; now left|].
          exists (fst iv :: p). cbn. apply in_or_app. left. now apply in_map. }
        split; [specialize (H (fst iv :: p))|specialize (H (snd iv :: p))]; cbn in H;
          (assert (In p (corners b)) as Hp' by exact Hp);
          (match type of H with ?A -> _ => assert (A) as K by (apply in_or_app; rewrite !in_map_iff; eauto) end);
          specialize (H K); inversion H; assumption.
      * apply IH. intros p Hp. specialize (H (fst iv :: p)). cbn in H.
        assert (Forall2 P (fst iv :: p) (jv :: c)) as F by (apply H, in_or_app; left; now apply in_map).
        inversion F; assumption.
    + intros H p Hp. inversion H as [|x y l l' (H1 & H2) T]; subst.
      apply corners_in in Hp. inversion Hp as [|x y q l E Hq]; subst. constructor.
      * destruct E as [->| ->]; assumption.
      * apply IH; [assumption|]. now apply corners_in.
Qed.

Lemma corners_nonempty b : corners b <> [].
Proof.
  induction b as [|iv b IH]; [discriminate|]. cbn. fold (corners b).
  destruct (corners b); [congruence|discriminate].
Qed.

Notation inside eps := (fun c p => reference_inside eps (to_local c p)).

Lemma contains_spec eps b c : length b = length c ->
  (contains box point (inside eps) c (corners b) <->
   Forall2 (fun iv jv => iv_inside eps jv (fst iv) = true /\ iv_inside eps jv (snd iv) = true) b c).
Proof.
  intros L. rewrite <- (corners_all (fun x jv => iv_inside eps jv x = true)) by exact L.
  unfold contains. split; intros H p Hp; specialize (H p Hp);
    apply inside_spec; auto; apply corners_in, Forall2_len in Hp; congruence.
Qed.

Lemma one_cell eps ll ur ns : proper ll ur ns -> forall ks, proper ll ur ks -> fine_tolerance eps ks ->
  ((forall b, In b (structured ll ur ks) -> exists c, In c (structured ll ur ns) /\
      Forall2 (fun iv jv => iv_inside eps jv (fst iv) = true /\ iv_inside eps jv (snd iv) = true) b c)
   <-> refines ll ur ns ks).
Proof.
  induction 1 as [|a b n ll ur ns AB N P IH]; intros ks Q (E & T).
  - inversion Q; subst. split; [constructor|]. intros _ c [<-|[]]. exists []. split; [now left|constructor].
  - inversion Q as [|a' b' k l1 l2 ks' AB' K Q']; subst.
    assert (T' : fine_tolerance eps ks') by (split; [exact E|intros; apply T; now right]).
    assert (Tk : eps * inject_Z k < 1) by (apply T; now left).
    specialize (IH ks' Q' T'). split.
    + intros H. constructor.
      * apply nested_iff; auto. apply divides_arith; auto. intros j J.
        destruct (structured ll ur ks') as [|q r] eqn:S; [exfalso; exact (structured_nonempty _ _ _ Q' S)|].
        destruct (H ((GridModel.node a b k j, GridModel.node a b k (j + 1)) :: q)) as (c & C & F).
        { apply structured_cons. do 2 eexists. split; [reflexivity|]. split; [apply axis_cells_in; eauto|].
          rewrite S. now left. }
        apply structured_cons in C as (jv & c' & -> & C1 & _). apply axis_cells_in in C1 as (i & I & ->).
        inversion F as [|x y l l' (F1 & F2) _]; subst. cbn [fst snd] in F1, F2.
        apply iv_inside_node in F1; auto. apply iv_inside_node in F2; auto.
        exists i. split; [exact I|]. lia.
      * apply IH. intros q Hq.
        destruct (H ((GridModel.node a b k 0, GridModel.node a b k (0 + 1)) :: q)) as (c & C & F).
        { apply structured_cons. do 2 eexists. split; [reflexivity|]. split; [|exact Hq].
          apply axis_cells_in. exists 0%Z. split; [lia|reflexivity]. }
        apply structured_cons in C as (jv & c' & -> & _ & C). inversion F; subst. eauto.
    + intros R. inversion R as [|x1 x2 x3 x4 l1 l2 l3 l4 D R']; subst. intros c C.
      apply structured_cons in C as (iv & q & -> & C1 & C). apply axis_cells_in in C1 as (j & J & ->).
      destruct (proj2 IH R' q C) as (c' & I' & F).
      apply nested_iff in D; auto. pose proof (proj2 (divides_arith n k N K) D j J) as (i & I & H1 & H2).
      exists ((GridModel.node a b n i, GridModel.node a b n (i + 1)) :: c'). split.
      * apply structured_cons. do 2 eexists. split; [reflexivity|]. split; [apply axis_cells_in; eauto|exact I'].
      * constructor; [|exact F]. cbn [fst snd]. split; apply iv_inside_node; auto; nia.
Qed.

(** ** The search. *)
Section SearchAll.
Variable ent : Type.
Variable lookup : nat -> box -> list point -> list (option ent).
Variable eps : Q.
Variable cells : list box.
Hypothesis rel : reliable ent eps lookup cells.

Lemma search_all_sound : forall fine st stored, search_all ent lookup eps cells stored st fine = true ->
  forall e, In e fine -> exists c, In c cells /\ contains box point (inside eps) c (corners e).
Proof.
  induction fine as [|e fine IH]; intros st stored H x I; [destruct I|]. cbn [search_all] in H.
  destruct (search box point ent (inside eps) lookup cells stored st (corners e)) as [ret st' v| | |] eqn:S;
    try discriminate. apply andb_true_iff in H as (_ & H). destruct I as [<-|I]; [|exact (IH st' stored H x I)].
  unfold search in S. apply loop_sound in S as (c & _ & C1 & C2); [eauto|].
  apply nonempty_nulls, corners_nonempty.
Qed.

Lemma search_all_complete : forall fine st stored, (2 <= stored)%nat -> in_range box cells st ->
  (forall e, In e fine -> exists c, In c cells /\ contains box point (inside eps) c (corners e)) ->
  search_all ent lookup eps cells stored st fine = true.
Proof.
  destruct rel as (CP & SZ).
  induction fine as [|e fine IH]; intros st stored W R H; [reflexivity|]. cbn [search_all].
  destruct (H e) as (c & I & C); [now left|].
  destruct (first_exists box point ent (inside eps) lookup cells stored st (corners e) c R I C) as (k & c' & F).
  destruct (search_finds box point ent (inside eps) lookup cells stored CP W st (corners e) k c' (corners_nonempty e) R F)
    as (ret & st' & S & _ & _ & R' & E).
  rewrite S. apply andb_true_iff. split.
  - apply Nat.leb_le. rewrite E, SZ. reflexivity.
  - apply IH; auto. intros x X. apply H. now right.
Qed.

Lemma check_search_spec fine : cells <> [] -> fine <> [] ->
  (check_search ent lookup eps cells (length cells) fine = true <->
   (2 <= length cells)%nat /\
   forall e, In e fine -> exists c, In c cells /\ contains box point (inside eps) c (corners e)).
Proof.
  intros NC NF. unfold check_search. split.
  - intros H. split; [|exact (search_all_sound fine fresh _ H)].
    destruct (le_lt_dec 2 (length cells)) as [L|L]; [exact L|exfalso].
    assert (L1 : length cells = 1%nat) by (destruct cells; cbn in *; [congruence|lia]).
    destruct fine as [|e r]; [congruence|]. cbn [search_all] in H.
    destruct (single_cell box point ent (inside eps) lookup cells (length cells) (proj2 rel) L1 L1 fresh (corners e)
      (corners_nonempty e) NC) as (st' & S). rewrite S in H. discriminate.
  - intros (L & H). apply search_all_complete; auto.
Qed.
End SearchAll.

Lemma check_search_grids ent lookup eps ll ur ns ks :
  proper ll ur ns -> proper ll ur ks -> fine_tolerance eps ks ->
  reliable ent eps lookup (structured ll ur ns) ->
  (check_search ent lookup eps (structured ll ur ns) (length (structured ll ur ns)) (structured ll ur ks) = true <->
   (2 <= total ns)%Z /\ refines ll ur ns ks).
Proof.
  intros P Q T R. rewrite check_search_spec; auto using structured_nonempty.
  rewrite <- (one_cell eps ll ur ns P ks Q T). rewrite <- (structured_count ll ur ns P). split.
  - intros (L & H). split; [lia|]. intros b B. destruct (H b B) as (c & C & D). exists c. split; [exact C|].
    apply contains_spec; [|exact D]. rewrite (structured_length _ _ _ Q b B), (structured_length _ _ _ P c C).
    transitivity (length ll); [clear - Q; induction Q; cbn; congruence|clear - P; induction P; cbn; congruence].
  - intros (L & H). split; [lia|]. intros b B. destruct (H b B) as (c & C & D). exists c. split; [exact C|].
    apply contains_spec; [|exact D]. exact (Forall2_len _ _ _ D).
Qed.

(** ** Corners of an element are different. *)
Lemma corners_cons iv b : corners (iv :: b) = map (cons (fst iv)) (corners b) ++ map (cons (snd iv)) (corners b).
Proof. reflexivity. Qed.

Lemma corners_length b : length (corners b) = (2 ^ length b)%nat.
Proof.
  induction b as [|iv b IH]; [reflexivity|]. rewrite corners_cons. unfold point in *. rewrite app_length, !map_length, IH. cbn [length Nat.pow]. lia.
Qed.

Lemma same_point_cons x p y q : same_point (x :: p) (y :: q) = (Qeq_bool x y && same_point p q)%bool.
Proof.
  unfold same_point. cbn [length Nat.eqb combine forallb fst snd].
  destruct (Nat.eqb _ _), (Qeq_bool x y); reflexivity.
Qed.

Lemma same_point_refl p : same_point p p = true.
Proof.
  induction p as [|x p IH]; [reflexivity|]. rewrite same_point_cons, IH, andb_true_r. apply Qeq_bool_iff. reflexivity.
Qed.

Lemma nth_corner iv b i : (i < length (corners (iv :: b)))%nat ->
  (i < length (corners b) /\ nth i (corners (iv :: b)) [] = fst iv :: nth i (corners b) [])%nat \/
  (length (corners b) <= i /\ i - length (corners b) < length (corners b) /\
   nth i (corners (iv :: b)) [] = snd iv :: nth (i - length (corners b)) (corners b) [])%nat.
Proof.
  intros L. rewrite corners_cons in *. unfold point in *. rewrite app_length, !map_length in L.
  destruct (le_lt_dec (length (corners b)) i) as [G|G].
  - right. split; [exact G|]. split; [lia|]. rewrite app_nth2 by (rewrite map_length; exact G). rewrite map_length.
    rewrite (nth_indep _ [] (snd iv :: [])) by (rewrite map_length; lia). now rewrite map_nth.
  - left. split; [exact G|]. rewrite app_nth1 by (rewrite map_length; exact G).
    rewrite (nth_indep _ [] (fst iv :: [])) by (rewrite map_length; exact G). now rewrite map_nth.
Qed.

Lemma corners_differ b : solid b -> forall i j, (i < length (corners b))%nat -> (j < length (corners b))%nat ->
  same_point (nth i (corners b) []) (nth j (corners b) []) = Nat.eqb i j.
Proof.
  induction 1 as [|iv b W S IH]; intros i j Li Lj.
  - cbn in *. replace i with 0%nat by lia. replace j with 0%nat by lia. reflexivity.
  - assert (N1 : Qeq_bool (fst iv) (snd iv) = false) by (apply not_true_iff_false; rewrite Qeq_bool_iff; intros X; lra).
    assert (N2 : Qeq_bool (snd iv) (fst iv) = false) by (apply not_true_iff_false; rewrite Qeq_bool_iff; intros X; lra).
    assert (E1 : forall x, Qeq_bool x x = true) by (intros; apply Qeq_bool_iff; reflexivity).
    destruct (nth_corner iv b i Li) as [(Hi & ->)|(Hi & Hi' & ->)];
      destruct (nth_corner iv b j Lj) as [(Hj & ->)|(Hj & Hj' & ->)]; rewrite same_point_cons.
    + rewrite E1, IH by assumption. reflexivity.
    + rewrite N1. symmetry. apply Nat.eqb_neq. lia.
    + rewrite N2. symmetry. apply Nat.eqb_neq. lia.
    + rewrite E1, IH by assumption. cbn [andb]. apply eq_true_iff_eq. rewrite !Nat.eqb_eq. lia.
Qed.

Lemma unique_corners d view : (forall b, In b view -> solid b /\ length b = d) -> check_unique_corners d view = true.
Proof.
  intros H. unfold check_unique_corners. apply forallb_forall. intros b B. destruct (H b B) as (S & L).
  apply andb_true_iff. split; [apply Nat.eqb_eq; rewrite corners_length, L; reflexivity|].
  apply forallb_forall. intros i I. apply forallb_forall. intros j J. apply in_seq in I, J.
  rewrite corners_differ by (assumption || lia). apply Bool.eqb_reflx.
Qed.

(** ** Extents. *)
Lemma fold_min : forall l x, let v := fold_left Qmin l x in
  v <= x /\ (forall y, In y l -> v <= y) /\ (v == x \/ exists y, In y l /\ v == y).
Proof.
  induction l as [|z l IH]; intros x; cbn [fold_left].
  - split; [lra|]. split; [intros y []|]. left; reflexivity.
  - destruct (IH (Qmin x z)) as (H1 & H2 & H3). cbv zeta.
    pose proof (Q.le_min_l x z). pose proof (Q.le_min_r x z). split; [lra|]. split.
    + intros y [<-|I]; [lra|auto].
    + destruct H3 as [H3|(y & I & H3)]; [|right; exists y; split; [now right|exact H3]].
      destruct (Q.min_dec x z) as [M|M]; [left; exact (Qeq_trans _ _ _ H3 M)|]. right. exists z. split; [now left|exact (Qeq_trans _ _ _ H3 M)].
Qed.
Lemma fold_max : forall l x, let v := fold_left Qmax l x in
  x <= v /\ (forall y, In y l -> y <= v) /\ (v == x \/ exists y, In y l /\ v == y).
Proof.
  induction l as [|z l IH]; intros x; cbn [fold_left].
  - split; [lra|]. split; [intros y []|]. left; reflexivity.
  - destruct (IH (Qmax x z)) as (H1 & H2 & H3). cbv zeta.
    pose proof (Q.le_max_l x z). pose proof (Q.le_max_r x z). split; [lra|]. split.
    + intros y [<-|I]; [lra|auto].
    + destruct H3 as [H3|(y & I & H3)]; [|right; exists y; split; [now right|exact H3]].
      destruct (Q.max_dec x z) as [M|M]; [left; exact (Qeq_trans _ _ _ H3 M)|]. right. exists z. split; [now left|exact (Qeq_trans _ _ _ H3 M)].
Qed.

Lemma extent_min l m : (forall y, In y l -> m <= y) -> (exists y, In y l /\ y == m) ->
  exists v, extent Qmin l = Some v /\ v == m.
Proof.
  intros B (y & I & E). destruct l as [|x l]; [destruct I|]. cbn [extent]. eexists. split; [reflexivity|].
  destruct (fold_min l x) as (H1 & H2 & H3). cbv zeta in *.
  assert (fold_left Qmin l x <= m) by (destruct I as [<-|I]; [lra|specialize (H2 y I); lra]).
  assert (m <= fold_left Qmin l x).
  { destruct H3 as [H3|(z & Z & H3)]; rewrite H3; apply B; [now left|now right]. }
  lra.
Qed.
Lemma extent_max l m : (forall y, In y l -> y <= m) -> (exists y, In y l /\ y == m) ->
  exists v, extent Qmax l = Some v /\ v == m.
Proof.
  intros B (y & I & E). destruct l as [|x l]; [destruct I|]. cbn [extent]. eexists. split; [reflexivity|].
  destruct (fold_max l x) as (H1 & H2 & H3). cbv zeta in *.
  assert (m <= fold_left Qmax l x) by (destruct I as [<-|I]; [lra|specialize (H2 y I); lra]).
  assert (fold_left Qmax l x <= m).
  { destruct H3 as [H3|(z & Z & H3)]; rewrite H3; apply B; [now left|now right]. }
  lra.
Qed.

(** Volumes. *)
Fixpoint cell_volume (ll ur : list Q) (ns : list Z) : Q :=
  match ll, ur, ns with
  | a :: ll', b :: ur', n :: ns' => (b - a) / inject_Z n * cell_volume ll' ur' ns'
  | _, _, _ => 1
  end.
Lemma cell_volume_pos ll ur ns : proper ll ur ns -> 0 < cell_volume ll ur ns.
Proof.
  induction 1 as [|a b n ll ur ns AB N P IH]; cbn [cell_volume]; [lra|].
  pose proof (width_pos a b n AB N). rewrite <- (Qmult_0_l (cell_volume ll ur ns)). apply Qmult_lt_compat_r; assumption.
Qed.
Lemma volume_structured ll ur ns : proper ll ur ns -> forall b, In b (structured ll ur ns) ->
  volume b == cell_volume ll ur ns.
Proof.
  induction 1 as [|a b n ll ur ns AB N P IH]; intros c I.
  - destruct I as [<-|[]]. reflexivity.
  - apply structured_cons in I as (iv & q & -> & I1 & I). apply axis_cells_in in I1 as (i & _ & ->).
    cbn [volume fold_right fst snd cell_volume]. fold (volume q). rewrite (IH q I), node_diff by exact N. reflexivity.
Qed.

Lemma volume_extent ll ur ns : proper ll ur ns ->
  (exists v, extent Qmin (map volume (structured ll ur ns)) = Some v /\ v == cell_volume ll ur ns) /\
  (exists v, extent Qmax (map volume (structured ll ur ns)) = Some v /\ v == cell_volume ll ur ns).
Proof.
  intros P. pose proof (volume_structured ll ur ns P) as V.
  destruct (structured ll ur ns) as [|c r] eqn:E; [exfalso; exact (structured_nonempty _ _ _ P E)|].
  assert (H : exists y, In y (map volume (c :: r)) /\ y == cell_volume ll ur ns).
  { exists (volume c). split; [now left|]. apply V. now left. }
  split; [apply extent_min|apply extent_max]; auto; intros y Y; apply in_map_iff in Y as (b & <- & B);
    rewrite (V b B); lra.
Qed.

(** Coordinates. *)
Lemma coordinates_in i view x : In x (coordinates i view) <-> exists b p, In b view /\ In p (corners b) /\ x = nth i p 0.
Proof.
  unfold coordinates. rewrite in_map_iff. split.
  - intros (p & <- & I). apply in_flat_map in I as (b & B & C). eauto.
  - intros (b & p & B & C & ->). exists p. split; [reflexivity|]. apply in_flat_map. eauto.
Qed.

Lemma node_range a b n i : a < b -> (0 < n)%Z -> (0 <= i <= n)%Z -> a <= GridModel.node a b n i /\ GridModel.node a b n i <= b.
Proof.
  intros AB N I. pose proof (injZ_pos n N) as PN. unfold GridModel.node.
  assert (E : inject_Z i * ((b - a) / inject_Z n) == (b - a) * (inject_Z i / inject_Z n)) by (field; lra).
  assert (0 <= inject_Z i / inject_Z n).
  { apply Qle_shift_div_l; [exact PN|]. rewrite Qmult_0_l. change 0 with (inject_Z 0). rewrite <- Zle_Qle. lia. }
  assert (inject_Z i / inject_Z n <= 1).
  { apply Qle_shift_div_r; [exact PN|]. rewrite Qmult_1_l, <- Zle_Qle. lia. }
  rewrite E. split; nra.
Qed.

Lemma coordinate_range ll ur ns : proper ll ur ns -> forall b p i, In b (structured ll ur ns) -> In p (corners b) ->
  (i < length ns)%nat -> nth i ll 0 <= nth i p 0 /\ nth i p 0 <= nth i ur 0.
Proof.
  induction 1 as [|a b n ll ur ns AB N P IH]; intros c p i I C L; [cbn in L; lia|].
  apply structured_cons in I as (iv & q & -> & I1 & I). apply axis_cells_in in I1 as (j & J & ->).
  apply corners_in in C. inversion C as [|x y p' l X C']; subst. cbn [fst snd] in X.
  destruct i as [|i]; cbn [nth].
  - destruct X as [->| ->]; apply node_range; auto; lia.
  - apply IH with q; auto; [now apply corners_in|cbn in L; lia].
Qed.

Lemma node_first a b n : GridModel.node a b n 0 == a.
Proof. unfold GridModel.node. change (inject_Z 0) with 0. ring. Qed.
Lemma node_last a b n : (0 < n)%Z -> GridModel.node a b n (n - 1 + 1) == b.
Proof.
  intros N. pose proof (injZ_pos n N). replace (n - 1 + 1)%Z with n by lia. unfold GridModel.node. field. lra.
Qed.

Lemma coordinate_ends ll ur ns : proper ll ur ns -> forall i, (i < length ns)%nat ->
  (exists b p, In b (structured ll ur ns) /\ In p (corners b) /\ nth i p 0 == nth i ll 0) /\
  (exists b p, In b (structured ll ur ns) /\ In p (corners b) /\ nth i p 0 == nth i ur 0).
Proof.
  induction 1 as [|a b n ll ur ns AB N P IH]; intros i L; [cbn in L; lia|].
  assert (A : forall j, (0 <= j < n)%Z -> In (GridModel.node a b n j, GridModel.node a b n (j + 1)) (axis_cells a b n))
    by (intros; apply axis_cells_in; eauto).
  assert (K : forall iv q p x, In iv (axis_cells a b n) -> In q (structured ll ur ns) -> In p (corners q) ->
    x = fst iv \/ x = snd iv -> In (iv :: q) (structured (a :: ll) (b :: ur) (n :: ns)) /\ In (x :: p) (corners (iv :: q))).
  { intros iv q p x H1 H2 H3 H4. split; [apply structured_cons; eauto|]. apply corners_in. constructor; [exact H4|]. now apply corners_in. }
  destruct i as [|i].
  - destruct (structured ll ur ns) as [|q r] eqn:S; [exfalso; exact (structured_nonempty _ _ _ P S)|].
    destruct (corners q) as [|p t] eqn:C; [exfalso; exact (corners_nonempty q C)|].
    assert (Iq : In q (q :: r)) by now left. assert (Ip : In p (corners q)) by (rewrite C; now left).
    split.
    + destruct (K _ q p (GridModel.node a b n 0) (A 0%Z ltac:(lia)) Iq Ip (or_introl eq_refl)) as (K1 & K2).
      do 2 eexists. split; [exact K1|]. split; [exact K2|]. apply node_first.
    + destruct (K _ q p (GridModel.node a b n (n - 1 + 1)) (A (n - 1)%Z ltac:(lia)) Iq Ip (or_intror eq_refl)) as (K1 & K2).
      do 2 eexists. split; [exact K1|]. split; [exact K2|]. cbn [nth]. now apply node_last.
  - cbn in L. destruct (IH i) as ((q1 & p1 & S1 & C1 & E1) & (q2 & p2 & S2 & C2 & E2)); [lia|].
    split.
    + destruct (K _ q1 p1 _ (A 0%Z ltac:(lia)) S1 C1 (or_introl eq_refl)) as (K1 & K2).
      do 2 eexists. split; [exact K1|]. split; [exact K2|exact E1].
    + destruct (K _ q2 p2 _ (A 0%Z ltac:(lia)) S2 C2 (or_introl eq_refl)) as (K1 & K2).
      do 2 eexists. split; [exact K1|]. split; [exact K2|exact E2].
Qed.

Lemma coordinate_extent ll ur ns i : proper ll ur ns -> (i < length ns)%nat ->
  (exists v, extent Qmin (coordinates i (structured ll ur ns)) = Some v /\ v == nth i ll 0) /\
  (exists v, extent Qmax (coordinates i (structured ll ur ns)) = Some v /\ v == nth i ur 0).
Proof.
  intros P L. destruct (coordinate_ends ll ur ns P i L) as ((b1 & p1 & S1 & C1 & E1) & (b2 & p2 & S2 & C2 & E2)).
  split; [apply extent_min|apply extent_max].
  - intros y Y. apply coordinates_in in Y as (b & p & B & C & ->). now apply (coordinate_range ll ur ns P b p i).
  - exists (nth i p1 0). split; [apply coordinates_in; eauto|exact E1].
  - intros y Y. apply coordinates_in in Y as (b & p & B & C & ->). now apply (coordinate_range ll ur ns P b p i).
  - exists (nth i p2 0). split; [apply coordinates_in; eauto|exact E2].
Qed.

(** Finer in some direction. *)
Lemma cell_volume_finer ll ur ns : proper ll ur ns -> forall ms, length ms = length ns ->
  (forall m, In m ms -> 1 <= m)%Z ->
  let ks := map (fun p => (fst p * snd p)%Z) (combine ns ms) in
  proper ll ur ks /\
  cell_volume ll ur ks <= cell_volume ll ur ns /\
  (cell_volume ll ur ks < cell_volume ll ur ns <-> exists m, In m ms /\ (2 <= m)%Z).
Proof.
  induction 1 as [|a b n ll ur ns AB N P IH]; intros [|m ms] L M; try discriminate; cbv zeta.
  - split; [constructor|]. cbn. split; [lra|]. split; [lra|]. intros (m & [] & _).
  - injection L as L. destruct (IH ms L) as (Q & LE & LT); [intros; apply M; now right|].
    assert (M1 : (1 <= m)%Z) by (apply M; now left).
    cbn [combine map fst snd]. cbv zeta in Q, LE, LT. set (ks := map _ (combine ns ms)) in *.
    assert (NM : (0 < n * m)%Z) by nia.
    split; [constructor; auto|]. cbn [cell_volume].
    pose proof (width_pos a b n AB N) as W1. pose proof (width_pos a b (n * m) AB NM) as W2.
    pose proof (cell_volume_pos ll ur ns P) as V1. pose proof (cell_volume_pos ll ur ks Q) as V2.
    pose proof (injZ_pos n N) as PN. pose proof (injZ_pos m ltac:(lia)) as PM.
    assert (EW : (b - a) / inject_Z n == inject_Z m * ((b - a) / inject_Z (n * m))).
    { rewrite inject_Z_mult. field. lra. }
    assert (WL : (b - a) / inject_Z (n * m) <= (b - a) / inject_Z n).
    { rewrite EW. assert (1 <= inject_Z m) by (change 1 with (inject_Z 1); rewrite <- Zle_Qle; lia).
      rewrite <- (Qmult_1_l ((b - a) / inject_Z (n * m))) at 1. apply Qmult_le_compat_r; [assumption|lra]. }
    set (w := (b - a) / inject_Z n) in *. set (w' := (b - a) / inject_Z (n * m)) in *.
    set (v := cell_volume ll ur ns) in *. set (v' := cell_volume ll ur ks) in *.
    split; [nra|]. split.
    + intros H. destruct (Z.eq_dec m 1) as [->|NE]; [|exists m; split; [now left|lia]].
      change (inject_Z 1) with 1 in EW. destruct (proj1 LT) as (m' & I & H'); [nra|]. exists m'. split; [now right|exact H'].
    + intros (m' & [<-|I] & H).
      * assert (M2 : 2 <= inject_Z m) by (change 2 with (inject_Z 2); rewrite <- Zle_Qle; lia).
        assert (WW : 2 * w' <= inject_Z m * w') by (apply Qmult_le_compat_r; [exact M2|lra]).
        assert (WS : w' < w) by lra.
        apply Qle_lt_trans with (w' * v); [rewrite !(Qmult_comm w'); apply Qmult_le_compat_r; lra|].
        apply Qmult_lt_compat_r; assumption.
      * assert (v' < v) by (apply LT; eauto). nra.
Qed.

Lemma times_whole : forall l zs, Forall2 (fun q z => q == inject_Z z) l zs -> forall z0,
  times_truncated z0 l = (z0 * total zs)%Z.
Proof.
  unfold times_truncated. induction 1 as [|q z l zs E F IH]; intros z0; cbn [fold_left total fold_right]; [lia|].
  rewrite IH. fold (total zs).
  assert (X : inject_Z z0 * q == inject_Z (z0 * z)) by (rewrite E, inject_Z_mult; reflexivity).
  destruct (Qle_bool 0 (inject_Z z0 * q)); rewrite X, ?Qfloor_Z, ?Qceiling_Z; lia.
Qed.

Lemma total_mul : forall ns ms, length ms = length ns ->
  total (map (fun p => (fst p * snd p)%Z) (combine ns ms)) = (total ns * total ms)%Z.
Proof.
  unfold total. induction ns as [|n ns IH]; intros [|m ms] L; try discriminate; [reflexivity|].
  injection L as L. cbn [combine map fold_right fst snd]. rewrite (IH ms L). ring.
Qed.

Lemma positive_whole : forall l zs, Forall2 (fun q z => q == inject_Z z) l zs -> (forall z, In z zs -> 0 < z)%Z ->
  forallb (fun c => negb (Qle_bool c 0)) l = true.
Proof.
  induction 1 as [|q z l zs E F IH]; intros H; [reflexivity|]. cbn [forallb]. apply andb_true_iff. split.
  - apply negb_true_iff, not_true_iff_false. rewrite Qle_bool_iff, E.
    pose proof (injZ_pos z (H z (or_introl eq_refl))). lra.
  - apply IH. intros; apply H; now right.
Qed.

Lemma proper_positive ll ur ns : proper ll ur ns -> forall z, In z ns -> (0 < z)%Z.
Proof. induction 1; intros z I; [destruct I|]. destruct I as [<-|I]; auto. Qed.

Lemma agree_eq x y m : (exists v, x = Some v /\ v == m) -> (exists v, y = Some v /\ v == m) -> agree x y = true.
Proof. intros (v & -> & E) (w & -> & F). cbn. apply Qeq_bool_iff. lra. Qed.
Lemma greater_iff x y m k : (exists v, x = Some v /\ v == m) -> (exists v, y = Some v /\ v == k) ->
  (greater x y = true <-> k < m).
Proof.
  intros (v & -> & E) (w & -> & F). cbn. rewrite negb_true_iff, <- not_true_iff_false, Qle_bool_iff. split; lra.
Qed.

Lemma match_test_spec eps ll ur ns ms macro micro : 0 <= eps -> proper ll ur ns -> length ms = length ns ->
  (forall m, In m ms -> 1 <= m)%Z ->
  Forall2 (fun q z => q == inject_Z z) macro ns -> Forall2 (fun q z => q == inject_Z z) micro ms ->
  let ks := map (fun p => (fst p * snd p)%Z) (combine ns ms) in
  (match_test eps (length ns) macro micro (structured ll ur ns) (structured ll ur ks) = true <->
   exists m, In m ms /\ (2 <= m)%Z).
Proof.
  intros E P L M F1 F2 ks. destruct (cell_volume_finer ll ur ns P ms L M) as (Q & _ & LT).
  fold ks in Q, LT. assert (LK : length ks = length ns).
  { unfold ks. rewrite map_length, combine_length, L. apply Nat.min_id. }
  unfold match_test. rewrite (check_inside_always eps ll ur ns ks E P Q).
  rewrite (unique_corners (length ns) (structured ll ur ns)).
  2:{ intros b B. split; [exact (structured_solid _ _ _ P b B)|exact (structured_length _ _ _ P b B)]. }
  rewrite (unique_corners (length ns) (structured ll ur ks)).
  2:{ intros b B. split; [exact (structured_solid _ _ _ Q b B)|]. rewrite (structured_length _ _ _ Q b B). exact LK. }
  rewrite !andb_true_r. unfold check_dimensions.
  destruct (volume_extent ll ur ns P) as (V1 & V2). destruct (volume_extent ll ur ks Q) as (V3 & V4).
  rewrite (positive_whole macro ns F1 (proper_positive ll ur ns P)).
  rewrite (positive_whole micro ms F2) by (intros z Z; specialize (M z Z); lia).
  rewrite (structured_count ll ur ns P), (structured_count ll ur ks Q).
  rewrite !(times_whole macro ns F1), (times_whole micro ms F2). replace (total ks) with (total ns * total ms)%Z by (symmetry; exact (total_mul ns ms L)).
  rewrite !Z.mul_1_l, !Z.eqb_refl, !andb_true_r.
  rewrite (proj2 (forallb_forall _ (seq 0 (length ns)))).
  - cbn [andb]. rewrite andb_true_iff, (greater_iff _ _ _ _ V2 V4), (greater_iff _ _ _ _ V1 V4), <- LT. tauto.
  - intros i I. apply in_seq in I. destruct (coordinate_extent ll ur ns i P) as (A1 & A2); [lia|].
    destruct (coordinate_extent ll ur ks i Q) as (B1 & B2); [lia|].
    rewrite (agree_eq _ _ _ A1 B1), (agree_eq _ _ _ A2 B2). reflexivity.
Qed.

(** ** Grids made from a configuration. *)
Lemma fine_elements c ns ms comm g : whole c ns ms -> make_fine_grid c comm = Created g ->
  g_elements g = map (fun p => (fst p * snd p)%Z) (combine ns ms) /\ g_ll g = c_ll c /\ g_ur g = c_ur c.
Proof.
  intros (W1 & W2) H. unfold make_fine_grid in H.
  destruct (setup_elements c) as [e0|]; [|discriminate].
  destruct (setup_overlap c) as [o|]; [|discriminate].
  destruct (all_some _) as [e|] eqn:E; [|discriminate].
  unfold create_cube_grid in H. destruct (setup_fine_overlap c) as [|f1 f2]; [discriminate|].
  destruct (forallb _ _); [|discriminate]. injection H as <-. cbn [g_elements g_ll g_ur]. split; [|auto].
  revert e E ms W2. generalize (c_micro c) as ys.
  induction W1 as [|x z xs zs XZ W1 IH]; intros ys e E ms W2.
  - cbn in *. congruence.
  - destruct W2 as [|y w ys ws YW W2]; [cbn in *; congruence|].
    cbn [combine map fst snd] in E |- *. cbn [all_some] in E. destruct (to_unsigned (x * y)) as [k|] eqn:U; [|discriminate].
    destruct (all_some _) as [r|] eqn:R in E; [|discriminate]. injection E as <-. f_equal; [|eapply IH; eauto].
    assert (Q : x * y == inject_Z (z * w)) by (rewrite inject_Z_mult, XZ, YW; reflexivity).
    rewrite (to_unsigned_comp _ _ Q) in U. unfold to_unsigned in U. rewrite Qfloor_Z, Qceiling_Z in U.
    destruct (Qle_bool 0 (inject_Z (z * w))); destruct ((0 <=? z * w) && (z * w <? two32))%Z; congruence.
Qed.

Lemma coarse_elements c ns ms comm nproc stored layers g :
  whole c ns ms -> make_coarse_grid c comm nproc stored layers = Created g ->
  g_elements g = ns /\ g_ll g = c_ll c /\ g_ur g = c_ur c.
Proof.
  intros (W1 & W2) H. unfold make_coarse_grid in H.
  destruct (setup_elements c) as [e|] eqn:E; [|discriminate].
  destruct (setup_overlap c) as [o|]; [|discriminate].
  destruct (create_cube_grid (c_ll c) (c_ur c) e o comm) as [g0| | |] eqn:G; try discriminate.
  destruct (_ && _)%bool; [discriminate|]. injection H as ->.
  unfold create_cube_grid in G. destruct o as [|o r]; [discriminate|].
  destruct (forallb _ _); [|discriminate]. injection G as <-. cbn [g_elements g_ll g_ur]. split; [|auto].
  unfold setup_elements in E. revert e E. clear W2.
  induction W1 as [|x z xs zs XZ W1 IH]; intros e E; cbn [map all_some] in E; [congruence|].
  destruct (to_unsigned x) as [k|] eqn:U; [|discriminate].
  destruct (all_some (map to_unsigned xs)) as [l|]; [|discriminate]. injection E as <-.
  rewrite (IH l eq_refl). f_equal. rewrite (to_unsigned_comp _ _ XZ) in U.
  unfold to_unsigned in U. rewrite Qfloor_Z, Qceiling_Z in U.
  destruct (Qle_bool 0 (inject_Z z)); destruct ((0 <=? z) && (z <? two32))%Z; congruence.
Qed.

Lemma multiples_refine ll ur ns : proper ll ur ns -> forall ms, length ms = length ns ->
  (forall m, In m ms -> 1 <= m)%Z -> refines ll ur ns (map (fun p => (fst p * snd p)%Z) (combine ns ms)).
Proof.
  induction 1 as [|a b n ll ur ns AB N P IH]; intros [|m ms] L M; try discriminate; [constructor|].
  injection L as L. cbn [combine map fst snd]. constructor.
  - assert (1 <= m)%Z by (apply M; now left). apply nested_iff; auto; [nia|]. exists m. ring.
  - apply IH; auto. intros; apply M; now right.
Qed.

Lemma build_length : forall es l g, build es l = Done g -> length g = (length es + length l)%nat.
Proof.
  induction es as [|e es IH]; intros l g H; cbn [build] in H; [injection H as <-; reflexivity|].
  destruct (e_interior e); [|discriminate]. destruct (assoc (e_index e) l); [discriminate|].
  rewrite (IH _ _ H). cbn [length]. lia.
Qed.

(** ** The dimensions of any two sets of cells. *)
Lemma extent_least l v : extent Qmin l = Some v -> (forall y, In y l -> v <= y) /\ exists y, In y l /\ y == v.
Proof.
  destruct l as [|x l]; [discriminate|]. cbn [extent]. intros H. injection H as <-.
  destruct (fold_min l x) as (H1 & H2 & H3). cbv zeta in *. split.
  - intros y [<-|I]; auto.
  - destruct H3 as [H3|(z & Z & H3)]; [exists x|exists z]; (split; [now left + now right|lra]).
Qed.
Lemma extent_greatest l v : extent Qmax l = Some v -> (forall y, In y l -> y <= v) /\ exists y, In y l /\ y == v.
Proof.
  destruct l as [|x l]; [discriminate|]. cbn [extent]. intros H. injection H as <-.
  destruct (fold_max l x) as (H1 & H2 & H3). cbv zeta in *. split.
  - intros y [<-|I]; auto.
  - destruct H3 as [H3|(z & Z & H3)]; [exists x|exists z]; (split; [now left + now right|lra]).
Qed.

Lemma agree_iff pick (P : Q -> list Q -> Prop) l k :
  (forall l v, extent pick l = Some v -> P v l) ->
  (forall l m, P m l -> exists v, extent pick l = Some v /\ v == m) ->
  (forall l m m', m == m' -> P m l -> P m' l) ->
  (agree (extent pick l) (extent pick k) = true <-> exists m, P m l /\ P m k).
Proof.
  intros A B C. split.
  - destruct (extent pick l) as [v|] eqn:E; destruct (extent pick k) as [w|] eqn:F; cbn; try discriminate.
    intros H. apply Qeq_bool_iff in H. exists v. split; [now apply A|]. apply (C _ w); [lra|now apply A].
  - intros (m & H1 & H2). apply (agree_eq _ _ m); auto.
Qed.

Definition least (m : Q) (l : list Q) : Prop := (forall y, In y l -> m <= y) /\ exists y, In y l /\ y == m.
Definition greatest (m : Q) (l : list Q) : Prop := (forall y, In y l -> y <= m) /\ exists y, In y l /\ y == m.

Lemma agree_least l k : agree (extent Qmin l) (extent Qmin k) = true <-> exists m, least m l /\ least m k.
Proof.
  apply agree_iff; unfold least.
  - apply extent_least.
  - intros j m (A & B). now apply extent_min.
  - intros j m m' E (A & y & Y & F). split; [intros z Z; specialize (A z Z); lra|]. exists y. split; [exact Y|lra].
Qed.
Lemma agree_greatest l k : agree (extent Qmax l) (extent Qmax k) = true <-> exists m, greatest m l /\ greatest m k.
Proof.
  apply agree_iff; unfold greatest.
  - apply extent_greatest.
  - intros j m (A & B). now apply extent_max.
  - intros j m m' E (A & y & Y & F). split; [intros z Z; specialize (A z Z); lra|]. exists y. split; [exact Y|lra].
Qed.

Lemma reaches_iff i lo hi view :
  reaches i lo hi view <-> least lo (coordinates i view) /\ greatest hi (coordinates i view).
Proof.
  unfold reaches, least, greatest. split.
  - intros (A & (b1 & p1 & B1 & C1 & E1) & (b2 & p2 & B2 & C2 & E2)). repeat split.
    + intros y Y. apply coordinates_in in Y as (b & p & B & C & ->). now apply (A b p).
    + exists (nth i p1 0). split; [apply coordinates_in; eauto|exact E1].
    + intros y Y. apply coordinates_in in Y as (b & p & B & C & ->). now apply (A b p).
    + exists (nth i p2 0). split; [apply coordinates_in; eauto|exact E2].
  - intros ((A1 & y1 & Y1 & E1) & (A2 & y2 & Y2 & E2)). repeat split.
    + apply A1, coordinates_in. eauto.
    + apply A2, coordinates_in. eauto.
    + apply coordinates_in in Y1 as (b & p & B & C & ->). eauto.
    + apply coordinates_in in Y2 as (b & p & B & C & ->). eauto.
Qed.

Lemma greater_volumes pick coarse fine :
  greater (extent pick (map volume coarse)) (extent Qmax (map volume fine)) = true ->
  coarse <> [] /\ fine <> [].
Proof.
  destruct coarse; [discriminate|]. destruct fine; [|intros _; split; discriminate].
  cbn. discriminate.
Qed.

Lemma all_greater coarse fine :
  greater (extent Qmin (map volume coarse)) (extent Qmax (map volume fine)) = true <->
  coarse <> [] /\ fine <> [] /\ forall b c, In b fine -> In c coarse -> volume b < volume c.
Proof.
  split.
  - intros H. destruct (greater_volumes Qmin coarse fine H) as (NC & NF). split; [exact NC|]. split; [exact NF|].
    destruct (extent Qmin (map volume coarse)) as [v|] eqn:E; [|discriminate].
    destruct (extent Qmax (map volume fine)) as [w|] eqn:F; [|discriminate].
    cbn in H. rewrite negb_true_iff, <- not_true_iff_false, Qle_bool_iff in H.
    apply extent_least in E as (E & _). apply extent_greatest in F as (F & _).
    intros b c B C. specialize (E (volume c) (in_map volume _ _ C)). specialize (F (volume b) (in_map volume _ _ B)). lra.
  - intros (NC & NF & H). destruct coarse as [|c0 coarse]; [easy|]. destruct fine as [|b0 fine]; [easy|].
    destruct (extent Qmin (map volume (c0 :: coarse))) as [v|] eqn:E; [|discriminate].
    destruct (extent Qmax (map volume (b0 :: fine))) as [w|] eqn:F; [|discriminate].
    apply extent_least in E as (_ & x & X & E). apply extent_greatest in F as (_ & y & Y & F).
    apply in_map_iff in X as (c & <- & C). apply in_map_iff in Y as (b & <- & B). specialize (H b c B C).
    cbn. rewrite negb_true_iff, <- not_true_iff_false, Qle_bool_iff. lra.
Qed.

Lemma min_greater_max coarse fine :
  greater (extent Qmin (map volume coarse)) (extent Qmax (map volume fine)) = true ->
  greater (extent Qmax (map volume coarse)) (extent Qmax (map volume fine)) = true.
Proof.
  destruct (extent Qmin (map volume coarse)) as [v|] eqn:E; [|discriminate].
  destruct (extent Qmax (map volume coarse)) as [u|] eqn:G; [|destruct coarse; discriminate].
  destruct (extent Qmax (map volume fine)) as [w|] eqn:F; [|discriminate].
  apply extent_least in E as (_ & x & X & E). apply extent_greatest in G as (G & _). specialize (G x X).
  cbn. rewrite !negb_true_iff, <- !not_true_iff_false, !Qle_bool_iff. lra.
Qed.

Lemma dimension_check ns ms macro micro d coarse fine :
  Forall2 (fun q z => q == inject_Z z) macro ns -> Forall2 (fun q z => q == inject_Z z) micro ms ->
  (forall n, In n ns -> 1 <= n)%Z -> (forall m, In m ms -> 1 <= m)%Z ->
  (check_dimensions d macro micro coarse fine = true <->
   coarse <> [] /\ fine <> [] /\
   (forall i, (i < d)%nat -> exists lo hi, reaches i lo hi coarse /\ reaches i lo hi fine) /\
   (forall b c, In b fine -> In c coarse -> volume b < volume c) /\
   Z.of_nat (length coarse) = total ns /\ Z.of_nat (length fine) = (total ns * total ms)%Z).
Proof.
  intros W1 W2 N M. unfold check_dimensions.
  rewrite (positive_whole macro ns W1) by (intros z Z; specialize (N z Z); lia).
  rewrite (positive_whole micro ms W2) by (intros z Z; specialize (M z Z); lia).
  rewrite !(times_whole macro ns W1), (times_whole micro ms W2), !Z.mul_1_l.
  rewrite !andb_true_r, !andb_true_iff, !Z.eqb_eq, all_greater, forallb_forall.
  assert (L : (forall i, In i (seq 0 d) ->
      (agree (extent Qmin (coordinates i coarse)) (extent Qmin (coordinates i fine)) &&
       agree (extent Qmax (coordinates i coarse)) (extent Qmax (coordinates i fine)))%bool = true) <->
    (forall i, (i < d)%nat -> exists lo hi, reaches i lo hi coarse /\ reaches i lo hi fine)).
  { split.
    - intros H i I. assert (J : In i (seq 0 d)) by (apply in_seq; lia). specialize (H i J).
      apply andb_true_iff in H as (H1 & H2). apply agree_least in H1 as (lo & A1 & A2).
      apply agree_greatest in H2 as (hi & B1 & B2). exists lo, hi. rewrite !reaches_iff. auto.
    - intros H i I. apply in_seq in I. destruct (H i) as (lo & hi & A & B); [lia|].
      rewrite reaches_iff in A. rewrite reaches_iff in B. apply andb_true_iff. split.
      + apply agree_least. exists lo. tauto.
      + apply agree_greatest. exists hi. tauto. }
  rewrite L. split; [tauto|]. intros (A & B & C & D & E & F).
  repeat split; auto. apply min_greater_max, all_greater. auto.
Qed.
