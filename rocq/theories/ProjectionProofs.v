(** Proofs for C29-C31. *)
From Coq Require Import List Arith ZArith QArith Lia Lqa Bool Permutation.
From Verif Require Import Util ProjectionModel ProjectionSpec.
Import ListNotations.

Lemma project_app : forall acc a b v,
  project_element acc v (a ++ b) =
  match project_element acc v a with None => None | Some v' => project_element acc v' b end.
Proof.
  induction a as [|[i [x|]] a IH]; simpl; intros; auto.
Qed.

Lemma walk_concat : forall acc es v, walk acc v es = project_element acc v (concat es).
Proof.
  induction es as [|e es IH]; simpl; intros v; auto.
  rewrite project_app. destruct (project_element acc v e); auto.
Qed.

(** Value of entry [i] after the writes. *)
Fixpoint final (acc : bool) (x : Q) (i : nat) (w : element) : Q :=
  match w with
  | [] => x
  | (j, o) :: r =>
    final acc (if Nat.eqb i j
               then match o with Some y => if acc then x + y else y | None => x end
               else x)%Q i r
  end.

Lemma write_length : forall acc v i x, length (write acc v i x) = length v.
Proof. intros. unfold write. apply upd_length. Qed.

Lemma writes_spec : forall acc w v,
  (forall i o, In (i, o) w -> o <> None) ->
  exists v', project_element acc v w = Some v' /\ length v' = length v /\
    forall i, (i < length v)%nat -> nth i v' 0 = final acc (nth i v 0) i w.
Proof.
  induction w as [|[j o] w IH]; simpl; intros v H; [eauto|].
  destruct o as [x|]; [|exfalso; eapply H; eauto].
  destruct (IH (write acc v j x)) as (v' & A & B & C).
  { intros i o Hin. apply (H i o). auto. }
  exists v'. split; auto. rewrite write_length in B. split; auto.
  intros i L. rewrite C by (rewrite write_length; auto). f_equal.
  unfold write. destruct (Nat.eqb_spec i j) as [->|NE].
  - rewrite nth_upd_eq by auto. destruct acc; auto.
  - rewrite nth_upd_neq; auto.
Qed.

Lemma writes_fail : forall acc w v i, In (i, None) w -> project_element acc v w = None.
Proof.
  induction w as [|[j o] w IH]; simpl; intros v i H; [tauto|].
  destruct o as [x|]; auto. destruct H as [E|H]; [discriminate|]. eauto.
Qed.

Lemma final_set : forall u w i x,
  (forall j o, In (j, o) w -> exists y, o = Some y /\ y == u j) ->
  (In i (map fst w) -> final false x i w == u i) /\
  (~ In i (map fst w) -> final false x i w = x).
Proof.
  induction w as [|[j o] w IH]; simpl; intros i x H; [tauto|].
  assert (H' : forall j o, In (j, o) w -> exists y, o = Some y /\ y == u j) by (intros; apply H; auto).
  destruct (H j o) as (y & -> & Y); auto.
  destruct (Nat.eqb_spec i j) as [->|NE].
  - split; [|tauto]. intros _. destruct (in_dec Nat.eq_dec j (map fst w)) as [I|I].
    + apply IH; auto.
    + rewrite (proj2 (IH j y H')); auto.
  - split.
    + intros [E|I]; [congruence|]. apply IH; auto.
    + intros N. apply IH; auto.
Qed.

Lemma final_add : forall u w i x,
  (forall j o, In (j, o) w -> exists y, o = Some y /\ y == u j) ->
  final true x i w == x + inject_Z (Z.of_nat (count_occ Nat.eq_dec (map fst w) i)) * u i.
Proof.
  induction w as [|[j o] w IH]; intros i x H.
  - cbn. ring.
  - assert (H' : forall j o, In (j, o) w -> exists y, o = Some y /\ y == u j)
      by (intros; apply H; now right).
    destruct (H j o) as (y & -> & Y); [now left|].
    cbn [final map fst count_occ]. rewrite IH by auto.
    destruct (Nat.eqb_spec i j) as [->|NE].
    + destruct (Nat.eq_dec j j); [|congruence]. rewrite Nat2Z.inj_succ. unfold Z.succ.
      rewrite inject_Z_plus, Y. change (inject_Z 1) with 1. ring.
    + destruct (Nat.eq_dec j i); [congruence|]. reflexivity.
Qed.

(** counting *)
Lemma count_app : forall a b m,
  count_nodes m (a ++ b) = match count_nodes m a with None => None | Some m' => count_nodes m' b end.
Proof.
  induction a as [|i a IH]; simpl; intros b m; auto. destruct (Nat.ltb i (length m)); auto.
Qed.

Lemma identify_concat : forall leaf m, identify_shared m leaf = count_nodes m (concat leaf).
Proof.
  induction leaf as [|e l IH]; simpl; intros m; auto.
  rewrite count_app. destruct (count_nodes m e); auto.
Qed.

Lemma count_nodes_spec : forall nodes m,
  (forall i, In i nodes -> (i < length m)%nat) ->
  exists m', count_nodes m nodes = Some m' /\ length m' = length m /\
    forall i, (i < length m)%nat ->
      nth i m' 0%nat = (nth i m 0 + count_occ Nat.eq_dec nodes i)%nat.
Proof.
  induction nodes as [|j nodes IH]; intros m H.
  - exists m. repeat split; auto.
  - cbn [count_nodes]. destruct (Nat.ltb_spec j (length m)) as [L|L].
    2:{ specialize (H j (or_introl eq_refl)). lia. }
    destruct (IH (upd m j (S (nth j m 0%nat)))) as (m' & A & B & C).
    { intros i I. rewrite upd_length. apply H. now right. }
    rewrite upd_length in B, C. exists m'. repeat split; auto.
    intros i Li. rewrite C by auto. cbn [count_occ].
    destruct (Nat.eq_dec j i) as [->|NE].
    + rewrite nth_upd_eq by auto. lia.
    + rewrite nth_upd_neq; auto.
Qed.

Lemma count_nodes_fail : forall nodes m i,
  In i nodes -> (length m <= i)%nat -> count_nodes m nodes = None.
Proof.
  induction nodes as [|j nodes IH]; intros m i I L; [destruct I|].
  cbn [count_nodes]. destruct (Nat.ltb_spec j (length m)) as [Lj|Lj]; auto.
  destruct I as [->|I]; [lia|]. eapply IH; eauto. rewrite upd_length. auto.
Qed.

Lemma identify_spec : forall nnodes leaf,
  (forall e i, In e leaf -> In i e -> (i < nnodes)%nat) ->
  exists m, identify_shared (repeat 0%nat nnodes) leaf = Some m /\ length m = nnodes /\
    forall i, (i < nnodes)%nat -> nth i m 0%nat = incidences leaf i.
Proof.
  intros nnodes leaf H. rewrite identify_concat.
  destruct (count_nodes_spec (concat leaf) (repeat 0%nat nnodes)) as (m & A & B & C).
  - intros i I. apply in_concat in I. destruct I as (e & E & I). rewrite repeat_length. eauto.
  - rewrite repeat_length in B, C. exists m. repeat split; auto.
    intros i L. rewrite C by auto. rewrite nth_repeat. reflexivity.
Qed.

Lemma incidences_pos : forall leaf i,
  (0 < incidences leaf i)%nat <-> exists e, In e leaf /\ In i e.
Proof.
  intros leaf i. unfold incidences.
  pose proof (count_occ_In Nat.eq_dec (concat leaf) i) as H. rewrite in_concat in H.
  unfold gt in H. rewrite <- H. firstorder.
Qed.

(** division *)
Lemma divide_spec : forall v m,
  (length v <= length m)%nat -> (forall i, (i < length v)%nat -> (0 < nth i m 0)%nat) ->
  exists v', divide v m = Some v' /\ length v' = length v /\
    forall i, (i < length v)%nat -> nth i v' 0 = (nth i v 0 / inject_Z (Z.of_nat (nth i m 0%nat)))%Q.
Proof.
  induction v as [|x v IH]; intros m L P; cbn [divide].
  - exists []. repeat split; auto. simpl. lia.
  - destruct m as [|k m]; simpl in L; [lia|].
    pose proof (P 0%nat) as P0. simpl in P0. specialize (P0 ltac:(lia)).
    destruct (Nat.ltb_spec 0 k); [|lia].
    destruct (IH m) as (v' & A & B & C); [lia|intros i Li; apply (P (S i)); simpl; lia|].
    rewrite A. eexists. split; [reflexivity|]. simpl. split; [lia|].
    intros [|i] Li; simpl; auto. apply C. lia.
Qed.

Lemma divide_fail : forall v m i,
  (i < length v)%nat -> (length m <= i \/ nth i m 0 = 0)%nat -> divide v m = None.
Proof.
  induction v as [|x v IH]; intros m i L F; [simpl in L; lia|].
  cbn [divide]. destruct m as [|k m]; auto.
  destruct (Nat.ltb_spec 0 k); auto.
  destruct i as [|i]; [simpl in F; lia|].
  rewrite (IH m i); auto; simpl in *; lia.
Qed.

Lemma nth_map_len : forall (f : Q -> Q) v i, (i < length v)%nat -> nth i (map f v) 0 = f (nth i v 0).
Proof.
  induction v as [|x v IH]; simpl; intros i L; [lia|]. destruct i; auto. apply IH. lia.
Qed.

Lemma preprocess_zero : forall v i, nth i (preprocess v) 0 == 0.
Proof.
  intros v i. unfold preprocess. destruct (le_lt_dec (length v) i).
  - rewrite nth_overflow by (rewrite map_length; auto). reflexivity.
  - rewrite nth_map_len by auto. ring.
Qed.

Lemma single_concat : forall u es, single_valued u es ->
  forall j o, In (j, o) (concat es) -> exists y, o = Some y /\ y == u j.
Proof. intros u es H j o I. apply in_concat in I. destruct I as (e & E & I). eauto. Qed.

Lemma final_pos : forall acc x x' i w, x == x' -> final acc x i w == final acc x' i w.
Proof.
  intros acc x x' i w. revert x x'. induction w as [|[j o] w IH]; simpl; intros x x' E; auto.
  apply IH. destruct (Nat.eqb i j); auto. destruct o; auto. destruct acc; [|reflexivity].
  rewrite E. reflexivity.
Qed.

(** General form: value of every node after projection. *)
Lemma project_spec : forall acc u nnodes leaf es v,
  mesh_ok nnodes leaf -> single_valued u es -> length v = nnodes ->
  exists v', project acc nnodes leaf es v = Projected v' /\ length v' = nnodes /\
    forall i, (i < nnodes)%nat ->
      nth i v' 0 == final acc 0 i (concat es) / inject_Z (Z.of_nat (incidences leaf i)).
Proof.
  intros acc u nnodes leaf es v (M1 & M2) S L. unfold project. rewrite walk_concat.
  destruct (writes_spec acc (concat es) (preprocess v)) as (w & A & B & C).
  { intros i o I. destruct (single_concat u es S i o I) as (y & -> & _). discriminate. }
  assert (LP : length (preprocess v) = nnodes) by (unfold preprocess; rewrite map_length; auto).
  rewrite LP in *. rewrite A. unfold postprocess.
  destruct (identify_spec nnodes leaf M1) as (m & D & E & F). rewrite D.
  destruct (divide_spec w m) as (v' & G & H & I).
  - lia.
  - intros i Li. rewrite F by lia. apply incidences_pos. apply M2. lia.
  - rewrite G. exists v'. repeat split; auto; [lia|].
    intros i Li. rewrite I by lia. rewrite F, C by auto.
    rewrite (final_pos acc _ 0 i (concat es) (preprocess_zero v i)). reflexivity.
Qed.

Lemma project_set : forall u nnodes leaf es v,
  mesh_ok nnodes leaf -> single_valued u es -> length v = nnodes ->
  exists v', project false nnodes leaf es v = Projected v' /\ length v' = nnodes /\
    forall i, (i < nnodes)%nat ->
      (In i (nodes_of es) -> nth i v' 0 * inject_Z (Z.of_nat (incidences leaf i)) == u i) /\
      (~ In i (nodes_of es) -> nth i v' 0 == 0).
Proof.
  intros u nnodes leaf es v M S L.
  destruct (project_spec false u nnodes leaf es v M S L) as (v' & A & B & C).
  exists v'. repeat split; auto; intros Hn; rewrite C by auto;
    destruct (final_set u (concat es) i 0 (single_concat u es S)) as (F1 & F2).
  - unfold nodes_of in Hn. rewrite F1 by auto. field.
    assert (P : (0 < incidences leaf i)%nat) by (apply incidences_pos; apply M; auto).
    change 0 with (inject_Z 0). rewrite inject_Z_injective. lia.
  - unfold nodes_of in Hn. rewrite F2 by auto. unfold Qdiv. ring.
Qed.

Lemma project_add : forall u nnodes leaf es v,
  mesh_ok nnodes leaf -> single_valued u es -> length v = nnodes ->
  exists v', project true nnodes leaf es v = Projected v' /\ length v' = nnodes /\
    forall i, (i < nnodes)%nat ->
      nth i v' 0 * inject_Z (Z.of_nat (incidences leaf i)) ==
      inject_Z (Z.of_nat (count_occ Nat.eq_dec (nodes_of es) i)) * u i.
Proof.
  intros u nnodes leaf es v M S L.
  destruct (project_spec true u nnodes leaf es v M S L) as (v' & A & B & C).
  exists v'. repeat split; auto. intros i Hi. rewrite C by auto.
  rewrite (final_add u) by (apply single_concat; auto). unfold nodes_of. field.
  assert (P : (0 < incidences leaf i)%nat) by (apply incidences_pos; apply M; auto).
  change 0 with (inject_Z 0). rewrite inject_Z_injective. lia.
Qed.

(** Order of single writes (threads interleave point by point). *)
Lemma writes_order : forall u w w' v,
  Permutation w w' ->
  (forall j o, In (j, o) w -> exists y, o = Some y /\ y == u j) ->
  exists r r', project_element false v w = Some r /\ project_element false v w' = Some r' /\ veq r r'.
Proof.
  intros u w w' v P S.
  assert (S' : forall j o, In (j, o) w' -> exists y, o = Some y /\ y == u j).
  { intros j o I. apply S. eapply Permutation_in; [apply Permutation_sym; eauto|auto]. }
  destruct (writes_spec false w v) as (r & A & B & C).
  { intros i o I. destruct (S i o I) as (y & -> & _). discriminate. }
  destruct (writes_spec false w' v) as (r' & A' & B' & C').
  { intros i o I. destruct (S' i o I) as (y & -> & _). discriminate. }
  exists r, r'. repeat split; auto.
  assert (K : forall i, (i < length v)%nat -> nth i r 0 == nth i r' 0).
  { intros i Li. rewrite C, C' by auto.
    destruct (final_set u w i (nth i v 0) S) as (F1 & F2).
    destruct (final_set u w' i (nth i v 0) S') as (F1' & F2').
    assert (PM : Permutation (map fst w) (map fst w')) by (apply Permutation_map; auto).
    destruct (in_dec Nat.eq_dec i (map fst w)) as [I|I].
    - rewrite F1, F1' by (auto; eapply Permutation_in; eauto). reflexivity.
    - rewrite F2, F2'; auto; [reflexivity|].
      intros I'. apply I. eapply Permutation_in; [apply Permutation_sym; eauto|auto]. }
  clear -B B' K. unfold veq. rewrite <- B in K. rewrite <- B in B'. clear B. revert r' B' K.
  induction r as [|x r IH]; intros [|y r'] L K; simpl in L; try discriminate; constructor.
  - apply (K 0%nat). simpl. lia.
  - apply IH; [lia|]. intros i Li. apply (K (S i)). simpl. lia.
Qed.

Lemma veq_divide : forall v w m, veq v w ->
  (divide v m = None /\ divide w m = None) \/
  exists v' w', divide v m = Some v' /\ divide w m = Some w' /\ veq v' w'.
Proof.
  intros v w m H. revert m. induction H as [|x y v w E H IH]; intros m; cbn [divide].
  - right. exists [], []. repeat split; auto. constructor.
  - destruct m as [|k m]; auto. destruct (Nat.ltb 0 k); auto.
    destruct (IH m) as [(-> & ->)|(v' & w' & -> & -> & V)]; auto.
    right. do 2 eexists. repeat split; try reflexivity. constructor; auto. now rewrite E.
Qed.

Lemma project_order : forall u nnodes leaf es es' v,
  Permutation (concat es) (concat es') -> single_valued u es ->
  (project false nnodes leaf es v = AssertionFails /\ project false nnodes leaf es' v = AssertionFails) \/
  exists r r', project false nnodes leaf es v = Projected r /\
    project false nnodes leaf es' v = Projected r' /\ veq r r'.
Proof.
  intros u nnodes leaf es es' v P S. unfold project. rewrite !walk_concat.
  destruct (writes_order u _ _ (preprocess v) P (single_concat u es S)) as (r & r' & A & B & C).
  rewrite A, B. unfold postprocess.
  destruct (identify_shared (repeat 0%nat nnodes) leaf) as [m|]; auto.
  destruct (veq_divide r r' m C) as [(-> & ->)|(a & b & -> & -> & V)]; auto.
  right. eauto.
Qed.

(** Assertions of postprocess. *)
Lemma postprocess_assert : forall nnodes leaf v,
  length v = nnodes ->
  (postprocess nnodes leaf v = AssertionFails <->
   (exists e i, In e leaf /\ In i e /\ (nnodes <= i)%nat) \/
   (exists i, (i < nnodes)%nat /\ incidences leaf i = 0%nat)).
Proof.
  intros nnodes leaf v L. unfold postprocess. split.
  - intros H.
    destruct (existsb (fun e => existsb (fun i => Nat.leb nnodes i) e) leaf) eqn:B.
    + left. apply existsb_exists in B. destruct B as (e & E & B).
      apply existsb_exists in B. destruct B as (i & I & B). apply Nat.leb_le in B. eauto.
    + right. assert (M : forall e i, In e leaf -> In i e -> (i < nnodes)%nat).
      { intros e i E I. destruct (le_lt_dec nnodes i) as [C|]; auto. exfalso.
        assert (existsb (fun e => existsb (fun i => Nat.leb nnodes i) e) leaf = true); [|congruence].
        apply existsb_exists. exists e. split; auto. apply existsb_exists. exists i. split; auto.
        now apply Nat.leb_le. }
      destruct (identify_spec nnodes leaf M) as (m & A & LM & C). rewrite A in H.
      destruct (existsb (fun i => Nat.eqb (nth i m 0%nat) 0) (seq 0 nnodes)) eqn:Z.
      * apply existsb_exists in Z. destruct Z as (i & I & Z). apply in_seq in I.
        apply Nat.eqb_eq in Z. exists i. rewrite <- C by lia. split; [lia|auto].
      * exfalso. destruct (divide_spec v m) as (v' & D & _).
        -- lia.
        -- intros i Li. destruct (nth i m 0%nat) eqn:N; [|lia]. exfalso.
           assert (existsb (fun i => Nat.eqb (nth i m 0%nat) 0) (seq 0 nnodes) = true); [|congruence].
           apply existsb_exists. exists i. split; [apply in_seq; lia|]. now rewrite N.
        -- rewrite D in H. discriminate.
  - intros [(e & i & E & I & C)|(i & Li & Z)].
    + rewrite identify_concat, (count_nodes_fail _ _ i); auto.
      * apply in_concat. eauto.
      * rewrite repeat_length. auto.
    + destruct (identify_shared (repeat 0%nat nnodes) leaf) as [m|] eqn:A; auto.
      assert (M : forall e i, In e leaf -> In i e -> (i < nnodes)%nat).
      { intros e j E I. destruct (le_lt_dec nnodes j) as [C|]; auto. exfalso.
        rewrite identify_concat, (count_nodes_fail _ _ j) in A; try discriminate.
        - apply in_concat. eauto.
        - rewrite repeat_length. auto. }
      destruct (identify_spec nnodes leaf M) as (m' & A' & LM & C). rewrite A in A'.
      injection A' as <-. rewrite (divide_fail v m i); auto; [lia|].
      right. rewrite C; auto.
Qed.
