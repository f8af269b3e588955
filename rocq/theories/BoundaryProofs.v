From Coq Require Import List Arith Bool Lia.
From Verif Require Import Util SpeModel BoundaryModel BoundarySpec.
Import ListNotations.

Lemma face_eqb_spec : forall f g, face_eqb f g = true <-> f = g.
Proof.
  intros [a u] [b v]. unfold face_eqb. cbn [f_axis f_up]. rewrite andb_true_iff, Nat.eqb_eq, Bool.eqb_true_iff.
  split; [intros (-> & ->); reflexivity|intros E; inversion E; auto].
Qed.

Lemma mem_face : forall f l, existsb (face_eqb f) l = true <-> In f l.
Proof.
  intros f l. rewrite existsb_exists. split.
  - intros (x & I & E). apply face_eqb_spec in E. now subst.
  - intros I. exists f. split; auto. now apply face_eqb_spec.
Qed.

Lemma kind_default_dirichlet : forall l f,
  normal_based {| st_default := Dirichlet; st_dirichlet := []; st_neumann := l |} f = Neumann <-> In f l.
Proof.
  intros l f. unfold normal_based. cbn [st_default st_neumann]. rewrite <- mem_face.
  destruct (existsb _ _); split; congruence.
Qed.
Lemma kind_default_neumann : forall l f,
  normal_based {| st_default := Neumann; st_dirichlet := l; st_neumann := [] |} f = Dirichlet <-> In f l.
Proof.
  intros l f. unfold normal_based. cbn [st_default st_dirichlet]. rewrite <- mem_face.
  destruct (existsb _ _); split; congruence.
Qed.

Definition none : config := {| cf_boundary := None |}.

Lemma info_defined : forall p dim global own,
  boundary_info p dim global own = None <->
  cf_boundary global = None /\ dim = 1 /\ (p = PRandom \/ p = PSpe10 \/ p = PTarbert).
Proof.
  intros p dim [[s|]] own; unfold boundary_info, boundary_settings; cbn [cf_boundary].
  - destruct p; split; try discriminate; intros (E & _); discriminate.
  - destruct p; cbn [default_settings]; destruct (Nat.eqb_spec dim 1); split;
      try discriminate; auto 6; intros (_ & D & [E|[E|E]]); congruence || discriminate.
Qed.

Lemma sub_defined : forall p dim global own,
  sub_boundary_info p dim global own = None <-> boundary_info p dim global own = None.
Proof.
  intros p dim global own. unfold sub_boundary_info, boundary_info.
  destruct p; try tauto; destruct (boundary_settings _ _ _ _); split; congruence.
Qed.

Lemma info_own : forall p dim global own own',
  boundary_info p dim global own = boundary_info p dim global own' /\
  sub_boundary_info p dim global own = sub_boundary_info p dim global own'.
Proof. intros; split; reflexivity. Qed.

Lemma kind_synthetic : forall dim own k f, 1 <= dim <= 3 -> is_side dim f ->
  boundary_info PSynthetic dim none own = Some k ->
  (k f = Neumann <-> f_axis f = 2).
Proof.
  intros dim own k [a u] D S E. unfold is_side in S. cbn [f_axis] in *.
  unfold boundary_info, boundary_settings, none, default_settings in E. cbn [cf_boundary] in E.
  injection E as <-. rewrite kind_default_dirichlet.
  destruct (Nat.eqb_spec dim 3); cbn [In].
  - unfold fc. split.
    + intros [E|[E|[]]]; inversion E; auto.
    + intros ->. destruct u; auto.
  - split; [tauto|lia].
Qed.

Lemma kind_random : forall dim own k f, 1 <= dim <= 3 -> is_side dim f ->
  boundary_info PRandom dim none own = Some k ->
  (k f = Neumann <-> f_axis f <> 0).
Proof.
  intros dim own k [a u] D S E. unfold is_side in S. cbn [f_axis] in *.
  unfold boundary_info, boundary_settings, none, default_settings in E. cbn [cf_boundary] in E.
  destruct (Nat.eqb_spec dim 1); [discriminate|].
  injection E as <-. rewrite kind_default_dirichlet.
  destruct (Nat.eqb_spec dim 3); [|destruct (Nat.eqb_spec dim 2); [|lia]]; cbn [In]; unfold fc.
  - split.
    + intros [E|[E|[E|[E|[]]]]]; inversion E; auto.
    + intros N. assert (a = 1 \/ a = 2) as [->| ->] by lia; destruct u; auto.
  - split.
    + intros [E|[E|[]]]; inversion E; auto.
    + intros N. assert (a = 1) as -> by lia; destruct u; auto.
Qed.

Lemma kind_spe10 : forall dim own k f, 1 <= dim <= 3 -> is_side dim f ->
  boundary_info PSpe10 dim none own = Some k ->
  (k f = Dirichlet <-> f_axis f = 1 /\ f_up f = true).
Proof.
  intros dim own k [a u] D S E. unfold is_side in S. cbn [f_axis f_up] in *.
  unfold boundary_info, boundary_settings, none, default_settings in E. cbn [cf_boundary] in E.
  destruct (Nat.eqb_spec dim 1); [discriminate|].
  injection E as <-. rewrite kind_default_neumann.
  destruct (Nat.eqb_spec dim 2); [|destruct (Nat.eqb_spec dim 3); [|lia]]; cbn [In]; unfold fc;
    (split; [intros [E|[]]; inversion E; auto|intros (-> & ->); auto]).
Qed.

Lemma kind_tarbert : forall dim own k f, 1 <= dim <= 3 -> is_side dim f ->
  boundary_info PTarbert dim none own = Some k ->
  (k f = Dirichlet <-> f_axis f = 1 /\ (f_up f = true <-> dim = 3)).
Proof.
  intros dim own k [a u] D S E. unfold is_side in S. cbn [f_axis f_up] in *.
  unfold boundary_info, boundary_settings, none, default_settings in E. cbn [cf_boundary] in E.
  destruct (Nat.eqb_spec dim 1); [discriminate|].
  injection E as <-. rewrite kind_default_neumann.
  destruct (Nat.eqb_spec dim 2); [|destruct (Nat.eqb_spec dim 3); [|lia]]; cbn [In]; unfold fc.
  - split.
    + intros [E|[]]; inversion E; subst; split; auto. split; [discriminate|lia].
    + intros (-> & I). destruct u; auto. pose proof (proj1 I eq_refl). lia.
  - split.
    + intros [E|[]]; inversion E; subst; split; auto. tauto.
    + intros (-> & I). rewrite (proj2 I e). auto.
Qed.

Lemma kind_er2007 : forall dim global own k f,
  boundary_info PEr2007 dim global own = Some k -> k f = Dirichlet.
Proof. intros dim global own k f E. injection E as <-. reflexivity. Qed.

Lemma kind_override : forall p dim s own k f, p <> PEr2007 ->
  boundary_info p dim {| cf_boundary := Some s |} own = Some k ->
  k f = match st_default s with
        | Dirichlet => if existsb (face_eqb f) (st_neumann s) then Neumann else Dirichlet
        | Neumann => if existsb (face_eqb f) (st_dirichlet s) then Dirichlet else Neumann
        end.
Proof. intros p dim s own k f N E. destruct p; try congruence; injection E as <-; reflexivity. Qed.

(** ** Local problems. *)
Lemma in_faces : forall dim f, In f (faces dim) <-> f_axis f < dim.
Proof.
  intros dim [a u]. unfold faces. rewrite in_flat_map. cbn [f_axis]. split.
  - intros (x & I & J). apply in_seq in I. unfold fc in J.
    destruct J as [J|[J|[]]]; inversion J; subst; lia.
  - intros L. exists a. split; [apply in_seq; lia|]. unfold fc. destruct u; simpl; auto.
Qed.

Lemma constrained_iff : forall kind ns js,
  constrained_node kind ns js = true <->
  exists i up, i < length ns /\ on_side ns js i up /\ kind (fc i up) = Dirichlet.
Proof.
  intros kind ns js. unfold constrained_node. rewrite existsb_exists. split.
  - intros ([a u] & I & E). apply in_faces in I. cbn [f_axis] in I.
    apply andb_true_iff in E. destruct E as (O & K).
    exists a, u. split; auto. split.
    + unfold on_face in O. cbn [f_axis f_up] in O. now apply Nat.eqb_eq in O.
    + unfold fc. destruct (kind _); congruence.
  - intros (i & u & L & O & K). exists (fc i u). split; [apply in_faces; exact L|].
    rewrite K, andb_true_r. unfold on_face, fc. cbn [f_axis f_up]. now apply Nat.eqb_eq.
Qed.

Lemma local_all : forall p dim global own k ns js,
  (p = PSynthetic \/ p = PRandom \/ p = PEr2007) ->
  sub_boundary_info p dim global own = Some k ->
  (constrained_node k ns js = true <-> on_boundary ns js).
Proof.
  intros p dim global own k ns js P E.
  assert (K : forall f, k f = Dirichlet).
  { intros f. destruct P as [->|[->| ->]]; unfold sub_boundary_info in E;
      try (destruct (boundary_settings _ _ _ _); [|discriminate]); injection E as <-; reflexivity. }
  rewrite constrained_iff. unfold on_boundary, on_side. split.
  - intros (i & u & L & O & _). exists i. split; auto. destruct u; auto.
  - intros (i & L & [O|O]); [exists i, false|exists i, true]; auto.
Qed.

Lemma sub_same : forall p dim global own, p = PSpe10 \/ p = PTarbert ->
  sub_boundary_info p dim global own = boundary_info p dim global own.
Proof. intros p dim global own [->| ->]; reflexivity. Qed.

Lemma local_spe10 : forall own k ns js, 2 <= length ns <= 3 ->
  sub_boundary_info PSpe10 (length ns) none own = Some k ->
  (constrained_node k ns js = true <-> on_side ns js 1 true).
Proof.
  intros own k ns js D E. rewrite sub_same in E by auto.
  assert (K : forall f, is_side (length ns) f -> (k f = Dirichlet <-> f_axis f = 1 /\ f_up f = true))
    by (intros f S; apply (kind_spe10 (length ns) own); auto; lia).
  rewrite constrained_iff. split.
  - intros (i & u & L & O & Q). apply K in Q; [|exact L]. cbn [fc f_axis f_up] in Q.
    destruct Q as (-> & ->). exact O.
  - intros O. exists 1, true. split; [lia|]. split; auto. apply K; [|split; reflexivity].
    unfold is_side. cbn [fc f_axis]. lia.
Qed.

Lemma local_tarbert : forall own k ns js, 2 <= length ns <= 3 ->
  sub_boundary_info PTarbert (length ns) none own = Some k ->
  (constrained_node k ns js = true <-> on_side ns js 1 (Nat.eqb (length ns) 3)).
Proof.
  intros own k ns js D E. rewrite sub_same in E by auto.
  assert (K : forall f, is_side (length ns) f ->
    (k f = Dirichlet <-> f_axis f = 1 /\ (f_up f = true <-> length ns = 3)))
    by (intros f S; apply (kind_tarbert (length ns) own); auto; lia).
  rewrite constrained_iff. split.
  - intros (i & u & L & O & Q). apply K in Q; [|exact L]. cbn [fc f_axis f_up] in Q.
    destruct Q as (-> & I). replace (Nat.eqb (length ns) 3) with u; auto.
    apply eq_true_iff_eq. rewrite Nat.eqb_eq. exact I.
  - intros O. exists 1, (Nat.eqb (length ns) 3). split; [lia|]. split; auto. apply K.
    + unfold is_side. cbn [fc f_axis]. lia.
    + split; [reflexivity|]. cbn [fc f_up]. apply Nat.eqb_eq.
Qed.

(** A boundary node that is left free. *)
Lemma local_free_node : forall p own k ns,
  (p = PSpe10 \/ p = PTarbert) -> 2 <= length ns <= 3 ->
  (forall i, i < length ns -> 1 <= nth i ns 0) ->
  sub_boundary_info p (length ns) none own = Some k ->
  exists js, is_node ns js /\ on_boundary ns js /\ constrained_node k ns js = false.
Proof.
  intros p own k ns P D N E.
  set (u := match p with PSpe10 => true | _ => Nat.eqb (length ns) 3 end).
  (* the corner opposite along axis 1 *)
  exists (if u then map (fun _ => 0) ns else ns).
  assert (Z : forall i, nth i (map (fun _ : nat => 0) ns) 0 = 0).
  { clear. induction ns; destruct i; simpl; auto. }
  assert (F : ~ on_side ns (if u then map (fun _ => 0) ns else ns) 1 u).
  { unfold on_side. specialize (N 1). destruct u; [rewrite Z|]; intros Q; specialize (N ltac:(lia)); lia. }
  split; [|split].
  - split; [destruct u; auto; apply map_length|]. intros i L. destruct u; [rewrite Z; lia|lia].
  - exists 0. split; [lia|]. destruct u; [left; apply Z|right; reflexivity].
  - apply Bool.not_true_iff_false. intros Q. apply F.
    destruct P as [->| ->]; unfold u.
    + apply (local_spe10 own k); auto.
    + apply (local_tarbert own k); auto.
Qed.

(** Agreement with the data of C49/C50 (problem tables). *)
Lemma agrees_with_tables : forall dim own f, 2 <= dim <= 3 ->
  (forall k, boundary_info PSpe10 dim none own = Some k -> k f = spe_boundary dim f) /\
  (forall k, boundary_info PTarbert dim none own = Some k -> k f = tar_boundary dim f).
Proof.
  intros dim own f D.
  assert (C : dim = 2 \/ dim = 3) by lia.
  split; intros k E; destruct C as [->| ->];
    unfold boundary_info, boundary_settings, none, default_settings in E; cbn in E; injection E as <-;
    unfold normal_based, spe_boundary, tar_boundary; cbn [st_default st_dirichlet existsb];
    rewrite orb_false_r; reflexivity.
Qed.
