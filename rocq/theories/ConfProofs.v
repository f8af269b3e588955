(** Proofs for C85. *)
From Coq Require Import List Arith ZArith QArith Lia Lqa Bool String.
From Verif Require Import Util GridModel GridSpec GridProps LocalGridModel LocalGridSpec LocalGridProofs
  ConfModel ConfSpec.
Import ListNotations.
Open Scope string_scope.

Lemma run_app : forall os os' s, run s (os ++ os') = run (run s os) os'.
Proof. induction os as [|o os IH]; simpl; auto. Qed.

Lemma step_global : forall s o, s_global (fst (step s o)) =
  match o with SetInt k v => set_int (s_global s) k v | SetVec k v => set_vec (s_global s) k v
  | _ => s_global s end.
Proof. intros s []; simpl; auto; destruct (nth_error _ _); auto. Qed.

Lemma step_containers : forall s o, s_containers (fst (step s o)) =
  match o with NewContainer ll ur => (s_containers s ++ [make_container (s_global s) ll ur])%list
  | _ => s_containers s end.
Proof. intros s []; simpl; auto; destruct (nth_error _ _); auto. Qed.

Lemma run_vec : forall os s key, t_vec (s_global (run s os)) key = last_vec key (t_vec (s_global s) key) os.
Proof.
  induction os as [|o os IH]; intros s key; cbn [run last_vec]; auto.
  rewrite IH, step_global. destruct o; simpl; auto.
  rewrite (String.eqb_sym key k). destruct (String.eqb k key); auto.
Qed.
Lemma run_int : forall os s key, t_int (s_global (run s os)) key = last_int key (t_int (s_global s) key) os.
Proof.
  induction os as [|o os IH]; intros s key; cbn [run last_int]; auto.
  rewrite IH, step_global. destruct o; simpl; auto.
  rewrite (String.eqb_sym key k). destruct (String.eqb k key); auto.
Qed.

Lemma run_length : forall os s,
  List.length (s_containers (run s os)) = (List.length (s_containers s) + made os)%nat.
Proof.
  induction os as [|o os IH]; intros s; cbn [run made]; [lia|].
  rewrite IH, step_containers. destruct o; try rewrite app_length; simpl; lia.
Qed.
Lemma run_keeps : forall os s k c, nth_error (s_containers s) k = Some c ->
  nth_error (s_containers (run s os)) k = Some c.
Proof.
  induction os as [|o os IH]; intros s k c H; cbn [run]; auto.
  apply IH. rewrite step_containers. destruct o; auto.
  rewrite nth_error_app1; auto. apply nth_error_Some. congruence.
Qed.

Lemma container_of : forall t pre post ll ur,
  let s := run {| s_global := t; s_containers := [] |} (pre ++ NewContainer ll ur :: post) in
  exists c, nth_error (s_containers s) (made pre) = Some c /\ k_ll c = ll /\ k_ur c = ur /\
    (forall key, t_vec (k_config c) key = last_vec key (t_vec t key) pre) /\
    (forall key, t_int (k_config c) key = last_int key (t_int t key) pre).
Proof.
  intros t pre post ll ur s. unfold s. rewrite run_app. cbn [run].
  set (s0 := {| s_global := t; s_containers := [] |}).
  exists (make_container (s_global (run s0 pre)) ll ur). split; [|split; [|split; [|split]]]; auto.
  - apply run_keeps. rewrite step_containers.
    assert (L : List.length (s_containers (run s0 pre)) = made pre) by (rewrite run_length; reflexivity).
    rewrite nth_error_app2 by lia. rewrite L, Nat.sub_diag. reflexivity.
  - intros key. simpl. rewrite run_vec. reflexivity.
  - intros key. simpl. rewrite run_int. reflexivity.
Qed.

Lemma fine_elements : forall c ns ms comm g n m i,
  whole c ns ms -> make_fine_grid c comm = Created g ->
  nth_error ns i = Some n -> nth_error ms i = Some m ->
  nth i (g_elements g) 0%Z = (n * m)%Z /\ GridModel.g_ll g = c_ll c /\ GridModel.g_ur g = c_ur c.
Proof.
  intros c ns ms comm g n m i W H Hn Hm. split.
  - destruct (C33_whole_numbers_refine c ns ms comm g n m i W H Hn Hm) as (E & _).
    apply nth_error_nth; auto.
  - unfold make_fine_grid in H. destruct (setup_elements c); [|discriminate].
    destruct (setup_overlap c); [|discriminate]. destruct (all_some _); [|discriminate].
    unfold create_cube_grid in H. destruct (setup_fine_overlap c); [discriminate|].
    destruct (forallb _ _); [|discriminate]. injection H as <-. auto.
Qed.

Lemma agree_iff : forall c ns ms comm g n m i a h cc m',
  whole c ns ms -> make_fine_grid c comm = Created g ->
  nth_error ns i = Some n -> nth_error ms i = Some m -> (1 <= m)%Z ->
  a_gll a = nth i (c_ll c) 0%Q -> a_gur a = nth i (c_ur c) 0%Q ->
  structured a h n cc m' -> fits a n cc m' ->
  ((width (local_axis a) == grid_width g i)%Q <-> m' = m).
Proof.
  intros c ns ms comm g n m i a h cc m' W H Hn Hm M GL GU ST F.
  destruct (fine_elements _ _ _ _ _ _ _ _ W H Hn Hm) as (E & L & U).
  unfold grid_width. rewrite E, L, U, <- GL, <- GU.
  pose proof (proj2 (proj1 (width_iff a h n cc m' ST)) F) as Wd.
  destruct ST as (Hp & Hc & Hm' & _ & _ & _ & Hu & _).
  assert (N0 : (0 < inject_Z n)%Q) by (change 0%Q with (inject_Z 0); rewrite <- Zlt_Qlt; lia).
  assert (M0 : (0 < inject_Z m)%Q) by (change 0%Q with (inject_Z 0); rewrite <- Zlt_Qlt; lia).
  assert (M1 : (0 < inject_Z m')%Q) by (change 0%Q with (inject_Z 0); rewrite <- Zlt_Qlt; lia).
  assert (G : ((a_gur a - a_gll a) / inject_Z (n * m) == h / inject_Z m)%Q).
  { rewrite Hu, inject_Z_mult. field. split; lra. }
  rewrite G. split.
  - intros Eq. rewrite Eq in Wd.
    assert (X : (inject_Z m' == inject_Z m)%Q).
    { assert (Y : (inject_Z m' * h == inject_Z m * h)%Q).
      { rewrite <- Wd at 2. field. lra. }
      apply Qmult_inj_r in Y; auto. lra. }
    exact (proj1 (inject_Z_injective _ _) X).
  - intros ->. rewrite <- Wd. field. lra.
Qed.
