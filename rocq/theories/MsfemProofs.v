From Coq Require Import List Arith Lia Bool Ring Permutation.
From Verif Require Import Util StorageModel StorageSpec StorageProofs MsfemModel MsfemSpec.
Import ListNotations.

Section Proofs.
Variable F : Scalar.
Add Ring Fring2 : (k_ring F).

Notation state := (state F).
Notation vec := (vec F).
Notation heap := (heap F).
Notation backs := (backs F).
Notation reg := (reg F).
Notation mgrs := (mgrs F).

(** * Vectors *)
Lemma vadd_length : forall u v : vec, length u = length v -> length (vadd F u v) = length u.
Proof. intros. unfold vadd. rewrite map_length, combine_length. lia. Qed.
Lemma vsub_length : forall u v : vec, length u = length v -> length (vsub F u v) = length u.
Proof. intros. unfold vsub. rewrite map_length, combine_length. lia. Qed.

Lemma vadd_nth : forall (u v : vec) j, length u = length v ->
  nth j (vadd F u v) (k0 F) = kadd F (nth j u (k0 F)) (nth j v (k0 F)).
Proof.
  unfold vadd. induction u as [|x u IH]; intros [|y v] j H; simpl in *; try lia.
  - destruct j; ring.
  - destruct j; auto.
Qed.
Lemma vsub_nth : forall (u v : vec) j, length u = length v ->
  nth j (vsub F u v) (k0 F) = ksub F (nth j u (k0 F)) (nth j v (k0 F)).
Proof.
  unfold vsub. induction u as [|x u IH]; intros [|y v] j H; simpl in *; try lia.
  - destruct j; ring.
  - destruct j; auto.
Qed.
Lemma vscale_length : forall c (v : vec), length (vscale F c v) = length v.
Proof. intros. apply map_length. Qed.
Lemma vscale_nth : forall c (v : vec) j,
  nth j (vscale F c v) (k0 F) = kmul F c (nth j v (k0 F)).
Proof.
  unfold vscale. induction v as [|x v IH]; intros [|j]; simpl; auto; ring.
Qed.
Lemma vzero_length : forall n, length (vzero F n) = n.
Proof. intros. apply repeat_length. Qed.
Lemma vzero_nth : forall n j, nth j (vzero F n) (k0 F) = k0 F.
Proof. unfold vzero. induction n; intros [|j]; simpl; auto. Qed.
Lemma vscale0_vzero : forall n, vscale F (k0 F) (vzero F n) = vzero F n.
Proof.
  unfold vscale, vzero. induction n; simpl; auto. rewrite IHn. f_equal. ring.
Qed.
Lemma vscale0_any : forall v : vec, vscale F (k0 F) v = vzero F (length v).
Proof.
  unfold vscale, vzero. induction v as [|x v IH]; simpl; auto. rewrite IH. f_equal. ring.
Qed.
Lemma vadd_vzero : forall v : vec, vadd F (vzero F (length v)) v = v.
Proof.
  unfold vadd, vzero. induction v as [|x v IH]; simpl; auto. rewrite IH. f_equal. ring.
Qed.

(** * Local right hand sides and solves (C15) *)
Lemma inner_loop_spec : forall c n i rhs,
  i + n <= length rhs ->
  exists rhs', inner_loop F c n i rhs = Some rhs' /\ length rhs' = length rhs /\
   (forall j, j < i \/ i + n <= j -> nth j rhs' [] = nth j rhs []) /\
   (forall j, i <= j -> j < i + n -> nth j rhs' [] = vadd F (nth j rhs []) (c_inner F c j)).
Proof.
  induction n as [|n IH]; intros i rhs H; simpl.
  - exists rhs. repeat split; auto. intros; lia.
  - unfold rhs_add.
    destruct (nth_error rhs i) as [r|] eqn:E; [|apply nth_error_None in E; lia].
    destruct (IH (S i) (upd rhs i (vadd F r (c_inner F c i)))) as [r' [E1 [E2 [E3 E4]]]].
    { rewrite upd_length. lia. }
    exists r'. rewrite E1, E2, upd_length. repeat split; auto.
    + intros j Hj. rewrite E3 by lia. apply nth_upd_neq. lia.
    + intros j H1 H2. destruct (Nat.eq_dec i j) as [->|Hd].
      * rewrite E3 by lia. rewrite nth_upd_eq by lia.
        now rewrite (nth_error_val _ _ _ _ ([] : vec) E).
      * rewrite E4 by lia. now rewrite nth_upd_neq by lia.
Qed.

(** Right hand side slots of a cell. *)
Lemma assemble_rhs_spec : forall c n,
  dims_ok F c ->
  exists rhs, assemble_rhs F c (repeat (vzero F (c_len F c)) (n + 2)) = Some rhs /\
   length rhs = n + 2 /\
   (forall i, i < n -> nth_error rhs i = Some (c_constrain F c (c_inner F c i))) /\
   nth_error rhs n = Some (c_constrain F c (if c_boundary F c then c_neu F c else vzero F (c_len F c))) /\
   nth_error rhs (S n) = Some (c_constrain F c (if c_boundary F c then c_dir F c else vzero F (c_len F c))).
Proof.
  intros c n [D1 [D2 [D3 [D4 D5]]]]. unfold assemble_rhs. rewrite repeat_length.
  destruct (Nat.ltb_spec (n + 2) 2); [lia|].
  replace (n + 2 - 2) with n by lia.
  destruct (inner_loop_spec c n 0 (repeat (vzero F (c_len F c)) (n + 2))) as [r [E1 [E2 [E3 E4]]]].
  { rewrite repeat_length. lia. }
  rewrite E1. rewrite repeat_length in E2.
  assert (Hz : forall j, j < n + 2 -> nth j (repeat (vzero F (c_len F c)) (n + 2)) [] = vzero F (c_len F c)).
  { intros j Hj. apply nth_error_val. rewrite nth_error_repeat; auto. }
  assert (Hne : forall j, j < n + 2 -> nth_error r j = Some (nth j r [])).
  { intros j Hj. apply nth_error_nth'. lia. }
  assert (Hinner : forall i, i < n -> nth i r [] = c_inner F c i).
  { intros i Hi. rewrite E4 by lia. rewrite Hz by lia.
    rewrite <- (D1 i) at 1. apply vadd_vzero. }
  assert (Hb : forall j, n <= j -> j < n + 2 -> nth j r [] = vzero F (c_len F c)).
  { intros j H1 H2. rewrite E3 by lia. apply Hz; lia. }
  destruct (c_boundary F c) eqn:EB.
  - unfold rhs_add. rewrite (Hne n) by lia.
    rewrite nth_error_upd_neq by lia. rewrite (Hne (S n)) by lia.
    eexists. split; [reflexivity|]. rewrite map_length, !upd_length. split; [lia|].
    split; [|split].
    + intros i Hi. rewrite nth_error_map. rewrite !nth_error_upd_neq by lia.
      rewrite (Hne i) by lia. simpl. now rewrite Hinner.
    + rewrite nth_error_map. rewrite nth_error_upd_neq by lia.
      rewrite nth_error_upd_eq by lia. simpl. rewrite Hb by lia.
      rewrite <- D2 at 1. now rewrite vadd_vzero.
    + rewrite nth_error_map. rewrite nth_error_upd_eq by (rewrite upd_length; lia).
      simpl. rewrite Hb by lia. rewrite <- D3 at 1. now rewrite vadd_vzero.
  - eexists. split; [reflexivity|]. rewrite map_length. split; [lia|].
    split; [|split].
    + intros i Hi. rewrite nth_error_map, (Hne i) by lia. simpl. now rewrite Hinner.
    + rewrite nth_error_map, (Hne n) by lia. simpl. now rewrite Hb by lia.
    + rewrite nth_error_map, (Hne (S n)) by lia. simpl. now rewrite Hb by lia.
Qed.

Lemma solve_loop_spec : forall c ni rhs sols i l,
  length rhs = length sols ->
  solve_loop F c ni i rhs sols = Some l ->
  length l = length rhs /\
  forall j r s, nth_error rhs j = Some r -> nth_error sols j = Some s ->
   exists x, nth_error l j = Some x /\
    (if (ni <=? i + j) && negb (c_boundary F c) then x = vscale F (k0 F) s
     else c_solve F c s r = Some x).
Proof.
  induction rhs as [|r rhs IH]; intros [|s sols] i l HL HS; simpl in *; try lia.
  - inversion HS; subst. split; auto. intros j r s Hj. destruct j; discriminate.
  - destruct (if (ni <=? i) && negb (c_boundary F c) then Some (vscale F (k0 F) s) else c_solve F c s r)
      as [x|] eqn:E; [|discriminate].
    destruct (solve_loop F c ni (S i) rhs sols) as [l'|] eqn:E2; [|discriminate].
    inversion HS; subst l. destruct (IH sols (S i) l') as [A B]; auto; try lia.
    split; [simpl; lia|].
    intros [|j] r' s' Hr Hs; simpl in *.
    + inversion Hr; inversion Hs; subst. exists x. split; auto. rewrite Nat.add_0_r.
      destruct ((ni <=? i) && negb (c_boundary F c)); congruence.
    + destruct (B j r' s' Hr Hs) as [y [B1 B2]]. exists y. split; auto.
      replace (i + S j) with (S i + j) by lia. exact B2.
Qed.

(** C15, solver side: contents of the slots after the local solves,
    whatever was in the slots before. *)
Lemma solver_slots : forall c (sols0 sols : list vec),
  dims_ok F c -> length sols0 = c_n F c + 2 ->
  (forall v, In v sols0 -> length v = c_len F c) ->
  solve_all_on_single_cell F c sols0 = Some sols ->
  let z := vzero F (c_len F c) in
  length sols = c_n F c + 2 /\
  (forall v, In v sols -> length v = c_len F c) /\
  (forall i, i < c_n F c ->
     c_solve F c z (c_constrain F c (c_inner F c i)) = Some (nth i sols [])) /\
  (if c_boundary F c then
     c_solve F c z (c_constrain F c (c_neu F c)) = Some (nth (c_n F c) sols []) /\
     c_solve F c z (c_constrain F c (c_dir F c)) = Some (nth (S (c_n F c)) sols [])
   else nth (c_n F c) sols [] = z /\ nth (S (c_n F c)) sols [] = z).
Proof.
  intros c sols0 sols D HL HV HS z.
  unfold solve_all_on_single_cell in HS. rewrite HL in HS.
  destruct (assemble_rhs_spec c (c_n F c) D) as [rhs [E1 [E2 [E3 [E4 E5]]]]].
  rewrite E1 in HS. replace (c_n F c + 2 - 2) with (c_n F c) in HS by lia.
  assert (HLL : length rhs = length (map (vscale F (k0 F)) sols0)) by (rewrite map_length; lia).
  destruct (solve_loop_spec c (c_n F c) rhs _ 0 sols HLL HS) as [L1 L2].
  assert (Hs0 : forall j, j < c_n F c + 2 ->
     nth_error (map (vscale F (k0 F)) sols0) j = Some z).
  { intros j Hj. rewrite nth_error_map.
    destruct (nth_error sols0 j) as [v|] eqn:Ev; [|apply nth_error_None in Ev; lia].
    simpl. f_equal. rewrite vscale0_any. unfold z. f_equal. apply HV. eapply nth_error_In; eauto. }
  assert (Hlen : forall v, In v sols -> length v = c_len F c).
  { intros v Hin. apply In_nth_error in Hin as [j Hj].
    assert (Hjl : j < c_n F c + 2) by (apply nth_error_lt in Hj; lia).
    destruct (nth_error rhs j) as [r|] eqn:Er; [|apply nth_error_None in Er; lia].
    destruct (L2 j r z Er (Hs0 j Hjl)) as [x [Hx1 Hx2]].
    rewrite Hj in Hx1. inversion Hx1; subst x.
    destruct ((c_n F c <=? 0 + j) && negb (c_boundary F c)).
    - subst v. rewrite vscale_length. apply vzero_length.
    - destruct D as [D1 [D2 [D3 [D4 D5]]]].
      eapply D5; [| |exact Hx2]; [apply vzero_length|].
      destruct (Nat.lt_ge_cases j (c_n F c)) as [Hlt|Hge].
      + rewrite (E3 j Hlt) in Er. inversion Er. apply D4. apply D1.
      + destruct (Nat.eq_dec j (c_n F c)) as [->|Hd].
        * rewrite E4 in Er. inversion Er. apply D4. destruct (c_boundary F c); auto. apply vzero_length.
        * assert (j = S (c_n F c)) by lia. subst j.
          rewrite E5 in Er. inversion Er. apply D4. destruct (c_boundary F c); auto. apply vzero_length. }
  split; [lia|]. split; [exact Hlen|]. split.
  - intros i Hi. destruct (L2 i _ z (E3 i Hi) (Hs0 i ltac:(lia))) as [x [Hx1 Hx2]].
    destruct (Nat.leb_spec (c_n F c) (0 + i)); [lia|]. simpl in Hx2.
    rewrite (nth_error_val _ _ _ _ ([] : vec) Hx1). exact Hx2.
  - destruct (L2 (c_n F c) _ z E4 (Hs0 (c_n F c) ltac:(lia))) as [x [Hx1 Hx2]].
    destruct (L2 (S (c_n F c)) _ z E5 (Hs0 (S (c_n F c)) ltac:(lia))) as [y [Hy1 Hy2]].
    destruct (Nat.leb_spec (c_n F c) (0 + c_n F c)); [|lia].
    destruct (Nat.leb_spec (c_n F c) (0 + S (c_n F c))); [|lia].
    rewrite (nth_error_val _ _ _ _ ([] : vec) Hx1), (nth_error_val _ _ _ _ ([] : vec) Hy1).
    destruct (c_boundary F c); simpl in Hx2, Hy2; auto.
    subst x y. unfold z. rewrite vscale0_vzero. auto.
Qed.

(** * The cut (C17) *)
Lemma cut_node_length : forall v nd, length (cut_node F v nd) = length v.
Proof. intros. apply upd_length. Qed.
Lemma cut_element_length : forall e v, length (cut_element F v e) = length v.
Proof.
  unfold cut_element. induction e as [|nd e IH]; intros v; simpl; auto.
  rewrite IH. apply cut_node_length.
Qed.
Lemma cut_mesh_length : forall m v, length (cut_mesh F m v) = length v.
Proof.
  unfold cut_mesh. induction m as [|e m IH]; intros v; simpl; auto.
  rewrite IH. apply cut_element_length.
Qed.

Lemma cut_node_nth : forall v nd j,
  nth j (cut_node F v nd) (k0 F) =
  if Nat.eqb (fst nd) j && negb (snd nd) then k0 F else nth j v (k0 F).
Proof.
  intros v [d b] j. unfold cut_node. cbn [fst snd].
  destruct (Nat.eqb_spec d j) as [->|Hd]; simpl.
  - destruct (Nat.lt_ge_cases j (length v)) as [Hl|Hl].
    + rewrite nth_upd_eq by auto. destruct b; reflexivity.
    + rewrite upd_out by auto. rewrite nth_overflow by auto. now destruct b.
  - now apply nth_upd_neq.
Qed.

Lemma cut_element_nth : forall e v j,
  nth j (cut_element F v e) (k0 F) =
  if existsb (fun nd => Nat.eqb (fst nd) j && negb (snd nd)) e then k0 F else nth j v (k0 F).
Proof.
  unfold cut_element. induction e as [|nd e IH]; intros v j; simpl; auto.
  rewrite IH, cut_node_nth.
  destruct (Nat.eqb (fst nd) j && negb (snd nd)); simpl; auto.
  now destruct (existsb _ e).
Qed.

Lemma cut_mesh_nth : forall m v j,
  nth j (cut_mesh F m v) (k0 F) = if outside m j then k0 F else nth j v (k0 F).
Proof.
  unfold cut_mesh, outside. induction m as [|e m IH]; intros v j; simpl; auto.
  rewrite IH, cut_element_nth.
  destruct (existsb (fun nd => Nat.eqb (fst nd) j && negb (snd nd)) e); simpl; auto.
  now destruct (existsb _ m).
Qed.

Lemma outside_true : forall m j, outside m j = true <-> In (j, false) (concat m).
Proof.
  intros m j. unfold outside. rewrite existsb_exists. split.
  - intros [e [He Hx]]. apply existsb_exists in Hx as [[d b] [Hin Hx]].
    cbn [fst snd] in Hx. apply andb_true_iff in Hx as [H1 H2].
    apply Nat.eqb_eq in H1. destruct b; [discriminate|]. subst.
    apply in_concat. eauto.
  - intros H. apply in_concat in H as [e [He Hin]]. exists e. split; auto.
    apply existsb_exists. exists (j, false). cbn. rewrite Nat.eqb_refl. auto.
Qed.

Lemma cut_flags : forall inside m v j,
  flags_from inside m -> is_node m j ->
  nth j (cut_mesh F m v) (k0 F) = if inside j then nth j v (k0 F) else k0 F.
Proof.
  intros inside m v j HF [e [[d b] [He [Hn Hj]]]]. cbn in Hj. subst d.
  rewrite cut_mesh_nth. pose proof (HF e (j, b) He Hn) as Hb. cbn in Hb.
  destruct (outside m j) eqn:EO.
  - apply outside_true in EO. apply in_concat in EO as [e' [He' Hn']].
    pose proof (HF e' (j, false) He' Hn') as Hb'. cbn in Hb'. now rewrite <- Hb'.
  - destruct (inside j) eqn:EI; auto. subst b.
    exfalso. enough (outside m j = true) by congruence.
    apply outside_true. apply in_concat. eauto.
Qed.

Lemma cut_order : forall m1 m2 v, same_nodes m1 m2 -> cut_mesh F m1 v = cut_mesh F m2 v.
Proof.
  intros m1 m2 v H. apply nth_ext with (d := k0 F) (d' := k0 F).
  - now rewrite !cut_mesh_length.
  - intros j _. rewrite !cut_mesh_nth.
    assert (E : outside m1 j = outside m2 j).
    { apply eq_iff_eq_true. rewrite !outside_true. apply H. }
    now rewrite E.
Qed.

End Proofs.
