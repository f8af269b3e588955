From Coq Require Import List Arith Lia Bool Ring Permutation.
From Verif Require Import Util StorageModel StorageSpec StorageProofs MsfemModel MsfemSpec
  MsfemProofs MsfemRunProofs.
Import ListNotations.

Section Proofs.
Variable F : Scalar.
Add Ring Fring4 : (k_ring F).

Notation state := (state F).
Notation vec := (vec F).
Notation heap := (heap F).
Notation backs := (backs F).
Notation reg := (reg F).
Notation mgrs := (mgrs F).

Lemma sum_n_ext : forall n f g, (forall i, i < n -> f i = g i) -> sum_n F n f = sum_n F n g.
Proof.
  induction n as [|n IH]; intros f g H; simpl; auto.
  rewrite (IH f g) by auto. rewrite H by lia. reflexivity.
Qed.
Lemma sum_n_head : forall n f, sum_n F (S n) f = kadd F (f 0) (sum_n F n (fun i => f (S i))).
Proof.
  induction n as [|n IH]; intros f.
  - simpl. ring.
  - change (sum_n F (S (S n)) f) with (kadd F (sum_n F (S n) f) (f (S n))).
    rewrite IH. simpl. ring.
Qed.
Lemma sum_n_zero : forall n f, (forall i, i < n -> f i = k0 F) -> sum_n F n f = k0 F.
Proof.
  induction n as [|n IH]; intros f H; simpl; auto. rewrite IH by auto. rewrite H by lia. ring.
Qed.
Lemma sum_n_lin : forall n a b f g,
  sum_n F n (fun i => kadd F (kmul F a (f i)) (kmul F b (g i))) =
  kadd F (kmul F a (sum_n F n f)) (kmul F b (sum_n F n g)).
Proof.
  induction n as [|n IH]; intros a b f g; simpl; [ring|]. rewrite IH. ring.
Qed.

Lemma accumulate_spec : forall coarse s m mg i (corr : vec) L,
  reachable F s -> nth_error (mgrs s) m = Some mg -> NoDup (m_sols mg) ->
  i + length coarse <= length (view F s m) ->
  (forall v, In v (view F s m) -> length v = L) -> length corr = L ->
  exists h corr', accumulate F s m coarse i corr = Some (with_heap F s h, corr') /\
    reachable F (with_heap F s h) /\ length corr' = L /\
    (forall j, nth j corr' (k0 F) =
       kadd F (nth j corr (k0 F))
         (sum_n F (length coarse)
            (fun t => kmul F (nth t coarse (k0 F)) (coef F (view F s m) (i + t) j)))) /\
    (forall t, i + length coarse <= t ->
       nth_error (view F (with_heap F s h) m) t = nth_error (view F s m) t) /\
    (forall k' len sols, k' <> m_key mg -> ready F s k' len sols ->
       ready F (with_heap F s h) k' len sols).
Proof.
  induction coarse as [|x coarse IH]; intros s m mg i corr L HR Em ND HL HV HC.
  - exists (heap s), corr. cbn [accumulate length].
    assert (Ew : with_heap F s (heap s) = s) by (destruct s; reflexivity).
    rewrite Ew. repeat split; auto. intros j. simpl. ring.
  - cbn [length] in HL. cbn [accumulate].
    destruct (reachable_inv _ _ HR) as [own [bown HI]].
    destruct (nth_error (view F s m) i) as [w|] eqn:Ew; [|apply nth_error_None in Ew; lia].
    destruct (modify_own F s own bown m mg i w (vscale F x) HI Em ND Ew) as [h1 [G1 G2]].
    assert (HS : step F s (Scale F m i x) = Ok F (with_heap F s h1)) by exact G1.
    rewrite HS, G2. rewrite nth_error_upd_eq by lia.
    assert (HR1 : reachable F (with_heap F s h1)) by (eapply reachable_step; eauto).
    assert (Hlw : length w = L) by (apply HV; eapply nth_error_In; eauto).
    destruct (IH (with_heap F s h1) m mg (S i) (vadd F corr (vscale F x w)) L)
      as [h [corr' [A1 [A2 [A3 [A4 [A5 A6]]]]]]]; auto.
    + rewrite G2, upd_length. lia.
    + intros v Hv. rewrite G2 in Hv. apply In_upd in Hv as [->|Hv]; auto.
      now rewrite vscale_length.
    + rewrite vadd_length; rewrite ?vscale_length; congruence.
    + exists h, corr'. split; [exact A1|]. split; [exact A2|]. split; auto. split; [|split].
      * intros j. rewrite A4. rewrite vadd_nth by (rewrite vscale_length; congruence).
        rewrite vscale_nth. cbn [length]. rewrite sum_n_head. cbn [nth].
        rewrite Nat.add_0_r.
        assert (Ec : coef F (view F s m) i j = nth j w (k0 F)).
        { unfold coef. now rewrite (nth_error_val _ _ _ _ ([] : vec) Ew). }
        rewrite Ec.
        rewrite (sum_n_ext (length coarse)
          (fun t => kmul F (nth t coarse (k0 F)) (coef F (view F (with_heap F s h1) m) (S i + t) j))
          (fun t => kmul F (nth t coarse (k0 F)) (coef F (view F s m) (i + S t) j))).
        -- ring.
        -- intros t Ht. f_equal. unfold coef. rewrite G2.
           rewrite nth_upd_neq by lia. now replace (i + S t) with (S i + t) by lia.
      * intros t Ht. cbn [length] in Ht.
        change (nth_error (view F (with_heap F (with_heap F s h1) h) m) t = nth_error (view F s m) t).
        rewrite A5 by lia. rewrite G2. now rewrite nth_error_upd_neq by lia.
      * intros k' len sols Hk Hr.
        change (ready F (with_heap F (with_heap F s h1) h) k' len sols).
        apply A6; auto. eapply (ready_other F s (Scale F m i x)); eauto; try discriminate.
        cbn. unfold handle_cell. rewrite Em. cbn. congruence.
Qed.

Lemma NoDup_firstn : forall A (l : list A) n, NoDup l -> NoDup (firstn n l).
Proof.
  induction l as [|x l IH]; intros [|n] H; simpl; try constructor; inversion H; subst; auto.
  intro C. apply H2. rewrite <- (firstn_skipn n l). apply in_or_app. auto.
Qed.

Lemma identify_cell_spec : forall cut s (c : cell F) coarse (sols : list vec),
  reachable F s -> ready F s (c_key F c) (c_len F c) sols ->
  length sols = c_n F c + 2 -> length coarse = c_n F c ->
  (forall v, In v sols -> length v = c_len F c) ->
  exists s' v, identify_cell F cut s c coarse = Some (s', v) /\ reachable F s' /\
    length v = c_len F c /\
    (forall j, nth j v (k0 F) = ref_value F cut (c_mesh F c) (c_n F c) coarse sols j) /\
    (forall k' len' sols', k' <> c_key F c -> ready F s k' len' sols' -> ready F s' k' len' sols').
Proof.
  intros cut s c coarse sols HR HRd HL HCo HV.
  destruct HRd as [bk [B1 [B2 [B3 B4]]]].
  set (k := c_key F c) in *. set (m := length (mgrs s)).
  destruct (reachable_inv _ _ HR) as [own [bown HI]].
  destruct (fresh_load F s k (c_num F c) (c_len F c) HR)
    as [s1 [s2 [E1 [E2 [E3 [E4 [E5 [E6 [E7 E8]]]]]]]]].
  assert (Hnum : c_num F c <= length (stored F s k)) by (rewrite B4; unfold c_num; lia).
  assert (EL : step F s1 (Load F m) = Ok F s2) by (apply E3; auto).
  specialize (E4 Hnum). rewrite B4 in E4. rewrite firstn_all2 in E4 by (unfold c_num; lia).
  assert (HR1 : reachable F s1) by (eapply reachable_step; eauto).
  assert (HR2 : reachable F s2) by (eapply reachable_step; eauto).
  (* handle in s1 *)
  destruct (do_new_spec F s own bown k (c_num F c) (c_len F c) HI)
      as [s1' [own1 [bown1 [mg1 [N1 [N2 [N3 [N4 [N5 [N6 [N7 [N8 [N9 [N10 [N11 [N12 [N13 [N14 N15]]]]]]]]]]]]]]]]]].
  cbn [step] in E1. rewrite N1 in E1. inversion E1; subst s1'.
  assert (Em1 : nth_error (mgrs s1) m = Some mg1) by (rewrite N4; apply nth_error_snoc).
  assert (HLive : live_for F s1 m k) by (exists mg1; auto).
  assert (Hvl : length (view F s1 m) = handle_num F s1 m).
  { unfold view, handle_num. rewrite Em1, map_length, N7, seq_length. auto. }
  destruct (load_aliased F s1 m k s2 HR1 HLive Hvl EL) as [mg [bk2 [M1 [M2 [M3 [M4 [M5 [M6 M7]]]]]]]].
  (* backend unchanged *)
  assert (CB1 : cell_backend F s1 k = Some bk).
  { eapply (step_backend F s (New F k (c_num F c) (c_len F c)) s1); eauto; try discriminate. }
  assert (CB2 : cell_backend F s2 k = Some bk).
  { eapply (step_backend F s1 (Load F m) s2); eauto; discriminate. }
  assert (Ebk : bk2 = bk).
  { unfold cell_backend in CB2. rewrite M3, M4 in CB2. congruence. }
  subst bk2.
  assert (ND : NoDup (m_sols mg)) by (rewrite M7; now apply NoDup_firstn).
  assert (Hsp : space_len F s2 m = c_len F c) by (unfold space_len; rewrite M1, M4; auto).
  (* accumulate *)
  assert (Ev2 : view F s2 m = sols) by exact E4.
  destruct (accumulate_spec coarse s2 m mg 0 (vscale F (k0 F) (vzero F (space_len F s2 m))) (c_len F c))
    as [h [corr [A1 [A2 [A3 [A4 [A5 A6]]]]]]]; auto.
  { rewrite Ev2. lia. }
  { rewrite Ev2. auto. }
  { now rewrite vscale_length, vzero_length. }
  unfold identify_cell. fold k. fold m. cbn [step].
  rewrite N1. change (do_load F s1 m) with (step F s1 (Load F m)). rewrite EL. rewrite A1.
  rewrite A5 by lia. rewrite A5 by lia. rewrite Ev2.
  replace (length coarse + 1) with (S (c_n F c)) by lia. rewrite HCo.
  destruct (nth_error sols (S (c_n F c))) as [d|] eqn:Ed; [|apply nth_error_None in Ed; lia].
  destruct (nth_error sols (c_n F c)) as [nn|] eqn:En; [|apply nth_error_None in En; lia].
  unfold do_drop. replace (mgrs (with_heap F s2 h)) with (mgrs s2) by reflexivity. rewrite M1.
  eexists. eexists. split; [reflexivity|].
  assert (HD : step F (with_heap F s2 h) (Drop F m) =
     Ok F (set_sols F (with_heap F s2 h) m mg (heap (with_heap F s2 h)) [])).
  { cbn [step]. unfold do_drop. replace (mgrs (with_heap F s2 h)) with (mgrs s2) by reflexivity.
    now rewrite M1. }
  split; [eapply reachable_step; eauto|].
  assert (Hd : length d = c_len F c) by (apply HV; eapply nth_error_In; eauto).
  assert (Hn : length nn = c_len F c) by (apply HV; eapply nth_error_In; eauto).
  match goal with |- context [vadd F ?X d] => set (corr2 := X) end.
  assert (Hc2 : length corr2 = c_len F c).
  { unfold corr2. destruct cut; auto. now rewrite cut_mesh_length. }
  assert (Hva : length (vadd F corr2 d) = c_len F c).
  { rewrite vadd_length; rewrite Hc2; auto. }
  split; [|split].
  - rewrite vsub_length; rewrite Hva; auto.
  - intros j. rewrite vsub_nth by (rewrite Hva; auto).
    rewrite vadd_nth by (rewrite Hc2; auto). unfold ref_value.
    assert (Cd : coef F sols (S (c_n F c)) j = nth j d (k0 F)).
    { unfold coef. now rewrite (nth_error_val _ _ _ _ ([] : vec) Ed). }
    assert (Cn : coef F sols (c_n F c) j = nth j nn (k0 F)).
    { unfold coef. now rewrite (nth_error_val _ _ _ _ ([] : vec) En). }
    rewrite Cd, Cn. f_equal. f_equal.
    assert (Hcorr : nth j corr (k0 F) =
       sum_n F (c_n F c) (fun i => kmul F (nth i coarse (k0 F)) (coef F sols i j))).
    { rewrite A4. rewrite vscale_nth, Ev2, HCo. simpl. ring. }
    unfold corr2. destruct cut; cbn [andb].
    + rewrite cut_mesh_nth. destruct (outside (c_mesh F c) j); auto.
    + exact Hcorr.
  - intros k' len' sols' Hk Hr.
    eapply (ready_other F (with_heap F s2 h) (Drop F m)); eauto; try discriminate.
    { cbn. unfold handle_cell. replace (mgrs (with_heap F s2 h)) with (mgrs s2) by reflexivity.
      rewrite M1. cbn. congruence. }
    apply A6; [congruence|].
    eapply (ready_other F s1 (Load F m)); eauto; try discriminate.
    { cbn. unfold handle_cell. rewrite Em1. cbn. congruence. }
    eapply (ready_other F s (New F k (c_num F c) (c_len F c))); eauto; try discriminate.
    cbn. congruence.
Qed.

Lemma identify_all_spec : forall cut coarse_of cs s (sols_of : nat -> list vec),
  NoDup (map (c_key F) cs) -> reachable F s ->
  (forall c, In c cs -> ready F s (c_key F c) (c_len F c) (sols_of (c_key F c)) /\
     length (sols_of (c_key F c)) = c_n F c + 2 /\ length (coarse_of (c_key F c)) = c_n F c /\
     (forall v, In v (sols_of (c_key F c)) -> length v = c_len F c)) ->
  exists s' l, identify_all F cut coarse_of s cs = Some (s', l) /\
   map fst l = map (c_key F) cs /\
   forall c, In c cs -> exists v, assoc (c_key F c) l = Some v /\ length v = c_len F c /\
     forall j, nth j v (k0 F) =
       ref_value F cut (c_mesh F c) (c_n F c) (coarse_of (c_key F c)) (sols_of (c_key F c)) j.
Proof.
  intros cut coarse_of. induction cs as [|c cs IH]; intros s sols_of ND HR H.
  - exists s, []. repeat split; auto. intros c [].
  - inversion ND as [|? ? Hni ND']; subst.
    destruct (H c (or_introl eq_refl)) as [H1 [H2 [H3 H4]]].
    destruct (identify_cell_spec cut s c (coarse_of (c_key F c)) (sols_of (c_key F c)) HR H1 H2 H3 H4)
      as [s1 [v [A1 [A2 [A3 [A4 A5]]]]]].
    destruct (IH s1 sols_of ND' A2) as [s' [l [B1 [B2 B3]]]].
    { intros c' Hc'. destruct (H c' (or_intror Hc')) as [G1 [G2 [G3 G4]]].
      split; auto. apply A5; auto. intro C. apply Hni. rewrite <- C. now apply in_map. }
    exists s', ((c_key F c, v) :: l). cbn [identify_all]. rewrite A1, B1. split; auto.
    split; [cbn; now rewrite B2|].
    intros c' [<-|Hc'].
    + exists v. cbn. rewrite Nat.eqb_refl. auto.
    + destruct (B3 c' Hc') as [v' [D1 [D2 D3]]]. exists v'. split; auto. cbn.
      destruct (Nat.eqb_spec (c_key F c') (c_key F c)); auto.
      exfalso. apply Hni. rewrite <- e. now apply in_map.
Qed.

(** C13. *)
Lemma reconstruction : forall cs tr s0 reads cs' cut coarse_of,
  NoDup (map (c_key F) cs) -> (forall c, In c cs -> dims_ok F c) ->
  empty_store F s0 -> interleaving F cs tr ->
  NoDup (map (c_key F) cs') -> incl cs' cs ->
  (forall c, In c cs -> length (coarse_of (c_key F c)) = c_n F c) ->
  exists s1 e1 s2 s3 corrections,
    exec F (s0, []) tr = Some (s1, e1) /\
    run_acts F s1 (map (fun t => ReadFresh F (fst (fst t)) (snd (fst t)) (snd t)) reads) = Some s2 /\
    identify_all F cut coarse_of s2 cs' = Some (s3, corrections) /\
    map fst corrections = map (c_key F) cs' /\
    forall c, In c cs' -> exists sols v,
      solver_functions F c sols /\ assoc (c_key F c) corrections = Some v /\
      length v = c_len F c /\
      forall j, nth j v (k0 F) =
        ref_value F cut (c_mesh F c) (c_n F c) (coarse_of (c_key F c)) sols j.
Proof.
  intros cs tr s0 reads cs' cut coarse_of ND HD HE HT ND' Hincl HCo.
  destruct (parallel_solve F cs tr s0 ND HD HE HT) as [s1 [e1 [A [B [C _]]]]].
  destruct (read_cycles F reads s1 B) as [s2 [R1 [R2 _]]].
  destruct (ready_fresh_reads F reads s1 s2 B R1) as [_ R3].
  assert (Hrun : forall c, In c cs -> exists sols, solver_functions F c sols).
  { intros c Hc. destruct HT as [HT1 _]. specialize (HT1 c Hc). unfold cell_prog in HT1.
    unfold solver_functions.
    destruct (solve_all_on_single_cell F c (fresh_slots F c)) as [l|]; [eauto|discriminate]. }
  (* the function list per key *)
  assert (Hof : exists sols_of, forall c, In c cs -> solver_functions F c (sols_of (c_key F c))).
  { clear -ND Hrun. induction cs as [|c cs IH].
    - exists (fun _ => []). intros c [].
    - inversion ND as [|? ? Hni ND']; subst.
      destruct IH as [f Hf]; auto. { intros; apply Hrun; now right. }
      destruct (Hrun c (or_introl eq_refl)) as [sols Hs].
      exists (fun k => if Nat.eqb k (c_key F c) then sols else f k).
      intros c' [<-|Hc'].
      + now rewrite Nat.eqb_refl.
      + destruct (Nat.eqb_spec (c_key F c') (c_key F c)); [|now apply Hf].
        exfalso. apply Hni. rewrite <- e. now apply in_map. }
  destruct Hof as [sols_of Hof].
  destruct (identify_all_spec cut coarse_of cs' s2 sols_of ND' R2) as [s3 [l [D1 [D2 D3]]]].
  { intros c Hc. pose proof (Hof c (Hincl c Hc)) as Hs.
    destruct (solver_slots F c (fresh_slots F c) (sols_of (c_key F c)) (HD c (Hincl c Hc))) as [L1 [L2 _]]; auto.
    { unfold fresh_slots. apply repeat_length. }
    { intros v Hv. apply repeat_spec in Hv. subst. apply vzero_length. }
    split; [apply R3, C; auto|]. auto. }
  exists s1, e1, s2, s3, l. split; auto. split; auto. split; auto. split; auto.
  intros c Hc. destruct (D3 c Hc) as [v [V1 [V2 V3]]].
  exists (sols_of (c_key F c)), v. auto.
Qed.

(** C15, end to end. *)
Lemma slots_end_to_end : forall c (sols : list vec),
  dims_ok F c -> solver_functions F c sols -> c_boundary F c = true ->
  let z := vzero F (c_len F c) in
  exists (Q : nat -> vec) (D N : vec),
    (forall i, i < c_n F c -> c_solve F c z (c_constrain F c (c_inner F c i)) = Some (Q i)) /\
    c_solve F c z (c_constrain F c (c_dir F c)) = Some D /\
    c_solve F c z (c_constrain F c (c_neu F c)) = Some N /\
    forall cut coarse j,
      ref_value F cut (c_mesh F c) (c_n F c) coarse sols j =
      ksub F (kadd F
        (if cut && outside (c_mesh F c) j then k0 F
         else sum_n F (c_n F c) (fun i => kmul F (nth i coarse (k0 F)) (nth j (Q i) (k0 F))))
        (nth j D (k0 F))) (nth j N (k0 F)).
Proof.
  intros c sols D HS HB z.
  destruct (solver_slots F c (fresh_slots F c) sols D) as [_ [_ [H1 H2]]]; auto.
  { unfold fresh_slots. apply repeat_length. }
  { intros v Hv. apply repeat_spec in Hv. subst. apply vzero_length. }
  rewrite HB in H2. destruct H2 as [H2 H3].
  exists (fun i => nth i sols []), (nth (S (c_n F c)) sols []), (nth (c_n F c) sols []).
  split; auto.
Qed.

(** C16. *)
Lemma interior_linear : forall c (sols0 sols : list vec),
  dims_ok F c -> length sols0 = c_n F c + 2 ->
  (forall v, In v sols0 -> length v = c_len F c) -> c_boundary F c = false ->
  solve_all_on_single_cell F c sols0 = Some sols ->
  forall cut j,
   (forall coarse, ref_value F cut (c_mesh F c) (c_n F c) coarse sols j =
     if cut && outside (c_mesh F c) j then k0 F
     else sum_n F (c_n F c) (fun i => kmul F (nth i coarse (k0 F)) (coef F sols i j))) /\
   (forall a b x y z,
     (forall i, i < c_n F c -> nth i z (k0 F) = kadd F (kmul F a (nth i x (k0 F))) (kmul F b (nth i y (k0 F)))) ->
     ref_value F cut (c_mesh F c) (c_n F c) z sols j =
     kadd F (kmul F a (ref_value F cut (c_mesh F c) (c_n F c) x sols j))
            (kmul F b (ref_value F cut (c_mesh F c) (c_n F c) y sols j))) /\
   (forall z, (forall i, i < c_n F c -> nth i z (k0 F) = k0 F) ->
     ref_value F cut (c_mesh F c) (c_n F c) z sols j = k0 F).
Proof.
  intros c sols0 sols D HL HV HB HS cut j.
  destruct (solver_slots F c sols0 sols D HL HV HS) as [_ [_ [_ H]]]. rewrite HB in H.
  destruct H as [H1 H2].
  assert (Hf : forall coarse, ref_value F cut (c_mesh F c) (c_n F c) coarse sols j =
     if cut && outside (c_mesh F c) j then k0 F
     else sum_n F (c_n F c) (fun i => kmul F (nth i coarse (k0 F)) (coef F sols i j))).
  { intros coarse. unfold ref_value.
    assert (E1 : coef F sols (S (c_n F c)) j = k0 F) by (unfold coef; rewrite H2; apply vzero_nth).
    assert (E2 : coef F sols (c_n F c) j = k0 F) by (unfold coef; rewrite H1; apply vzero_nth).
    rewrite E1, E2. ring. }
  split; auto. split.
  - intros a b x y z Hz. rewrite !Hf. destruct (cut && outside (c_mesh F c) j); [ring|].
    rewrite <- sum_n_lin. apply sum_n_ext. intros i Hi. rewrite Hz by auto. ring.
  - intros z Hz. rewrite Hf. destruct (cut && outside (c_mesh F c) j); auto.
    apply sum_n_zero. intros i Hi. rewrite Hz by auto. ring.
Qed.

End Proofs.
