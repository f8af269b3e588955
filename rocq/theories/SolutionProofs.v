From Coq Require Import Reals List Arith Bool Lia Lra Permutation.
From Verif Require Import Util StorageModel StorageSpec MsfemModel MsfemSpec MsfemProofs
  MsfemReconProofs SpeModel BoundaryModel BoundarySpec BoundaryProofs RSum LinModel LinSpec LinProofs
  SolutionModel SolutionSpec.
Import ListNotations.

Open Scope nat_scope.
Section Add.
Variable F : Scalar.
Add Ring Fring9 : (k_ring F).
Notation vec := (vec F).

Lemma put_keys : forall id (v : vec) cs, In id (map fst cs) -> map fst (put F id v cs) = map fst cs.
Proof.
  induction cs as [|(k, w) r IH]; intros H; [destruct H|]. cbn [put].
  destruct (Nat.eqb_spec id k); cbn [map fst]; auto. f_equal. apply IH.
  destruct H as [H|H]; auto. simpl in H. congruence.
Qed.
Lemma put_same : forall id (v : vec) cs, assoc id (put F id v cs) = Some v.
Proof.
  induction cs as [|(k, w) r IH]; cbn [put assoc].
  - now rewrite Nat.eqb_refl.
  - destruct (Nat.eqb_spec id k) as [->|N]; cbn [assoc].
    + now rewrite Nat.eqb_refl.
    + destruct (Nat.eqb_spec id k); [contradiction|exact IH].
Qed.
Lemma put_other : forall id k (v : vec) cs, k <> id -> assoc k (put F id v cs) = assoc k cs.
Proof.
  intros id k v cs N. induction cs as [|(k', w) r IH]; cbn [put assoc].
  - destruct (Nat.eqb_spec k id); [contradiction|reflexivity].
  - destruct (Nat.eqb_spec id k') as [->|]; cbn [assoc].
    + destruct (Nat.eqb_spec k k'); [contradiction|reflexivity].
    + rewrite IH. reflexivity.
Qed.

Lemma add_other : forall prolong order cs k, ~ In k order ->
  assoc k (proxy_add F prolong order cs) = assoc k cs.
Proof.
  induction order as [|id r IH]; intros cs k N; [reflexivity|]. unfold proxy_add in *. cbn [fold_left].
  rewrite IH; [|intros H; apply N; now right]. apply put_other. intros ->. apply N. now left.
Qed.

Lemma add_keys : forall prolong order cs, incl order (map fst cs) ->
  map fst (proxy_add F prolong order cs) = map fst cs.
Proof.
  induction order as [|id r IH]; intros cs H; [reflexivity|]. unfold proxy_add in *. cbn [fold_left].
  assert (I : In id (map fst cs)) by (apply H; now left).
  rewrite IH; [now apply put_keys|]. rewrite put_keys by exact I. intros x X. apply H. now right.
Qed.

Lemma add_val : forall prolong order cs k v, NoDup order -> In k order -> assoc k cs = Some v ->
  assoc k (proxy_add F prolong order cs) = Some (vadd F v (prolong k)).
Proof.
  induction order as [|id r IH]; intros cs k v D I A; [destruct I|].
  inversion D as [|? ? N D']; subst. unfold proxy_add in *. cbn [fold_left].
  destruct I as [->|I].
  - pose proof (add_other prolong r (put F k (vadd F (get F k cs) (prolong k)) cs) k N) as E.
    unfold proxy_add in E. rewrite E, put_same. unfold get. now rewrite A.
  - apply IH; auto. rewrite put_other; auto. intros ->. contradiction.
Qed.

Lemma solution_values : forall debug cut ncells cs tr s0 reads cr cs' order,
  NoDup (map (c_key F) cs) -> (forall c, In c cs -> dims_ok F c) ->
  empty_store F s0 -> interleaving F cs tr ->
  NoDup (map (c_key F) cs') -> incl cs' cs ->
  (forall c, In c cs -> length (cr_local F cr (c_key F c)) = c_n F c) ->
  (forall c, In c cs -> length (cr_prolong F cr (c_key F c)) = c_len F c) ->
  cs' <> [] -> (debug = true -> length cs' = ncells) ->
  Permutation order (map (c_key F) cs') ->
  exists p, msfem_apply F debug cut ncells s0 tr reads (Some cr) cs' order = Some (Proxy p) /\
    map fst p = map (c_key F) cs' /\
    forall c, In c cs' -> exists sols v,
      solver_functions F c sols /\ assoc (c_key F c) p = Some v /\ length v = c_len F c /\
      forall j, nth j v (k0 F) =
        kadd F (ref_value F cut (c_mesh F c) (c_n F c) (cr_local F cr (c_key F c)) sols j)
               (nth j (cr_prolong F cr (c_key F c)) (k0 F)).
Proof.
  intros debug cut ncells cs tr s0 reads cr cs' order N D E T N' I L LP NE DB O.
  destruct (reconstruction F cs tr s0 reads cs' cut (cr_local F cr) N D E T N' I L)
    as (s1 & e1 & s2 & s3 & corr & H1 & H2 & H3 & K & H4).
  exists (proxy_add F (cr_prolong F cr) order corr). split; [|split].
  - unfold msfem_apply. rewrite H1, H2, H3. unfold make_proxy.
    assert (LC : length corr = length cs') by (rewrite <- (map_length fst), K; apply map_length).
    destruct corr as [|x corr']; [destruct cs'; [contradiction|discriminate]|].
    destruct debug; [|reflexivity]. rewrite LC, (DB eq_refl), Nat.eqb_refl. reflexivity.
  - rewrite add_keys; auto. intros k X. rewrite K. eapply Permutation_in; eauto.
  - intros c C. destruct (H4 c C) as (sols & v & S & A & LV & V).
    exists sols, (vadd F v (cr_prolong F cr (c_key F c))). split; [exact S|]. split; [|split].
    + apply add_val; auto.
      * apply (Permutation_NoDup (Permutation_sym O)). exact N'.
      * apply (Permutation_in _ (Permutation_sym O)). now apply in_map.
    + rewrite vadd_length; [exact LV|]. rewrite LV. symmetry. auto.
    + intros j. rewrite vadd_nth by (rewrite LV; symmetry; auto). now rewrite V.
Qed.

Lemma sum_n_0 : forall n (f : nat -> F), (forall i, i < n -> f i = k0 F) -> sum_n F n f = k0 F.
Proof. induction n; intros f H; simpl; auto. rewrite IHn, H by auto. ring. Qed.

(** At constrained nodes all functions of the cell vanish. *)
Lemma constrained_functions : forall c con sols, dims_ok F c ->
  unit_rows F c con -> zero_entries F c con -> solver_functions F c sols ->
  forall i j, i < c_n F c + 2 -> con j = true -> coef F sols i j = k0 F.
Proof.
  intros c con sols D U Z HS i j L C.
  destruct (solver_slots F c (fresh_slots F c) sols D) as (_ & _ & H1 & H2).
  { unfold fresh_slots. apply repeat_length. }
  { intros v Hv. apply repeat_spec in Hv. subst. apply vzero_length. }
  { exact HS. }
  assert (G : forall s v x, c_solve F c s (c_constrain F c v) = Some x -> nth j x (k0 F) = k0 F).
  { intros s v x X. rewrite (U _ _ _ X j C). apply Z, C. }
  unfold coef. destruct (Nat.lt_ge_cases i (c_n F c)) as [Li|Li].
  - exact (G _ _ _ (H1 i Li)).
  - assert (i = c_n F c \/ i = S (c_n F c)) as [->| ->] by lia; destruct (c_boundary F c), H2 as (A & B).
    + exact (G _ _ _ A).
    + rewrite A. apply vzero_nth.
    + exact (G _ _ _ B).
    + rewrite B. apply vzero_nth.
Qed.

Lemma ref_constrained : forall c con sols, dims_ok F c ->
  unit_rows F c con -> zero_entries F c con -> solver_functions F c sols ->
  forall cut mesh coarse j, con j = true -> ref_value F cut mesh (c_n F c) coarse sols j = k0 F.
Proof.
  intros c con sols D U Z HS cut mesh coarse j C.
  pose proof (fun i L => constrained_functions c con sols D U Z HS i j L C) as G.
  unfold ref_value. rewrite (G (S (c_n F c))), (G (c_n F c)) by lia.
  rewrite sum_n_0.
  - destruct (cut && outside mesh j); ring.
  - intros i L. rewrite G by lia. ring.
Qed.
End Add.

Open Scope R_scope.

(** ** Functions that vanish on the constrained nodes are cancelled. *)
Lemma cancelled : forall d qs rs n con phi x,
  unique n con (stiffness d qs) -> vanishes n con phi ->
  same_products d qs rs n con (field_of n phi) ->
  corrector d qs rs n con (field_of n phi) x ->
  (forall i, (i < n)%nat -> x i = - phi i) /\
  (forall q k, plus (field_of n phi) (field_of n x) q k = 0).
Proof.
  intros d qs rs n con phi x U V SP H. apply corrector_orthogonal_same in H; [|exact SP].
  rewrite <- (corrector_orthogonal_same d qs qs n con) in H by (intros y _; reflexivity).
  apply corrector_eqs in H. destruct H as (VX & EQ).
  assert (A : forall i, (i < n)%nat -> x i = - phi i).
  { intros i L. enough (x i + phi i = 0) by lra.
    apply (U (fun i => x i + phi i)); auto. intros m Lm. destruct (con m) eqn:C.
    - rewrite VX, V by auto. lra.
    - specialize (EQ m Lm C).
      change (mv n (stiffness d qs) (fun i => x i + phi i) m = 0). rewrite mv_plus, !stiffness_field. exact EQ. }
  split; auto. intros q k. unfold plus, field_of. rewrite <- rsum_plus. apply rsum_0.
  intros i L. rewrite A by auto. ring.
Qed.

(** ** Corner functions. *)
Lemma corner_side : forall b ns js i up, length b = length ns -> length js = length ns ->
  (i < length ns)%nat -> (1 <= nth i ns 0)%nat -> on_side ns js i up -> nth i b false = negb up ->
  corner_function b ns js = 0.
Proof.
  induction b as [|u b IH]; intros [|n ns] [|j js] i up LB LJ L P S N; simpl in LB, LJ, L; try lia.
  cbn [corner_function]. destruct i as [|i].
  - unfold on_side in S. cbn [nth] in *. subst u j. destruct up; cbn [negb].
    + unfold Rdiv. rewrite Rinv_r; [ring|]. apply not_0_INR. lia.
    + simpl. unfold Rdiv. ring.
  - rewrite (IH ns js i up); [ring|lia|lia|lia|exact P|exact S|exact N].
Qed.

(** ** Solver functions of an exact cell. *)
Lemma exact_correctors : forall c d qs rs con field sols, dims_ok RS c ->
  exact_cell c d qs rs con field -> solver_functions RS c sols ->
  forall k, (k < c_n RS c)%nat -> corrector d qs rs (c_len RS c) con (field k) (fun i => coef RS sols k i).
Proof.
  intros c d qs rs con field sols D (E1 & E2 & E3) HS k L.
  destruct (solver_slots RS c (fresh_slots RS c) sols D) as (_ & _ & H1 & _).
  { unfold fresh_slots. apply repeat_length. }
  { intros v Hv. apply repeat_spec in Hv. subst. apply vzero_length. }
  { exact HS. }
  unfold corrector, local_problem. specialize (E3 _ _ _ (H1 k L)).
  intros i Li. specialize (E3 i Li). etransitivity; [exact E3|].
  unfold entries. rewrite E1 by exact Li. unfold constrain_vector. destruct (con i); auto.
  unfold entries. apply E2; auto.
Qed.

Definition cell_value (n : nat) (corner : nat -> list bool) (ns : list nat) (node : nat -> list nat)
    (mesh : list (list (nat * bool))) (sols : list (vec RS)) (u : list R) (j : nat) : R :=
  ref_value RS false mesh n u sols j +
  rsum n (fun m => nth m u 0 * corner_function (corner m) ns (node j)).

Lemma sum_n_rsum : forall n (f : nat -> R), sum_n RS n f = rsum n f.
Proof.
  induction n; intros f; [reflexivity|]. simpl. now rewrite IHn.
Qed.

Lemma values_ignored : forall p ns own k up c d qs rs node corner sols u u' mesh j,
  (p = PSpe10 /\ up = true \/ p = PTarbert /\ up = Nat.eqb (length ns) 3) ->
  (2 <= length ns <= 3)%nat -> sub_boundary_info p (length ns) none own = Some k ->
  (forall i, (i < length ns)%nat -> (1 <= nth i ns 0)%nat) ->
  (forall i, (i < c_len RS c)%nat -> is_node ns (node i)) ->
  (forall m, (m < c_n RS c)%nat -> length (corner m) = length ns) ->
  dims_ok RS c ->
  exact_cell c d qs rs (fun i => constrained_node k ns (node i))
    (fun m => field_of (c_len RS c) (fun i => corner_function (corner m) ns (node i))) ->
  unique (c_len RS c) (fun i => constrained_node k ns (node i)) (stiffness d qs) ->
  (forall m, (m < c_n RS c)%nat ->
     same_products d qs rs (c_len RS c) (fun i => constrained_node k ns (node i))
       (field_of (c_len RS c) (fun i => corner_function (corner m) ns (node i)))) ->
  solver_functions RS c sols ->
  (forall m, (m < c_n RS c)%nat -> nth 1 (corner m) false = up -> nth m u 0 = nth m u' 0) ->
  (j < c_len RS c)%nat ->
  cell_value (c_n RS c) corner ns node mesh sols u j = cell_value (c_n RS c) corner ns node mesh sols u' j.
Proof.
  intros p ns own k up c d qs rs node corner sols u u' mesh j PU DI SB N1 ND LC D EX U SP HS A Lj.
  assert (G : forall w, cell_value (c_n RS c) corner ns node mesh sols w j =
    rsum (c_n RS c) (fun m => nth m w 0 * (coef RS sols m j + corner_function (corner m) ns (node j)))
    + coef RS sols (S (c_n RS c)) j - coef RS sols (c_n RS c) j).
  { intros w. unfold cell_value, ref_value. cbn [andb]. rewrite sum_n_rsum. cbn [kadd ksub kmul RS k0].
    rewrite (rsum_ext (c_n RS c) (fun m => nth m w 0 * (coef RS sols m j + corner_function (corner m) ns (node j)))
      (fun m => nth m w 0 * coef RS sols m j + nth m w 0 * corner_function (corner m) ns (node j)))
      by (intros; ring).
    rewrite rsum_plus. cbn [K RS] in *. ring. }
  rewrite !G. f_equal. f_equal. apply rsum_ext. intros m Lm.
  destruct (Bool.bool_dec (nth 1 (corner m) false) up) as [Q|Q].
  - rewrite A by auto. reflexivity.
  - assert (V : vanishes (c_len RS c) (fun i => constrained_node k ns (node i))
                 (fun i => corner_function (corner m) ns (node i))).
    { intros i Li C. apply (corner_side _ _ _ 1 up).
      - auto.
      - apply (ND i Li).
      - lia.
      - apply N1; lia.
      - destruct PU as [(-> & ->)|(-> & ->)].
        + apply (local_spe10 own k); auto.
        + apply (local_tarbert own k); auto.
      - destruct (nth 1 (corner m) false), up; auto; congruence. }
    destruct (cancelled d qs rs _ _ _ _ U V (SP m Lm) (exact_correctors c d qs rs _ _ sols D EX HS m Lm)) as (X & _).
    specialize (X j Lj). cbn beta in X. rewrite X. ring.
Qed.

(** At a node where one of the ignored corners contributes, some coarse values
    give a cell value different from the coarse function. *)
Lemma free_side_disagrees : forall p ns own k up c d qs rs node corner sols mesh j m,
  (p = PSpe10 /\ up = true \/ p = PTarbert /\ up = Nat.eqb (length ns) 3) ->
  (2 <= length ns <= 3)%nat -> sub_boundary_info p (length ns) none own = Some k ->
  (forall i, (i < length ns)%nat -> (1 <= nth i ns 0)%nat) ->
  (forall i, (i < c_len RS c)%nat -> is_node ns (node i)) ->
  (forall m, (m < c_n RS c)%nat -> length (corner m) = length ns) ->
  dims_ok RS c ->
  exact_cell c d qs rs (fun i => constrained_node k ns (node i))
    (fun m => field_of (c_len RS c) (fun i => corner_function (corner m) ns (node i))) ->
  unique (c_len RS c) (fun i => constrained_node k ns (node i)) (stiffness d qs) ->
  (forall m, (m < c_n RS c)%nat ->
     same_products d qs rs (c_len RS c) (fun i => constrained_node k ns (node i))
       (field_of (c_len RS c) (fun i => corner_function (corner m) ns (node i)))) ->
  solver_functions RS c sols ->
  (j < c_len RS c)%nat -> (m < c_n RS c)%nat -> nth 1 (corner m) false = negb up ->
  corner_function (corner m) ns (node j) <> 0 ->
  exists u, length u = c_n RS c /\
    cell_value (c_n RS c) corner ns node mesh sols u j <>
    rsum (c_n RS c) (fun m => nth m u 0 * corner_function (corner m) ns (node j)).
Proof.
  intros p ns own k up c d qs rs node corner sols mesh j m PU DI SB N1 ND LC D EX U SP HS Lj Lm CM NZ.
  set (n := c_n RS c) in *.
  set (z := repeat 0 n). set (e := upd z m 1).
  assert (Z : forall i, nth i z 0 = 0).
  { intros i. unfold z. clear. revert i. induction n; destruct i; simpl; auto. }
  assert (EQ : cell_value n corner ns node mesh sols z j = cell_value n corner ns node mesh sols e j).
  { apply (values_ignored p ns own k up c d qs rs node corner sols z e mesh j); auto.
    intros i Li CI. unfold e. rewrite nth_upd_neq; auto. intros ->. rewrite CM in CI. destruct up; discriminate. }
  assert (V0 : rsum n (fun m => nth m z 0 * corner_function (corner m) ns (node j)) = 0).
  { apply rsum_0. intros i Li. rewrite Z. ring. }
  assert (V1 : rsum n (fun m => nth m e 0 * corner_function (corner m) ns (node j)) =
               corner_function (corner m) ns (node j)).
  { rewrite (rsum_single n m).
    - unfold e. rewrite nth_upd_eq; [ring|]. unfold z. now rewrite repeat_length.
    - exact Lm.
    - intros i Li Ni. unfold e. rewrite nth_upd_neq by auto. rewrite Z. ring. }
  destruct (Req_dec (cell_value n corner ns node mesh sols z j) 0) as [Q|Q].
  - exists e. split; [unfold e, z; rewrite upd_length; apply repeat_length|]. rewrite <- EQ, V1, Q. auto.
  - exists z. split; [unfold z; apply repeat_length|]. rewrite V0. exact Q.
Qed.
