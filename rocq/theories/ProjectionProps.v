(** Theorems about the projection onto the fine grid: C29-C31. *)
From Coq Require Import List Arith ZArith QArith Lia Lqa Bool Permutation.
From Verif Require Import Util ProjectionModel ProjectionSpec ProjectionProofs.
Import ListNotations.

Theorem C29_value_over_multiplicity : forall u nnodes leaf es v,
  mesh_ok nnodes leaf -> single_valued u es -> length v = nnodes ->
  exists v', project false nnodes leaf es v = Projected v' /\ length v' = nnodes /\
    forall i, (i < nnodes)%nat ->
      (In i (nodes_of es) -> nth i v' 0 * inject_Z (Z.of_nat (incidences leaf i)) == u i) /\
      (~ In i (nodes_of es) -> nth i v' 0 == 0).
Proof. exact project_set. Qed.
Print Assumptions C29_value_over_multiplicity.

Theorem C29_reproduced_iff : forall u nnodes leaf es v v',
  mesh_ok nnodes leaf -> single_valued u es -> length v = nnodes ->
  project false nnodes leaf es v = Projected v' ->
  forall i, (i < nnodes)%nat -> In i (nodes_of es) ->
    (nth i v' 0 == u i <-> incidences leaf i = 1%nat \/ u i == 0).
Proof.
  intros u nnodes leaf es v v' M S L H i Hi In_.
  destruct (project_set u nnodes leaf es v M S L) as (w & A & _ & C).
  rewrite H in A. injection A as <-. destruct (C i Hi) as (E & _). specialize (E In_).
  set (k := incidences leaf i) in *.
  assert (P : (0 < k)%nat) by (apply incidences_pos; apply M; auto).
  split.
  - intros R. destruct (Nat.eq_dec k 1) as [|N]; auto. right.
    rewrite R in E.
    assert (2 <= inject_Z (Z.of_nat k)) by (change 2 with (inject_Z 2); rewrite <- Zle_Qle; lia).
    assert (F : u i * (inject_Z (Z.of_nat k) - 1) == 0) 
      by (setoid_replace (u i * (inject_Z (Z.of_nat k) - 1))
            with (u i * inject_Z (Z.of_nat k) - u i) by ring; rewrite E; ring).
    apply Qmult_integral in F. destruct F as [F|F]; auto. lra.
  - intros [K|Z].
    + rewrite K in E. change (inject_Z (Z.of_nat 1)) with 1 in E. lra.
    + rewrite Z in E |- *. apply Qmult_integral in E. destruct E as [E|E]; auto.
      exfalso. change 0 with (inject_Z 0) in E. apply (proj1 (inject_Z_injective _ _)) in E. lia.
Qed.
Print Assumptions C29_reproduced_iff.

(** Had the writes been accumulated, the values would be reproduced at every
    node whose elements are all visited. *)
Theorem C29_accumulation_reproduces : forall u nnodes leaf es v,
  mesh_ok nnodes leaf -> single_valued u es -> length v = nnodes ->
  exists v', project true nnodes leaf es v = Projected v' /\
    forall i, (i < nnodes)%nat ->
      count_occ Nat.eq_dec (nodes_of es) i = incidences leaf i -> nth i v' 0 == u i.
Proof.
  intros u nnodes leaf es v M S L.
  destruct (project_add u nnodes leaf es v M S L) as (w & A & _ & C).
  exists w. split; auto. intros i Hi E. specialize (C i Hi). rewrite E in C.
  set (k := incidences leaf i) in *.
  assert (P : (0 < k)%nat) by (apply incidences_pos; apply M; auto).
  assert (NZ : ~ inject_Z (Z.of_nat k) == 0).
  { intros Z. change 0 with (inject_Z 0) in Z. apply (proj1 (inject_Z_injective _ _)) in Z. lia. }
  apply (Qmult_inj_r _ _ _ NZ). rewrite C. ring.
Qed.
Print Assumptions C29_accumulation_reproduces.

(** Two neighbouring segments, the constant function 1. *)
Definition ex_leaf : list (list nat) := [[0; 1]; [1; 2]]%nat.
Definition ex_es : list element := [[(0%nat, Some 1); (1%nat, Some 1)]; [(1%nat, Some 1); (2%nat, Some 1)]].

Example C29_case :
  mesh_ok 3 ex_leaf /\ single_valued (fun _ => 1) ex_es /\
  exists a b c, project false 3 ex_leaf ex_es [7; 7; 7] = Projected [a; b; c] /\
    a == 1 /\ b == 1 # 2 /\ c == 1.
Proof.
  split; [|split].
  - split.
    + intros e i [<-|[<-|[]]] I; simpl in I; lia.
    + intros i L. destruct i as [|[|[|i]]]; [exists [0;1]%nat|exists [0;1]%nat|exists [1;2]%nat|lia]; simpl; auto.
  - intros e i x [<-|[<-|[]]] I; simpl in I; destruct I as [E|[E|[]]]; injection E as <- <-;
      exists 1; split; reflexivity.
  - do 3 eexists. split; [vm_compute; reflexivity|]. repeat split; reflexivity.
Qed.

Theorem C30_order_irrelevant : forall u nnodes leaf es es' v,
  Permutation es es' -> single_valued u es ->
  (project false nnodes leaf es v = AssertionFails /\ project false nnodes leaf es' v = AssertionFails) \/
  exists r r', project false nnodes leaf es v = Projected r /\
    project false nnodes leaf es' v = Projected r' /\ veq r r'.
Proof.
  intros u nnodes leaf es es' v P. apply project_order.
  clear -P. induction P; simpl; auto.
  - now apply Permutation_app_head.
  - rewrite !app_assoc. apply Permutation_app_tail. apply Permutation_app_comm.
  - eapply Permutation_trans; eauto.
Qed.
Print Assumptions C30_order_irrelevant.

(** Threads interleave the single writes: any order [w'] of all writes gives
    the vector the sequential walk gives. *)
Theorem C30_interleaving_irrelevant : forall u es w' v,
  single_valued u es -> Permutation (concat es) w' ->
  exists r r', walk false v es = Some r /\ project_element false v w' = Some r' /\ veq r r'.
Proof.
  intros u es w' v S P. rewrite walk_concat. apply (writes_order u); auto. apply single_concat; auto.
Qed.
Print Assumptions C30_interleaving_irrelevant.

(** A point nobody finds aborts the projection in every order. *)
Theorem C30_missing_point_always_throws : forall acc nnodes leaf es v e i,
  In e es -> In (i, None) e -> project acc nnodes leaf es v = NotFound.
Proof.
  intros acc nnodes leaf es v e i E I. unfold project.
  rewrite walk_concat, (writes_fail acc _ _ i); auto. apply in_concat. eauto.
Qed.
Print Assumptions C30_missing_point_always_throws.

Example C30_case :
  Permutation ex_es (rev ex_es) /\
  project false 3 ex_leaf ex_es [7; 7; 7] = project false 3 ex_leaf (rev ex_es) [7; 7; 7].
Proof. split; [apply Permutation_rev|vm_compute; reflexivity]. Qed.

(** Without a single value per node the order matters. *)
Example C30_two_values_depend_on_order :
  let es := [[(0%nat, Some 1)]; [(0%nat, Some 2)]] in
  walk false [0] es = Some [2] /\ walk false [0] (rev es) = Some [1].
Proof. split; reflexivity. Qed.

Theorem C31_multiplicity_counts_incidences : forall nnodes leaf,
  (forall e i, In e leaf -> In i e -> (i < nnodes)%nat) ->
  exists m, identify_shared (repeat 0%nat nnodes) leaf = Some m /\ length m = nnodes /\
    forall i, (i < nnodes)%nat ->
      nth i m 0%nat = count_occ Nat.eq_dec (concat leaf) i /\
      ((0 < nth i m 0)%nat <-> exists e, In e leaf /\ In i e).
Proof.
  intros nnodes leaf H. destruct (identify_spec nnodes leaf H) as (m & A & B & C).
  exists m. repeat split; auto; rewrite C in * by auto; auto; apply incidences_pos.
Qed.
Print Assumptions C31_multiplicity_counts_incidences.

Theorem C31_assertion_iff : forall nnodes leaf v,
  length v = nnodes ->
  (postprocess nnodes leaf v = AssertionFails <->
   (exists e i, In e leaf /\ In i e /\ (nnodes <= i)%nat) \/
   (exists i, (i < nnodes)%nat /\ count_occ Nat.eq_dec (concat leaf) i = 0%nat)).
Proof. exact postprocess_assert. Qed.
Print Assumptions C31_assertion_iff.

Example C31_case :
  identify_shared (repeat 0%nat 3) ex_leaf = Some [1; 2; 1]%nat /\
  postprocess 4 ex_leaf [1; 1; 1; 1] = AssertionFails.
Proof. split; reflexivity. Qed.
