(** Properties C79-C81: the function the multiscale solver hands out. *)
From Coq Require Import Reals List Arith ZArith Bool Lia Lra Permutation.
From Verif Require Import Util StorageModel StorageSpec StorageProps MsfemModel MsfemSpec MsfemProofs MsfemProps
  SpeModel BoundaryModel BoundarySpec BoundaryProofs RSum LinModel LinSpec LinProofs
  CoarseModel CoarseSpec CoarseProps SolutionModel SolutionSpec SolutionProofs.
Import ListNotations.
Open Scope nat_scope.

(** C79. *)
Theorem C79_solution_is_coarse_plus_correction : forall F debug cut ncells cs tr s0 reads cr cs' order,
  NoDup (map (c_key F) cs) -> (forall c, In c cs -> dims_ok F c) ->
  empty_store F s0 -> interleaving F cs tr ->
  NoDup (map (c_key F) cs') -> incl cs' cs ->
  (forall c, In c cs -> length (cr_local F cr (c_key F c)) = c_n F c) ->
  (forall c, In c cs -> length (cr_prolong F cr (c_key F c)) = c_len F c) ->
  cs' <> [] -> (debug = true -> length cs' = ncells) ->
  Permutation order (map (c_key F) cs') ->
  exists p, msfem_apply F debug cut ncells s0 tr reads (Some cr) cs' order = Some (Proxy p) /\
    map fst p = map (c_key F) cs' /\
    forall c, In c cs' -> exists sols v,
      solver_functions F c sols /\ assoc (c_key F c) p = Some v /\ length v = c_len F c /\
      forall j, nth j v (k0 F) =
        kadd F (ref_value F cut (c_mesh F c) (c_n F c) (cr_local F cr (c_key F c)) sols j)
               (nth j (cr_prolong F cr (c_key F c)) (k0 F)).
Proof. exact solution_values. Qed.
Print Assumptions C79_solution_is_coarse_plus_correction.

(** A rank without cells: undefined behaviour; a rank whose grid has cells it
    does not reconstruct (overlap): assertion in debug builds. *)
Theorem C79_ranks_without_or_with_foreign_cells : forall F debug cut ncells cs tr s0 reads cr cs' order,
  NoDup (map (c_key F) cs) -> (forall c, In c cs -> dims_ok F c) ->
  empty_store F s0 -> interleaving F cs tr ->
  NoDup (map (c_key F) cs') -> incl cs' cs ->
  (forall c, In c cs -> length (cr_local F cr (c_key F c)) = c_n F c) ->
  (cs' = [] -> msfem_apply F debug cut ncells s0 tr reads (Some cr) cs' order = Some Undefined) /\
  (cs' <> [] -> length cs' <> ncells ->
   msfem_apply F true cut ncells s0 tr reads (Some cr) cs' order = Some AssertFails).
Proof.
  intros F debug cut ncells cs tr s0 reads cr cs' order N D E T N' I L.
  destruct (MsfemReconProofs.reconstruction F cs tr s0 reads cs' cut (cr_local F cr) N D E T N' I L)
    as (s1 & e1 & s2 & s3 & corr & H1 & H2 & H3 & K & _).
  assert (LC : length corr = length cs') by (rewrite <- (map_length fst), K; apply map_length).
  unfold msfem_apply. rewrite H1, H2, H3. unfold make_proxy. split.
  - intros ->. destruct corr; [reflexivity|discriminate].
  - intros NE NL. destruct corr; [destruct cs'; [contradiction|discriminate]|].
    rewrite LC. destruct (Nat.eqb_spec (length cs') ncells); [contradiction|]. reflexivity.
Qed.
Print Assumptions C79_ranks_without_or_with_foreign_cells.

Example C79_case :
  msfem_apply ZS true true 2 (init ZS) ex_trace []
    (Some (Build_coarse_result ZS (fun _ => [10; 100]%Z) (fun k => [1; 2; Z.of_nat k]%Z)))
    [ex_cell 4 true; ex_cell 1 false] [1; 4] =
  Some (@Proxy ZS [(4, [1; 208; 2]%Z); (1, [1; 202; 1]%Z)]).
Proof. vm_compute. reflexivity. Qed.

(** C80. At constrained nodes the solution is the coarse function. *)
Theorem C80_constrained_nodes_show_the_coarse_function :
  forall F debug cut ncells cs tr s0 reads cr cs' order con p,
  NoDup (map (c_key F) cs) -> (forall c, In c cs -> dims_ok F c) ->
  empty_store F s0 -> interleaving F cs tr ->
  NoDup (map (c_key F) cs') -> incl cs' cs ->
  (forall c, In c cs -> length (cr_local F cr (c_key F c)) = c_n F c) ->
  (forall c, In c cs -> length (cr_prolong F cr (c_key F c)) = c_len F c) ->
  Permutation order (map (c_key F) cs') ->
  (forall c, In c cs -> unit_rows F c (con (c_key F c)) /\ zero_entries F c (con (c_key F c))) ->
  msfem_apply F debug cut ncells s0 tr reads (Some cr) cs' order = Some (Proxy p) ->
  forall c j, In c cs' -> con (c_key F c) j = true ->
    exists v, assoc (c_key F c) p = Some v /\
      nth j v (k0 F) = nth j (cr_prolong F cr (c_key F c)) (k0 F).
Proof.
  intros F debug cut ncells cs tr s0 reads cr cs' order con p N D E T N' I L LP O C H c j Hc Hj.
  assert (NE : cs' <> []) by (intros ->; destruct Hc).
  assert (DB : debug = true -> length cs' = ncells).
  { intros ->. destruct (Nat.eq_dec (length cs') ncells) as [|X]; auto.
    destruct (C79_ranks_without_or_with_foreign_cells F true cut ncells cs tr s0 reads cr cs' order
                N D E T N' I L) as (_ & Q).
    rewrite (Q NE X) in H. discriminate. }
  destruct (solution_values F debug cut ncells cs tr s0 reads cr cs' order N D E T N' I L LP NE DB O)
    as (p' & A & _ & V). rewrite A in H. injection H as <-.
  destruct (V c Hc) as (sols & v & S1 & S2 & _ & S4).
  exists v. split; auto. rewrite S4. destruct (C c (I c Hc)) as (U & Z).
  rewrite (ref_constrained F c (con (c_key F c)) sols (D c (I c Hc)) U Z S1) by exact Hj.
  apply (Radd_0_l (k_ring F)).
Qed.
Print Assumptions C80_constrained_nodes_show_the_coarse_function.

(** Problems whose local grids are constrained all around: two cells agree at
    every point that is a boundary node of both local grids.  [pos]: positions
    of nodes; [u]: the coarse function. *)
Theorem C80_neighbouring_cells_agree :
  forall (F : Scalar) pb dim global own k debug cut ncells cs tr s0 reads cr cs' order p
         (ns : nat -> list nat) (node : nat -> nat -> list nat) (X : Type) (pos : nat -> nat -> X) (u : X -> F),
  (pb = PSynthetic \/ pb = PRandom \/ pb = PEr2007) -> sub_boundary_info pb dim global own = Some k ->
  NoDup (map (c_key F) cs) -> (forall c, In c cs -> dims_ok F c) ->
  empty_store F s0 -> interleaving F cs tr ->
  NoDup (map (c_key F) cs') -> incl cs' cs ->
  (forall c, In c cs -> length (cr_local F cr (c_key F c)) = c_n F c) ->
  (forall c, In c cs -> length (cr_prolong F cr (c_key F c)) = c_len F c) ->
  (forall c j, In c cs -> j < c_len F c ->
     nth j (cr_prolong F cr (c_key F c)) (k0 F) = u (pos (c_key F c) j)) ->
  Permutation order (map (c_key F) cs') ->
  (forall c, In c cs ->
     let con := fun j => constrained_node k (ns (c_key F c)) (node (c_key F c) j) in
     unit_rows F c con /\ zero_entries F c con) ->
  msfem_apply F debug cut ncells s0 tr reads (Some cr) cs' order = Some (Proxy p) ->
  forall c1 c2 j1 j2, In c1 cs' -> In c2 cs' -> j1 < c_len F c1 -> j2 < c_len F c2 ->
    on_boundary (ns (c_key F c1)) (node (c_key F c1) j1) ->
    on_boundary (ns (c_key F c2)) (node (c_key F c2) j2) ->
    pos (c_key F c1) j1 = pos (c_key F c2) j2 ->
    exists v1 v2, assoc (c_key F c1) p = Some v1 /\ assoc (c_key F c2) p = Some v2 /\
      nth j1 v1 (k0 F) = nth j2 v2 (k0 F) /\ nth j1 v1 (k0 F) = u (pos (c_key F c1) j1).
Proof.
  intros F pb dim global own k debug cut ncells cs tr s0 reads cr cs' order p ns node X pos u
    PB SB N D E T N' I L LP PR O C H c1 c2 j1 j2 H1 H2 L1 L2 B1 B2 EQ.
  set (con := fun key j => constrained_node k (ns key) (node key j)).
  pose proof (C80_constrained_nodes_show_the_coarse_function F debug cut ncells cs tr s0 reads cr cs' order
     con p N D E T N' I L LP O C H) as G.
  destruct (G c1 j1 H1) as (v1 & A1 & V1).
  { apply (proj2 (local_all pb dim global own k _ _ PB SB)). exact B1. }
  destruct (G c2 j2 H2) as (v2 & A2 & V2).
  { apply (proj2 (local_all pb dim global own k _ _ PB SB)). exact B2. }
  exists v1, v2. split; auto. split; auto. rewrite V1, V2, !PR by auto. rewrite EQ. auto.
Qed.
Print Assumptions C80_neighbouring_cells_agree.

(** Non-trivial case: the cells of MsfemProps constrain their node 0, the "solver"
    doubles right hand sides, so only zero entries are unit rows. *)
Definition side_cell (k : nat) : cell ZS :=
  Build_cell ZS k 2 3 true (fun i => map Z.of_nat [k; i; k + i]) [1; 2; 4]%Z [7; 5; 3]%Z
    (fun v => map (fun i => if (i =? 0) || (i =? 2) then 0%Z else nth i v 0%Z) (seq 0 3))
    (fun s r => match r with
                | [a; b; c] => Some [a; (2 * b + a)%Z; c]
                | _ => None end)
    [].
Lemma side_dims : forall k, dims_ok ZS (side_cell k).
Proof.
  intros k. split; [reflexivity|]. split; [reflexivity|]. split; [reflexivity|]. split.
  - reflexivity.
  - intros s r x _ _ E. cbn [c_solve side_cell] in E. destruct r as [|a [|b [|c [|]]]]; inversion E. reflexivity.
Qed.
Definition side_prog (k : nat) : list (nat * instr ZS) :=
  match cell_prog ZS (side_cell k) with Some p => map (pair k) p | None => [] end.
(** Cell 1 occupies nodes at positions 0,1,2 and cell 4 at positions 2,3,4 of a
    line; the coarse function is 10 x. *)
Example C80_case :
  interleaving ZS [side_cell 1; side_cell 4] (zip_merge (side_prog 1) (side_prog 4)) /\
  (exists k, sub_boundary_info PSynthetic 1 none none = Some k /\ forall key,
     let con := fun j => constrained_node k [2] [j] in
     unit_rows ZS (side_cell key) con /\ zero_entries ZS (side_cell key) con) /\
  exists v1 v4,
  msfem_apply ZS true false 2 (init ZS) (zip_merge (side_prog 1) (side_prog 4)) []
    (Some (Build_coarse_result ZS (fun _ => [3; 5]%Z)
             (fun k => if k =? 1 then [0; 10; 20]%Z else [20; 30; 40]%Z)))
    [side_cell 1; side_cell 4] [4; 1] = Some (@Proxy ZS [(1, v1); (4, v4)]) /\
  nth 2 v1 0%Z = 20%Z /\ nth 0 v4 0%Z = 20%Z /\ nth 1 v1 0%Z <> 10%Z.
Proof.
  split; [|split].
  - split.
    + intros c [<-|[<-|[]]]; vm_compute; reflexivity.
    + intros k Hk. simpl in Hk. unfold proj.
      set (t := zip_merge (side_prog 1) (side_prog 4)).
      assert (H : forall e, In e t -> fst e = 1 \/ fst e = 4).
      { vm_compute. intros e H. repeat (destruct H as [<-|H]; [simpl; auto|]). destruct H. }
      replace (filter _ _) with (@nil (nat * instr ZS)); auto. symmetry.
      revert H. generalize t. induction t0 as [|x l IH]; intros H; simpl; auto.
      rewrite IH by (intros; apply H; now right).
      destruct (Nat.eqb_spec (fst x) k) as [E|]; auto.
      destruct (H x (or_introl eq_refl)); exfalso; apply Hk; lia.
  - eexists. split; [reflexivity|]. intros key con. unfold con.
    assert (C : forall j, constrained_node all_dirichlet [2] [j] = true -> j = 0 \/ j = 2).
    { intros j. unfold constrained_node. cbn -[Nat.eqb]. unfold on_face, fc. cbn -[Nat.eqb].
      destruct (Nat.eqb_spec j 0); auto. destruct (Nat.eqb_spec j 2); auto. discriminate. }
    split.
    + intros s r x E j Hj. cbn [c_solve side_cell] in E.
      destruct r as [|a [|b [|c [|]]]]; inversion E; subst.
      destruct (C j Hj) as [->| ->]; reflexivity.
    + intros v j Hj. destruct (C j Hj) as [->| ->]; reflexivity.
  - eexists; eexists. split; [vm_compute; reflexivity|]. split; [reflexivity|]. split; [reflexivity|].
    discriminate.
Qed.

Open Scope R_scope.

(** C81. *)
Theorem C81_functions_vanishing_on_constrained_nodes_are_cancelled : forall d qs rs n con phi x,
  unique n con (stiffness d qs) -> vanishes n con phi ->
  same_products d qs rs n con (field_of n phi) ->
  corrector d qs rs n con (field_of n phi) x ->
  (forall i, (i < n)%nat -> x i = - phi i) /\
  (forall q k, plus (field_of n phi) (field_of n x) q k = 0).
Proof. exact cancelled. Qed.
Print Assumptions C81_functions_vanishing_on_constrained_nodes_are_cancelled.

(** SPE10 and Tarbert without oversampling (the local grid is the coarse cell):
    the solution inside a cell does not depend on the coarse values at the
    corners away from the constrained side. *)
Theorem C81_coarse_values_without_effect : forall p ns own k up c d qs rs node corner sols u u' mesh j,
  (p = PSpe10 /\ up = true \/ p = PTarbert /\ up = Nat.eqb (length ns) 3) ->
  (2 <= length ns <= 3)%nat -> sub_boundary_info p (length ns) none own = Some k ->
  (forall i, (i < length ns)%nat -> (1 <= nth i ns 0)%nat) ->
  (forall i, (i < c_len RS c)%nat -> is_node ns (node i)) ->
  (forall m, (m < c_n RS c)%nat -> length (corner m) = length ns) ->
  dims_ok RS c ->
  exact_cell c d qs rs (fun i => constrained_node k ns (node i))
    (fun m => field_of (c_len RS c) (fun i => corner_function (corner m) ns (node i))) ->
  unique (c_len RS c) (fun i => constrained_node k ns (node i)) (stiffness d qs) ->
  (forall m, (m < c_n RS c)%nat ->
     same_products d qs rs (c_len RS c) (fun i => constrained_node k ns (node i))
       (field_of (c_len RS c) (fun i => corner_function (corner m) ns (node i)))) ->
  solver_functions RS c sols ->
  (forall m, (m < c_n RS c)%nat -> nth 1 (corner m) false = up -> nth m u 0 = nth m u' 0) ->
  (j < c_len RS c)%nat ->
  ref_value RS false mesh (c_n RS c) u sols j +
    rsum (c_n RS c) (fun m => nth m u 0 * corner_function (corner m) ns (node j)) =
  ref_value RS false mesh (c_n RS c) u' sols j +
    rsum (c_n RS c) (fun m => nth m u' 0 * corner_function (corner m) ns (node j)).
Proof. exact values_ignored. Qed.
Print Assumptions C81_coarse_values_without_effect.

(** So on the side opposite to the constrained one it is not the coarse
    function, which is what the neighbouring cell shows there (C80). *)
Theorem C81_solution_jumps_between_cells : forall p ns own k up c d qs rs node corner sols mesh j m,
  (p = PSpe10 /\ up = true \/ p = PTarbert /\ up = Nat.eqb (length ns) 3) ->
  (2 <= length ns <= 3)%nat -> sub_boundary_info p (length ns) none own = Some k ->
  (forall i, (i < length ns)%nat -> (1 <= nth i ns 0)%nat) ->
  (forall i, (i < c_len RS c)%nat -> is_node ns (node i)) ->
  (forall m, (m < c_n RS c)%nat -> length (corner m) = length ns) ->
  dims_ok RS c ->
  exact_cell c d qs rs (fun i => constrained_node k ns (node i))
    (fun m => field_of (c_len RS c) (fun i => corner_function (corner m) ns (node i))) ->
  unique (c_len RS c) (fun i => constrained_node k ns (node i)) (stiffness d qs) ->
  (forall m, (m < c_n RS c)%nat ->
     same_products d qs rs (c_len RS c) (fun i => constrained_node k ns (node i))
       (field_of (c_len RS c) (fun i => corner_function (corner m) ns (node i)))) ->
  solver_functions RS c sols ->
  (j < c_len RS c)%nat -> (m < c_n RS c)%nat -> nth 1 (corner m) false = negb up ->
  corner_function (corner m) ns (node j) <> 0 ->
  exists u, length u = c_n RS c /\
    ref_value RS false mesh (c_n RS c) u sols j +
      rsum (c_n RS c) (fun m => nth m u 0 * corner_function (corner m) ns (node j)) <>
    rsum (c_n RS c) (fun m => nth m u 0 * corner_function (corner m) ns (node j)).
Proof. exact free_side_disagrees. Qed.
Print Assumptions C81_solution_jumps_between_cells.

(** A coarse unknown all of whose corrected gradients vanish makes the coarse
    system singular unless it carries a prescribed value. *)
Theorem C81_coarse_system_singular : forall d P diffusion cs M N con a,
  assemble_matrix d P diffusion (fun _ _ => 0) cs = Some M ->
  (forall c i l q k, In c cs -> (i < cc_n P c)%nat -> cc_index P c i = a -> In l (cc_locals P c) ->
     lc_covered P l = true -> In q (lc_quad P l) -> (k < d)%nat ->
     cc_grad P c i (fst q) k + lc_grad P l i (fst q) k = 0) ->
  (forall b, M a b = 0 /\ M b a = 0) /\
  ((a < N)%nat -> con a = false -> ~ unique N con M).
Proof.
  intros d P diffusion cs M N con a H Z.
  assert (Q : forall c i j l, In c cs -> (i < cc_n P c)%nat -> cc_index P c i = a ->
     In l (covered P c) ->
     CoarseSpec.energy d P diffusion l (used_grad P c l j) (used_grad P c l i) = 0 /\
     CoarseSpec.energy d P diffusion l (used_grad P c l i) (used_grad P c l j) = 0).
  { intros c i j l Ic Li Ei Il. apply filter_In in Il. destruct Il as (Il & Cl).
    assert (G : forall q, In q (lc_quad P l) -> forall k, (k < d)%nat -> used_grad P c l i (fst q) k = 0)
      by (intros q Iq k Lk; apply (Z c i l q k); auto).
    split; apply lsum_0; intros q Iq.
    - unfold dot. rewrite rsum_0; [ring|]. intros k Lk. rewrite (G q Iq k Lk). ring.
    - unfold dot. rewrite rsum_0; [ring|]. intros k Lk. unfold mv. rewrite rsum_0; [ring|].
      intros m Lm. rewrite (G q Iq m Lm). ring. }
  assert (E : forall b, M a b = 0 /\ M b a = 0).
  { intros b. rewrite !(C44_global_matrix d P diffusion cs M H). split.
    - apply lsum_0. intros c Ic. apply rsum_0. intros i Li. apply rsum_0. intros j Lj.
      unfold hit at 1. destruct (Nat.eqb_spec (cc_index P c i) a) as [Ei|]; [|ring].
      rewrite lsum_0; [ring|]. intros l Il. apply (Q c i j l); auto.
    - apply lsum_0. intros c Ic. apply rsum_0. intros i Li. apply rsum_0. intros j Lj.
      unfold hit at 2. destruct (Nat.eqb_spec (cc_index P c j) a) as [Ei|]; [|ring].
      rewrite lsum_0; [ring|]. intros l Il. apply (Q c j i l); auto. }
  split; auto. intros La Ca U.
  specialize (U (fun i => if Nat.eqb i a then 1 else 0)).
  assert (X : solves_bvp N con M (fun _ => 0) (fun _ => 0) (fun i => if Nat.eqb i a then 1 else 0)).
  { intros i Li. destruct (con i) eqn:Ci.
    - destruct (Nat.eqb_spec i a); [congruence|reflexivity].
    - apply rsum_0. intros j Lj. destruct (Nat.eqb_spec j a) as [->|]; [|ring].
      rewrite (proj2 (E i)). ring. }
  specialize (U X a La). cbn beta in U. rewrite Nat.eqb_refl in U. lra.
Qed.
Print Assumptions C81_coarse_system_singular.

(** Concrete case: SPE10, the local grid is one square cell, midpoint rule,
    identity diffusion.  Nodes and corners in the order (0,0),(1,0),(0,1),(1,1). *)
Definition sq_node (i : nat) : list nat :=
  match i with 0 => [0; 0] | 1 => [1; 0] | 2 => [0; 1] | _ => [1; 1] end%nat.
Definition sq_corner (m : nat) : list bool :=
  match m with 0 => [false; false] | 1 => [true; false] | 2 => [false; true] | _ => [true; true] end%nat.
Definition sq_grad (i k : nat) : R :=
  match i, k with
  | O, _ => -1/2 | S O, O => 1/2 | S O, _ => -1/2 | S (S O), O => -1/2 | S (S O), _ => 1/2 | _, _ => 1/2
  end.
Definition sq_q : list qpoint :=
  [{| q_w := 1; q_A := fun i j => if Nat.eqb i j then 1 else 0; q_grad := sq_grad |}].
Definition sq_con (i : nat) : bool :=
  constrained_node (normal_based {| st_default := Neumann; st_dirichlet := [fc 1 true]; st_neumann := [] |})
    [1; 1]%nat (sq_node i).
Definition sq_field (m : nat) : qpoint -> nat -> R :=
  field_of 4 (fun i => corner_function (sq_corner m) [1; 1]%nat (sq_node i)).
Definition sq_cell : cell RS :=
  Build_cell RS 0 4 4 false (fun k => map (local_rhs 2 sq_q (sq_field k)) (seq 0 4))
    [0; 0; 0; 0] [0; 0; 0; 0]
    (fun v => map (constrain_vector sq_con (entries v)) (seq 0 4))
    (fun s r => Some [2 * nth 0 r 0 + nth 3 r 0; 2 * nth 1 r 0 + nth 2 r 0; nth 2 r 0; nth 3 r 0])
    [].

Lemma sq_dims : dims_ok RS sq_cell.
Proof.
  repeat split; try reflexivity. intros s r x _ _ E. cbn [c_solve sq_cell] in E. inversion E. reflexivity.
Qed.

Lemma sq_con_val : sq_con 0 = false /\ sq_con 1 = false /\ sq_con 2 = true /\ sq_con 3 = true.
Proof. repeat split; reflexivity. Qed.

Lemma sq_exact : exact_cell sq_cell 2 sq_q sq_q sq_con sq_field.
Proof.
  split; [|split].
  - intros v i L. cbn [c_len sq_cell] in L.
    destruct i as [|[|[|[|i]]]]; [reflexivity..|lia].
  - intros k i Lk Li. cbn [c_len c_n sq_cell] in Li, Lk.
    destruct i as [|[|[|[|i]]]]; [reflexivity..|lia].
  - intros s r x E i L. cbn [c_solve sq_cell] in E. injection E as <-. cbn [c_len sq_cell] in *.
    destruct i as [|[|[|[|i]]]]; [..|lia];
    unfold mv, constrain_matrix, stiffness, entries, sq_q, dot, mv; cbn -[sq_con];
    destruct sq_con_val as (C0 & C1 & C2 & C3); rewrite ?C0, ?C1, ?C2, ?C3; cbn; lra.
Qed.

Lemma sq_unique : unique 4 sq_con (stiffness 2 sq_q).
Proof.
  intros u H. destruct sq_con_val as (C0 & C1 & C2 & C3).
  pose proof (H 0%nat ltac:(lia)) as H0. pose proof (H 1%nat ltac:(lia)) as H1.
  pose proof (H 2%nat ltac:(lia)) as H2. pose proof (H 3%nat ltac:(lia)) as H3.
  rewrite C0 in H0. rewrite C1 in H1. rewrite C2 in H2. rewrite C3 in H3.
  unfold stiffness, sq_q, dot, mv in H0, H1. cbn in H0, H1.
  intros i L. destruct i as [|[|[|[|i]]]]; [..|lia]; lra.
Qed.

Example C81_case :
  sub_boundary_info PSpe10 2 none none = Some (normal_based
    {| st_default := Neumann; st_dirichlet := [fc 1 true]; st_neumann := [] |}) /\
  (exists sols, solver_functions RS sq_cell sols) /\
  corner_function (sq_corner 0) [1; 1]%nat (sq_node 0) = 1 /\
  (forall i, (i < 4)%nat -> is_node [1; 1]%nat (sq_node i)) /\
  vanishes 4 sq_con (fun i => corner_function (sq_corner 0) [1; 1]%nat (sq_node i)).
Proof.
  split; [reflexivity|]. split; [eexists; reflexivity|]. split; [cbn; lra|]. split.
  - intros i L. destruct i as [|[|[|[|i]]]]; [..|lia];
      (split; [reflexivity|]; intros t Lt; destruct t as [|[|t]]; cbn in *; lia).
  - intros i L. destruct i as [|[|[|[|i]]]]; [..|lia]; cbn; intros C; try discriminate; lra.
Qed.

(** One coarse cell with these correctors: the unknown of corner (0,0) drops
    out of the coarse system. *)
Example C81_singular_case :
  let l := Build_local_cell unit true (fun x => x) (fun _ => 1)
             (fun i _ k => if (i <? 2)%nat then - sq_grad i k else if Nat.eqb i 2 then sq_grad 1 k else sq_grad 0 k)
             (fun _ _ => 0) [(tt, 1)] [(tt, 1)] in
  let c := Build_coarse_cell unit 4 (fun i _ k => sq_grad i k) (fun _ _ => 0) (fun i => i) 6 [l] in
  exists M, assemble_matrix 2 unit (fun _ i j => if Nat.eqb i j then 1 else 0) (fun _ _ => 0) [c] = Some M /\
    ~ unique 4 sq_con M.
Proof.
  intros l c.
  destruct (proj2 (C43_assembly_defined_iff 2 unit (fun _ i j => if Nat.eqb i j then 1 else 0) [c])) as (M & HM).
  { intros c' [<-|[]]. reflexivity. }
  exists M. split; auto.
  apply (proj2 (C81_coarse_system_singular 2 unit _ [c] M 4 sq_con 0%nat HM ltac:(
    intros c' i l' q k [<-|[]] Li Ei [<-|[]] Cl [<-|[]] Lk; cbn in Ei; subst i; cbn; lra)));
    [lia|reflexivity].
Qed.
