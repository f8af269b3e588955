(** Theorems about the balance inside one coarse cell: C95. *)
From Coq Require Import Reals List Arith Bool Lia Lra Permutation.
From Verif Require Import Util StorageModel StorageSpec MsfemModel MsfemSpec
  RSum LinModel LinSpec SolutionModel SolutionSpec ResidualSpec ResidualProofs.
Import ListNotations.
Open Scope R_scope.

(** No oversampling, exact local solves, fine functions [hat m] for the corners
    of the cell, [g]: extension of the Dirichlet values.  Inside a cell without
    domain boundary the solution balances exactly; in a cell at the domain
    boundary there remain the extension and the prescribed flux, both with
    negative sign.  [qs]: quadrature of the matrices, by which the corrections
    are measured; [rs]: of the right hand sides, by which the coarse function
    is. *)
Theorem C95_balance_inside_a_cell :
  forall debug ncells cs tr s0 reads cr cs' order p c d qs rs con hat g,
  NoDup (map (c_key RS) cs) -> (forall c, In c cs -> dims_ok RS c) ->
  empty_store RS s0 -> interleaving RS cs tr ->
  NoDup (map (c_key RS) cs') -> incl cs' cs ->
  (forall c, In c cs -> length (cr_local RS cr (c_key RS c)) = c_n RS c) ->
  (forall c, In c cs -> length (cr_prolong RS cr (c_key RS c)) = c_len RS c) ->
  Permutation order (map (c_key RS) cs') -> (debug = true -> length cs' = ncells) ->
  msfem_apply RS debug false ncells s0 tr reads (Some cr) cs' order = Some (Proxy p) ->
  In c cs' ->
  (forall j, (j < c_len RS c)%nat -> nth j (cr_prolong RS cr (c_key RS c)) 0 =
     combine_fn (c_n RS c) (fun m => nth m (cr_local RS cr (c_key RS c)) 0) hat j) ->
  exact_cell c d qs rs con (fun m => field_of (c_len RS c) (hat m)) -> dirichlet_rhs c d rs g ->
  exists v, assoc (c_key RS c) p = Some v /\
    forall w, vanishes (c_len RS c) con w ->
      energy d qs (field_of (c_len RS c) (fun j => entries v j - entries (cr_prolong RS cr (c_key RS c)) j))
        (field_of (c_len RS c) w) +
      energy d rs (field_of (c_len RS c) (entries (cr_prolong RS cr (c_key RS c)))) (field_of (c_len RS c) w) =
      if c_boundary RS c
      then - energy d rs (field_of (c_len RS c) g) (field_of (c_len RS c) w) - flux_on c w
      else 0.
Proof.
  intros debug ncells cs tr s0 reads cr cs' order p c d qs rs con hat g ND D E T ND' I L LP O DB H Ic P EX G.
  destruct (run_value debug ncells cs tr s0 reads cr cs' order p c hat ND D E T ND' I L LP O DB H Ic P)
    as (sols & v & S1 & S2 & S3).
  exists v. split; auto. intros w W.
  rewrite <- (cell_balance c d qs rs con hat sols (cr_local RS cr (c_key RS c)) (c_mesh RS c) (D c (I c Ic)) EX S1 g w G W).
  f_equal.
  - apply form_ext. intros j Lj. rewrite (S3 j Lj). f_equal. apply P. exact Lj.
  - apply form_ext. intros j Lj. apply P. exact Lj.
Qed.
Print Assumptions C95_balance_inside_a_cell.

(** Where the two quadratures agree on the coarse function, this is a balance
    of the solution itself. *)
Theorem C95_solution_balances_where_quadratures_agree :
  forall debug ncells cs tr s0 reads cr cs' order p c d qs rs con hat g,
  NoDup (map (c_key RS) cs) -> (forall c, In c cs -> dims_ok RS c) ->
  empty_store RS s0 -> interleaving RS cs tr ->
  NoDup (map (c_key RS) cs') -> incl cs' cs ->
  (forall c, In c cs -> length (cr_local RS cr (c_key RS c)) = c_n RS c) ->
  (forall c, In c cs -> length (cr_prolong RS cr (c_key RS c)) = c_len RS c) ->
  Permutation order (map (c_key RS) cs') -> (debug = true -> length cs' = ncells) ->
  msfem_apply RS debug false ncells s0 tr reads (Some cr) cs' order = Some (Proxy p) ->
  In c cs' ->
  (forall j, (j < c_len RS c)%nat -> nth j (cr_prolong RS cr (c_key RS c)) 0 =
     combine_fn (c_n RS c) (fun m => nth m (cr_local RS cr (c_key RS c)) 0) hat j) ->
  exact_cell c d qs rs con (fun m => field_of (c_len RS c) (hat m)) -> dirichlet_rhs c d rs g ->
  same_products d qs rs (c_len RS c) con (field_of (c_len RS c) (entries (cr_prolong RS cr (c_key RS c)))) ->
  exists v, assoc (c_key RS c) p = Some v /\
    forall w, vanishes (c_len RS c) con w ->
      energy d qs (field_of (c_len RS c) (entries v)) (field_of (c_len RS c) w) =
      if c_boundary RS c
      then - energy d rs (field_of (c_len RS c) g) (field_of (c_len RS c) w) - flux_on c w
      else 0.
Proof.
  intros debug ncells cs tr s0 reads cr cs' order p c d qs rs con hat g ND D E T ND' I L LP O DB H Ic P EX G SP.
  destruct (C95_balance_inside_a_cell debug ncells cs tr s0 reads cr cs' order p c d qs rs con hat g
              ND D E T ND' I L LP O DB H Ic P EX G) as (v & A & V).
  exists v. split; auto. intros w W. rewrite <- (V w W), <- (SP w W), form_minus. ring.
Qed.
Print Assumptions C95_solution_balances_where_quadratures_agree.

(** So in a cell at the domain boundary the solution balances the prescribed
    flux exactly if the extension happens to cancel it twice. *)
Theorem C95_boundary_cells_balance_iff :
  forall debug ncells cs tr s0 reads cr cs' order p c d qs rs con hat g,
  NoDup (map (c_key RS) cs) -> (forall c, In c cs -> dims_ok RS c) ->
  empty_store RS s0 -> interleaving RS cs tr ->
  NoDup (map (c_key RS) cs') -> incl cs' cs ->
  (forall c, In c cs -> length (cr_local RS cr (c_key RS c)) = c_n RS c) ->
  (forall c, In c cs -> length (cr_prolong RS cr (c_key RS c)) = c_len RS c) ->
  Permutation order (map (c_key RS) cs') -> (debug = true -> length cs' = ncells) ->
  msfem_apply RS debug false ncells s0 tr reads (Some cr) cs' order = Some (Proxy p) ->
  In c cs' ->
  (forall j, (j < c_len RS c)%nat -> nth j (cr_prolong RS cr (c_key RS c)) 0 =
     combine_fn (c_n RS c) (fun m => nth m (cr_local RS cr (c_key RS c)) 0) hat j) ->
  exact_cell c d qs rs con (fun m => field_of (c_len RS c) (hat m)) -> dirichlet_rhs c d rs g ->
  same_products d qs rs (c_len RS c) con (field_of (c_len RS c) (entries (cr_prolong RS cr (c_key RS c)))) ->
  c_boundary RS c = true ->
  exists v, assoc (c_key RS c) p = Some v /\
    (balanced c d qs con (entries v) <->
     forall w, vanishes (c_len RS c) con w ->
       energy d rs (field_of (c_len RS c) g) (field_of (c_len RS c) w) = - 2 * flux_on c w).
Proof.
  intros debug ncells cs tr s0 reads cr cs' order p c d qs rs con hat g ND D E T ND' I L LP O DB H Ic P EX G SP B.
  destruct (C95_solution_balances_where_quadratures_agree debug ncells cs tr s0 reads cr cs' order p c d qs rs con hat g
              ND D E T ND' I L LP O DB H Ic P EX G SP) as (v & A & V).
  exists v. split; auto. rewrite B in V. unfold balanced.
  split; intros Q w W; specialize (Q w W); specialize (V w W); lra.
Qed.
Print Assumptions C95_boundary_cells_balance_iff.

(** Dirichlet values are corrected twice: once as values of the coarse
    function, once as extension.  [y]: correction of the coarse function plus
    extension. *)
Theorem C95_dirichlet_values_are_corrected_twice :
  forall debug ncells cs tr s0 reads cr cs' order p c d qs rs con hat g y,
  NoDup (map (c_key RS) cs) -> (forall c, In c cs -> dims_ok RS c) ->
  empty_store RS s0 -> interleaving RS cs tr ->
  NoDup (map (c_key RS) cs') -> incl cs' cs ->
  (forall c, In c cs -> length (cr_local RS cr (c_key RS c)) = c_n RS c) ->
  (forall c, In c cs -> length (cr_prolong RS cr (c_key RS c)) = c_len RS c) ->
  Permutation order (map (c_key RS) cs') -> (debug = true -> length cs' = ncells) ->
  msfem_apply RS debug false ncells s0 tr reads (Some cr) cs' order = Some (Proxy p) ->
  In c cs' ->
  (forall j, (j < c_len RS c)%nat -> nth j (cr_prolong RS cr (c_key RS c)) 0 =
     combine_fn (c_n RS c) (fun m => nth m (cr_local RS cr (c_key RS c)) 0) hat j) ->
  exact_cell c d qs rs con (fun m => field_of (c_len RS c) (hat m)) ->
  dirichlet_rhs c d rs (combine_fn (c_n RS c) g hat) ->
  c_boundary RS c = true ->
  unique (c_len RS c) con (stiffness d qs) ->
  corrector d qs rs (c_len RS c) con (field_of (c_len RS c)
    (combine_fn (c_n RS c) (fun m => nth m (cr_local RS cr (c_key RS c)) 0 + g m) hat)) y ->
  exists v q, assoc (c_key RS c) p = Some v /\
    solves (c_len RS c) (constrain_matrix con (stiffness d qs))
      (constrain_vector con (fun i => nth i (c_neu RS c) 0)) q /\
    forall j, (j < c_len RS c)%nat ->
      nth j v 0 = nth j (cr_prolong RS cr (c_key RS c)) 0 + y j - q j.
Proof.
  intros debug ncells cs tr s0 reads cr cs' order p c d qs rs con hat g y ND D E T ND' I L LP O DB H Ic P EX G B U Y.
  destruct (run_value debug ncells cs tr s0 reads cr cs' order p c hat ND D E T ND' I L LP O DB H Ic P)
    as (sols & v & S1 & S2 & S3).
  exists v, (fun j => coef RS sols (c_n RS c) j). split; auto. split.
  - apply (boundary_functions c d qs rs con _ sols _ (D c (I c Ic)) EX S1 G B).
  - intros j Lj. specialize (S3 j Lj). unfold entries in S3. rewrite S3, P by exact Lj. unfold value_at.
    pose proof (twice c d qs rs con hat sols (cr_local RS cr (c_key RS c)) (c_mesh RS c)
                  (D c (I c Ic)) EX S1 g y U G B Y j Lj) as W.
    cbn [K RS] in *. lra.
Qed.
Print Assumptions C95_dirichlet_values_are_corrected_twice.

(** Without prescribed flux a boundary cell balances only if its Dirichlet
    corrector is zero, that is if correcting the extension changes nothing. *)
Theorem C95_balance_needs_no_dirichlet_correction :
  forall debug ncells cs tr s0 reads cr cs' order p c d qs rs con hat g y,
  NoDup (map (c_key RS) cs) -> (forall c, In c cs -> dims_ok RS c) ->
  empty_store RS s0 -> interleaving RS cs tr ->
  NoDup (map (c_key RS) cs') -> incl cs' cs ->
  (forall c, In c cs -> length (cr_local RS cr (c_key RS c)) = c_n RS c) ->
  (forall c, In c cs -> length (cr_prolong RS cr (c_key RS c)) = c_len RS c) ->
  Permutation order (map (c_key RS) cs') -> (debug = true -> length cs' = ncells) ->
  msfem_apply RS debug false ncells s0 tr reads (Some cr) cs' order = Some (Proxy p) ->
  In c cs' ->
  (forall j, (j < c_len RS c)%nat -> nth j (cr_prolong RS cr (c_key RS c)) 0 =
     combine_fn (c_n RS c) (fun m => nth m (cr_local RS cr (c_key RS c)) 0) hat j) ->
  exact_cell c d qs rs con (fun m => field_of (c_len RS c) (hat m)) -> dirichlet_rhs c d rs g ->
  same_products d qs rs (c_len RS c) con (field_of (c_len RS c) (entries (cr_prolong RS cr (c_key RS c)))) ->
  c_boundary RS c = true -> (forall w, flux_on c w = 0) ->
  unique (c_len RS c) con (stiffness d qs) ->
  corrector d qs rs (c_len RS c) con (field_of (c_len RS c) g) y ->
  exists v, assoc (c_key RS c) p = Some v /\
    (balanced c d qs con (entries v) <-> forall j, (j < c_len RS c)%nat -> y j = 0).
Proof.
  intros debug ncells cs tr s0 reads cr cs' order p c d qs rs con hat g y ND D E T ND' I L LP O DB H Ic P EX G SP B Z U Y.
  destruct (C95_boundary_cells_balance_iff debug ncells cs tr s0 reads cr cs' order p c d qs rs con hat g
              ND D E T ND' I L LP O DB H Ic P EX G SP B) as (v & A & V).
  exists v. split; auto. rewrite V.
  assert (K : forall w, vanishes (c_len RS c) con w ->
    energy d qs (field_of (c_len RS c) y) (field_of (c_len RS c) w) =
    - energy d rs (field_of (c_len RS c) g) (field_of (c_len RS c) w)).
  { intros w W. pose proof (solved_test _ _ _ _ _ _ Y W) as Q. now rewrite rhs_test, <- energy_fields in Q. }
  split; intros Q.
  - apply (solved_unique c d qs con (local_rhs d rs (field_of (c_len RS c) g)) (fun _ => 0) y (fun _ => 0) U).
    + intros i Li Ci. specialize (Q (fun j => if Nat.eqb j i then 1 else 0)). rewrite Z in Q.
      pose proof (rhs_test d rs (c_len RS c) (field_of (c_len RS c) g) (fun j => if Nat.eqb j i then 1 else 0)) as X.
      rewrite Q in X.
      * rewrite (rsum_single _ i) in X; auto.
        -- rewrite Nat.eqb_refl in X. lra.
        -- intros j _ N. destruct (Nat.eqb_spec j i); [congruence|ring].
      * intros j Lj Cj. destruct (Nat.eqb_spec j i) as [->|]; [congruence|reflexivity].
    + exact Y.
    + intros i Li. unfold mv. rewrite rsum_0; [|intros; ring]. unfold constrain_vector. now destruct (con i).
  - intros w W. rewrite Z. specialize (K w W). rewrite (form_ext d qs _ y (fun _ => 0) w Q), form_zero in K. lra.
Qed.
Print Assumptions C95_balance_needs_no_dirichlet_correction.

(** Concrete case: a line of two elements with diffusion 1 and 3, the coarse
    function and the Dirichlet extension both fall from 1 to 0, no prescribed
    flux.  The balanced middle value is 1/4; the program computes 0. *)
Definition ln_q : list qpoint :=
  [{| q_w := 1/2; q_A := fun _ _ => 1;
      q_grad := fun i _ => match i with O => -2 | S O => 2 | _ => 0 end |};
   {| q_w := 1/2; q_A := fun _ _ => 3;
      q_grad := fun i _ => match i with O => 0 | S O => -2 | _ => 2 end |}].
(** Two points per element for the right hand sides, with the same means. *)
Definition ln_r : list qpoint :=
  [{| q_w := 1/4; q_A := fun _ _ => 1/2;
      q_grad := fun i _ => match i with O => -2 | S O => 2 | _ => 0 end |};
   {| q_w := 1/4; q_A := fun _ _ => 3/2;
      q_grad := fun i _ => match i with O => -2 | S O => 2 | _ => 0 end |};
   {| q_w := 1/4; q_A := fun _ _ => 2;
      q_grad := fun i _ => match i with O => 0 | S O => -2 | _ => 2 end |};
   {| q_w := 1/4; q_A := fun _ _ => 4;
      q_grad := fun i _ => match i with O => 0 | S O => -2 | _ => 2 end |}].
Definition ln_con (i : nat) : bool := negb (Nat.eqb i 1).
Definition ln_hat (m j : nat) : R :=
  match m, j with
  | O, O => 1 | O, S O => 1/2 | O, _ => 0
  | _, O => 0 | _, S O => 1/2 | _, _ => 1
  end.
Definition ln_cell : cell RS :=
  Build_cell RS 0 2 3 true (fun k => map (local_rhs 1 ln_r (field_of 3 (ln_hat k))) (seq 0 3))
    [0; 0; 0] (map (local_rhs 1 ln_r (field_of 3 (ln_hat 0))) (seq 0 3))
    (fun v => map (constrain_vector ln_con (entries v)) (seq 0 3))
    (fun s r => Some [nth 0 r 0; (nth 1 r 0 + 2 * nth 0 r 0 + 6 * nth 2 r 0) / 8; nth 2 r 0])
    [].
Definition ln_prog : list (nat * instr RS) :=
  match cell_prog RS ln_cell with Some l => map (fun i => (0%nat, i)) l | None => [] end.
Definition ln_result : coarse_result RS := Build_coarse_result RS (fun _ => [1; 0]) (fun _ => [1; 1/2; 0]).

Lemma ln_dims : dims_ok RS ln_cell.
Proof.
  repeat split; try reflexivity. intros s r x _ _ E. cbn [c_solve ln_cell] in E. inversion E. reflexivity.
Qed.
Lemma ln_exact : exact_cell ln_cell 1 ln_q ln_r ln_con (fun m => field_of 3 (ln_hat m)).
Proof.
  split; [|split].
  - intros v i L. cbn [c_len ln_cell] in L. destruct i as [|[|[|i]]]; [reflexivity..|lia].
  - intros k i Lk Li. cbn [c_len ln_cell] in Li. destruct i as [|[|[|i]]]; [reflexivity..|lia].
  - intros s r x E i L. cbn [c_solve ln_cell] in E. injection E as <-. cbn [c_len ln_cell] in *.
    destruct i as [|[|[|i]]]; [..|lia];
    unfold mv, constrain_matrix, stiffness, entries, ln_q, dot, mv; cbn; lra.
Qed.
Lemma ln_unique : unique 3 ln_con (stiffness 1 ln_q).
Proof.
  intros u H. pose proof (H 0%nat ltac:(lia)) as H0. pose proof (H 1%nat ltac:(lia)) as H1.
  pose proof (H 2%nat ltac:(lia)) as H2. cbn in H0, H2.
  unfold stiffness, ln_q, dot, mv in H1. cbn in H1.
  intros i L. destruct i as [|[|[|i]]]; [..|lia]; lra.
Qed.
Lemma ln_interleaving : interleaving RS [ln_cell] ln_prog.
Proof.
  assert (X : forall k, proj k ln_prog = if Nat.eqb k 0 then
      (match cell_prog RS ln_cell with Some l => l | None => [] end) else []).
  { intros k. unfold proj, ln_prog. destruct (cell_prog RS ln_cell) as [l|]; [|now destruct k].
    induction l as [|a l IH]; [now destruct k|]. cbn [map filter fst].
    destruct k; cbn [Nat.eqb] in *; [cbn [map snd]; now rewrite IH|exact IH]. }
  split.
  - intros c [<-|[]]. rewrite X. cbn [c_key ln_cell Nat.eqb].
    destruct (cell_prog RS ln_cell) eqn:E; [reflexivity|]. exfalso. revert E. cbn. discriminate.
  - intros k N. rewrite X. destruct k; [exfalso; apply N; now left|reflexivity].
Qed.

Example C95_case :
  dims_ok RS ln_cell /\ exact_cell ln_cell 1 ln_q ln_r ln_con (fun m => field_of 3 (ln_hat m)) /\
  dirichlet_rhs ln_cell 1 ln_r (combine_fn 2 (fun m => nth m [1; 0] 0) ln_hat) /\
  interleaving RS [ln_cell] ln_prog /\ empty_store RS (init RS) /\
  unique 3 ln_con (stiffness 1 ln_q) /\ same_products 1 ln_q ln_r 3 ln_con (field_of 3 (entries [1; 1/2; 0])) /\
  (forall w, flux_on ln_cell w = 0) /\
  (forall j, (j < 3)%nat -> nth j [1; 1/2; 0] 0 = combine_fn 2 (fun m => nth m [1; 0] 0) ln_hat j) /\
  (exists p v, msfem_apply RS true false 1 (init RS) ln_prog [] (Some ln_result) [ln_cell] [0%nat] = Some (Proxy p) /\
     assoc 0 p = Some v /\ nth 0 v 0 = 1 /\ nth 1 v 0 = 0 /\ nth 2 v 0 = 0 /\
     ~ balanced ln_cell 1 ln_q ln_con (entries v)) /\
  balanced ln_cell 1 ln_q ln_con (entries [1; 1/4; 0]).
Proof.
  assert (Z : forall w, flux_on ln_cell w = 0).
  { intros w. unfold flux_on. cbn. ring. }
  assert (B : forall a, balanced ln_cell 1 ln_q ln_con (entries [1; a; 0]) <-> a = 1/4).
  { intros a. split.
    - intros H. specialize (H (fun j => if Nat.eqb j 1 then 1 else 0)). rewrite Z in H.
      unfold energy, ln_q, field_of, dot, mv, entries in H. cbn in H.
      enough (-2 + 8 * a = 0) by lra. rewrite <- H; [lra|].
      intros i L C. destruct (Nat.eqb_spec i 1) as [->|]; [discriminate|reflexivity].
    - intros -> w W. rewrite Z. pose proof (W 0%nat ltac:(cbn; lia) eq_refl) as W0.
      pose proof (W 2%nat ltac:(cbn; lia) eq_refl) as W2.
      unfold energy, ln_q, field_of, dot, mv, entries. cbn. rewrite W0, W2. lra. }
  assert (SP : same_products 1 ln_q ln_r 3 ln_con (field_of 3 (entries [1; 1/2; 0]))).
  { intros y _. unfold energy, ln_q, ln_r, field_of, dot, mv, entries. cbn. lra. }
  assert (DR : dirichlet_rhs ln_cell 1 ln_r (combine_fn 2 (fun m => nth m [1; 0] 0) ln_hat)).
  { intros i L. cbn [c_len ln_cell] in L.
    destruct i as [|[|[|i]]]; [..|lia]; cbn [c_dir c_len ln_cell map seq nth];
    unfold local_rhs, ln_r, evaluate_product, field_of, dot, mv, combine_fn; cbn; lra. }
  assert (PR : forall j, (j < 3)%nat -> nth j [1; 1/2; 0] 0 = combine_fn 2 (fun m => nth m [1; 0] 0) ln_hat j).
  { intros j L. unfold combine_fn. destruct j as [|[|[|j]]]; [..|lia]; cbn; lra. }
  split; [exact ln_dims|]. split; [exact ln_exact|]. split; [exact DR|].
  split; [exact ln_interleaving|]. split; [split; [exists []; reflexivity|reflexivity]|].
  split; [exact ln_unique|]. split; [exact SP|]. split; [exact Z|]. split; [exact PR|].
  split; [|now apply B].
  destruct (SolutionProofs.solution_values RS true false 1 [ln_cell] ln_prog (init RS) [] ln_result [ln_cell] [0%nat])
    as (p & A & _ & V).
  - repeat constructor. intros [].
  - intros c [<-|[]]. exact ln_dims.
  - split; [exists []; reflexivity|reflexivity].
  - exact ln_interleaving.
  - repeat constructor. intros [].
  - intros x X; exact X.
  - intros c [<-|[]]. reflexivity.
  - intros c [<-|[]]. reflexivity.
  - discriminate.
  - reflexivity.
  - apply Permutation_refl.
  - exists p.
    destruct (C95_dirichlet_values_are_corrected_twice true 1 [ln_cell] ln_prog (init RS) [] ln_result [ln_cell]
                [0%nat] p ln_cell 1 ln_q ln_r ln_con ln_hat (fun m => nth m [1; 0] 0) (entries [0; -1/2; 0]))
      as (v & q & S2 & HQ & S4); auto.
    + repeat constructor. intros [].
    + intros c [<-|[]]. exact ln_dims.
    + split; [exists []; reflexivity|reflexivity].
    + exact ln_interleaving.
    + repeat constructor. intros [].
    + intros x X; exact X.
    + intros c [<-|[]]. reflexivity.
    + intros c [<-|[]]. reflexivity.
    + now left.
    + exact ln_exact.
    + exact ln_unique.
    + intros i L. cbn [c_len ln_cell] in L.
      destruct i as [|[|[|i]]]; [..|lia]; unfold constrain_vector; cbn [ln_con Nat.eqb negb];
      unfold mv, constrain_matrix, stiffness, local_rhs, ln_q, ln_r, evaluate_product, field_of, dot, mv, combine_fn, entries;
      cbn; lra.
    + exists v. split; [exact A|]. split; [exact S2|].
      pose proof (HQ 0%nat ltac:(cbn; lia)) as Q0. pose proof (HQ 1%nat ltac:(cbn; lia)) as Q1.
      pose proof (HQ 2%nat ltac:(cbn; lia)) as Q2.
      unfold mv, constrain_vector, constrain_matrix, stiffness, ln_q, dot, mv in Q0, Q1, Q2.
      cbn in Q0, Q1, Q2. cbn [K RS] in *.
      pose proof (S4 0%nat ltac:(cbn; lia)) as V0. pose proof (S4 1%nat ltac:(cbn; lia)) as V1.
      pose proof (S4 2%nat ltac:(cbn; lia)) as V2.
      assert (E0 : nth 0 v 0 = 1) by (etransitivity; [exact V0|cbn; lra]).
      assert (E1 : nth 1 v 0 = 0) by (etransitivity; [exact V1|cbn; lra]).
      assert (E2 : nth 2 v 0 = 0) by (etransitivity; [exact V2|cbn; lra]).
      repeat split; auto.
      assert (X : forall j, (j < 3)%nat -> entries v j = entries [1; 0; 0] j).
      { intros j L. destruct j as [|[|[|j]]]; [..|lia]; unfold entries; cbn [nth]; auto. }
      intros H. assert (H' : balanced ln_cell 1 ln_q ln_con (entries [1; 0; 0])).
      { intros w W. rewrite <- (H w W). apply form_ext. intros j L. symmetry. now apply X. }
      apply B in H'. lra.
Qed.
