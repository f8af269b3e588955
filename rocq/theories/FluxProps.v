(** Theorems about the right hand side of the Neumann correctors: C96. *)
From Coq Require Import Reals List Arith Bool Lia Lra Permutation QArith Qabs Qreals.
From Verif Require Import Util RSum CoarseModel SystemModel SystemSpec FemModel FemSpec FemProofs FluxModel FluxSpec FluxProofs.
From Verif Require Import StorageModel StorageSpec MsfemModel MsfemSpec LinModel LinSpec SpeModel
  SolutionModel SolutionSpec ResidualSpec ResidualProofs ResidualProps.
Import ListNotations.
Open Scope R_scope.

(** Every intersection of the local grid counts, whatever its kind; inner
    intersections count twice, once from either element. *)
Theorem C96_every_intersection_counts : forall P neumann N cells outer inner w,
  (forall c fs i, In (c, fs) cells -> (i < fc_n P c)%nat -> (fc_index P c i < N)%nat) ->
  Permutation (sides P cells) (outer ++ flat_map (fun p => [fst p; snd p]) inner) ->
  (forall p, In p inner -> same_place P (fst p) (snd p)) ->
  rsum N (fun a => w a * local_flux P neumann cells a) =
  lsum outer (side_load P neumann w) + 2 * lsum inner (fun p => side_load P neumann w (fst p)).
Proof. intros. now apply flux_split. Qed.
Print Assumptions C96_every_intersection_counts.

(** Compared with the functional of the coarse system and of the reference
    solver, which asks for the kind: the difference are the other
    intersections. *)
Theorem C96_difference_to_the_filtered_functional : forall P neumann N cells w,
  (forall c fs i, In (c, fs) cells -> (i < fc_n P c)%nat -> (fc_index P c i < N)%nat) ->
  rsum N (fun a => w a * local_flux P neumann cells a) =
  lsum cells (fun cf => boundary_load P neumann (snd cf) (fine_val P w (fst cf))) +
  lsum (filter (fun s => negb (cf_neumann P (snd s))) (sides P cells)) (side_load P neumann w).
Proof.
  intros P neumann N cells w L. rewrite (flux_total P neumann N cells w L). clear L. unfold sides.
  induction cells as [|(c, fs) r IH]; cbn [flat_map lsum filter fst snd]; [ring|].
  rewrite lsum_app, filter_app, lsum_app, IH. unfold boundary_load.
  enough (E : lsum (map (pair c) fs) (side_load P neumann w) =
    lsum (filter (cf_neumann P) fs) (fun f => lsum (cf_quad P f) (fun q =>
      snd q * (neumann (snd (fst q)) * fine_val P w c (fst (fst q))))) +
    lsum (filter (fun s => negb (cf_neumann P (snd s))) (map (pair c) fs)) (side_load P neumann w))
    by (rewrite E; ring).
  induction fs as [|f fs IHf]; cbn [map filter lsum snd]; [ring|]. rewrite IHf.
  destruct (cf_neumann P f); cbn [negb lsum]; unfold side_load at 1; cbn [fst snd]; [ring|].
  unfold side_load at 2. cbn [fst snd]. ring.
Qed.
Print Assumptions C96_difference_to_the_filtered_functional.

(** SPE10 and Tarbert: if no quadrature point of an inner intersection lies in
    the plane x1 = 0, the functional is the integral over that plane, so the
    missing filter does no harm there. *)
Theorem C96_spe10_and_tarbert : forall eq0 N cells outer inner w,
  (forall c fs i, In (c, fs) cells -> (i < fc_n (nat -> Q) c)%nat -> (fc_index (nat -> Q) c i < N)%nat) ->
  Permutation (sides (nat -> Q) cells) (outer ++ inner) ->
  ((forall s, In s inner -> off (nat -> Q) (fun x => eq0 (x 1%nat)) s) ->
   rsum N (fun a => w a * local_flux (nat -> Q) (fun x => Q2R (spe_neumann eq0 x)) cells a) =
   lsum outer (side_integral (nat -> Q) (fun x => eq0 (x 1%nat)) w)) /\
  (let here := fun x : nat -> Q => if Qlt_le_dec (Qabs (x 1%nat)) (1 # 1000000) then true else false in
   (forall s, In s inner -> off (nat -> Q) here s) ->
   rsum N (fun a => w a * local_flux (nat -> Q) (fun x => Q2R (tar_neumann x)) cells a) =
   - lsum outer (side_integral (nat -> Q) here w)).
Proof.
  intros eq0 N cells outer inner w L Pm. split; intros O.
  - rewrite (flux_restricted _ _ N cells outer inner w (fun x => eq0 (x 1%nat)) 1 L Pm O).
    + ring.
    + intros y. unfold spe_neumann. destruct (eq0 (y 1%nat)); unfold Q2R; simpl; field.
  - intros OI. rewrite (flux_restricted _ _ N cells outer inner w O (-1) L Pm OI).
    + ring.
    + intros y. unfold tar_neumann, O. destruct (Qlt_le_dec (Qabs (y 1%nat)) (1 # 1000000)) as [H|H].
      * destruct (Qle_bool (1 # 1000000) (Qabs (y 1%nat))) eqn:E.
        -- apply Qle_bool_iff in E. exfalso. apply (Qlt_not_le _ _ H E).
        -- unfold Q2R. simpl. field.
      * apply Qle_bool_iff in H. rewrite H. unfold Q2R. simpl. field.
Qed.
Print Assumptions C96_spe10_and_tarbert.

(** SPE10 without oversampling (Dirichlet values are zero): in a cell at the
    domain boundary the solution balances minus the inflow through x1 = 0, so
    it balances the inflow only if no local function sees it. *)
Theorem C96_spe10_inflow_has_the_wrong_sign :
  forall debug ncells cs tr s0 reads cr cs' order p c d qs rs con hat eq0 cells outer inner,
  NoDup (map (c_key RS) cs) -> (forall c, In c cs -> dims_ok RS c) ->
  empty_store RS s0 -> interleaving RS cs tr ->
  NoDup (map (c_key RS) cs') -> incl cs' cs ->
  (forall c, In c cs -> length (cr_local RS cr (c_key RS c)) = c_n RS c) ->
  (forall c, In c cs -> length (cr_prolong RS cr (c_key RS c)) = c_len RS c) ->
  Permutation order (map (c_key RS) cs') -> (debug = true -> length cs' = ncells) ->
  msfem_apply RS debug false ncells s0 tr reads (Some cr) cs' order = Some (Proxy p) ->
  In c cs' ->
  (forall j, (j < c_len RS c)%nat -> nth j (cr_prolong RS cr (c_key RS c)) 0 =
     combine_fn (c_n RS c) (fun m => nth m (cr_local RS cr (c_key RS c)) 0) hat j) ->
  exact_cell c d qs rs con (fun m => field_of (c_len RS c) (hat m)) ->
  dirichlet_rhs c d rs (fun _ => Q2R (spe_dirichlet (fun _ => 0%Q))) ->
  same_products d qs rs (c_len RS c) con (field_of (c_len RS c) (entries (cr_prolong RS cr (c_key RS c)))) ->
  c_boundary RS c = true ->
  (forall e fs i, In (e, fs) cells -> (i < fc_n (nat -> Q) e)%nat -> (fc_index (nat -> Q) e i < c_len RS c)%nat) ->
  (forall i, (i < c_len RS c)%nat ->
     nth i (c_neu RS c) 0 = local_flux (nat -> Q) (fun x => Q2R (spe_neumann eq0 x)) cells i) ->
  Permutation (sides (nat -> Q) cells) (outer ++ inner) ->
  (forall s, In s inner -> off (nat -> Q) (fun x => eq0 (x 1%nat)) s) ->
  let inflow := fun w => lsum outer (side_integral (nat -> Q) (fun x => eq0 (x 1%nat)) w) in
  exists v, assoc (c_key RS c) p = Some v /\
    (forall w, vanishes (c_len RS c) con w ->
       energy d qs (field_of (c_len RS c) (entries v)) (field_of (c_len RS c) w) = - inflow w) /\
    ((forall w, vanishes (c_len RS c) con w ->
       energy d qs (field_of (c_len RS c) (entries v)) (field_of (c_len RS c) w) = inflow w) <->
     forall w, vanishes (c_len RS c) con w -> inflow w = 0).
Proof.
  intros debug ncells cs tr s0 reads cr cs' order p c d qs rs con hat eq0 cells outer inner
    ND D E T ND' I L LP O DB H Ic PR EX G SP B LI CN Pm OF inflow.
  destruct (C95_solution_balances_where_quadratures_agree debug ncells cs tr s0 reads cr cs' order p c d qs rs con hat _
              ND D E T ND' I L LP O DB H Ic PR EX G SP) as (v & A & V).
  rewrite B in V.
  assert (X : forall w, vanishes (c_len RS c) con w ->
    energy d qs (field_of (c_len RS c) (entries v)) (field_of (c_len RS c) w) = - inflow w).
  { intros w W. rewrite (V w W).
    rewrite (form_ext d rs _ (fun _ => Q2R (spe_dirichlet (fun _ => 0%Q))) (fun _ => 0) w), form_zero.
    2:{ intros. unfold spe_dirichlet, Q2R. simpl. field. }
    unfold inflow. rewrite <- (proj1 (C96_spe10_and_tarbert eq0 (c_len RS c) cells outer inner w LI Pm) OF).
    unfold flux_on. rewrite (rsum_ext _ (fun i => w i * nth i (c_neu RS c) 0)
      (fun a => w a * local_flux (nat -> Q) (fun x => Q2R (spe_neumann eq0 x)) cells a)).
    - ring.
    - intros i Li. now rewrite (CN i Li). }
  exists v. split; auto. split; auto.
  split; intros Q w W; specialize (Q w W); specialize (X w W); lra.
Qed.
Print Assumptions C96_spe10_inflow_has_the_wrong_sign.

(** Concrete case: one element from x1 = 0 to x1 = 1, constrained above,
    inflow below; the balanced value at the lower node is 1, the program gives
    -1, whatever the coarse values. *)
Definition up_q : list qpoint :=
  [{| q_w := 1; q_A := fun _ _ => 1; q_grad := fun i _ => match i with O => -1 | _ => 1 end |}].
Definition up_con (i : nat) : bool := negb (Nat.eqb i 0).
Definition up_hat (m j : nat) : R := if Nat.eqb m j then 1 else 0.
Definition up_at (y : Q) : nat -> Q := fun _ => y.
Definition up_elem : fcell (nat -> Q) :=
  Build_fcell (nat -> Q) 2 (fun i _ _ => match i with O => -1 | _ => 1 end)
    (fun i x => match i with O => 1 - Q2R (x 1%nat) | _ => Q2R (x 1%nat) end) (fun i => i) (fun x => x) (fun _ => 1)
    [(up_at (1 # 2), 1)] [(up_at (1 # 2), 1)].
Definition up_low : cface (nat -> Q) := Build_cface (nat -> Q) true [(up_at 0, up_at 0, 1)].
Definition up_high : cface (nat -> Q) := Build_cface (nat -> Q) false [(up_at 1, up_at 1, 1)].
Definition up_cells : list (fcell (nat -> Q) * list (cface (nat -> Q))) := [(up_elem, [up_low; up_high])].
Definition up_eq0 (x : Q) : bool := Qeq_bool x 0.
Definition up_cell : cell RS :=
  Build_cell RS 0 2 2 true (fun k => map (local_rhs 1 up_q (field_of 2 (up_hat k))) (seq 0 2))
    (map (local_flux (nat -> Q) (fun x => Q2R (spe_neumann up_eq0 x)) up_cells) (seq 0 2))
    (map (local_rhs 1 up_q (field_of 2 (fun _ => Q2R (spe_dirichlet (fun _ => 0%Q))))) (seq 0 2))
    (fun v => map (constrain_vector up_con (entries v)) (seq 0 2))
    (fun s r => Some [nth 0 r 0 + nth 1 r 0; nth 1 r 0])
    [].
Definition up_prog : list (nat * instr RS) :=
  match cell_prog RS up_cell with Some l => map (fun i => (0%nat, i)) l | None => [] end.

Lemma up_dims : dims_ok RS up_cell.
Proof.
  repeat split; try reflexivity. intros s r x _ _ E. cbn [c_solve up_cell] in E. inversion E. reflexivity.
Qed.
Lemma up_exact : exact_cell up_cell 1 up_q up_q up_con (fun m => field_of 2 (up_hat m)).
Proof.
  split; [|split].
  - intros v i L. cbn [c_len up_cell] in L. destruct i as [|[|i]]; [reflexivity..|lia].
  - intros k i Lk Li. cbn [c_len up_cell] in Li. destruct i as [|[|i]]; [reflexivity..|lia].
  - intros s r x E i L. cbn [c_solve up_cell] in E. injection E as <-. cbn [c_len up_cell] in *.
    destruct i as [|[|i]]; [..|lia];
    unfold mv, constrain_matrix, stiffness, entries, up_q, dot, mv; cbn; lra.
Qed.
Lemma up_interleaving : interleaving RS [up_cell] up_prog.
Proof.
  assert (X : forall k, proj k up_prog = if Nat.eqb k 0 then
      (match cell_prog RS up_cell with Some l => l | None => [] end) else []).
  { intros k. unfold proj, up_prog. destruct (cell_prog RS up_cell) as [l|]; [|now destruct k].
    induction l as [|a l IH]; [now destruct k|]. cbn [map filter fst].
    destruct k; cbn [Nat.eqb] in *; [cbn [map snd]; now rewrite IH|exact IH]. }
  split.
  - intros c [<-|[]]. rewrite X. cbn [c_key up_cell Nat.eqb].
    destruct (cell_prog RS up_cell) eqn:E; [reflexivity|]. exfalso. revert E. cbn. discriminate.
  - intros k N. rewrite X. destruct k; [exfalso; apply N; now left|reflexivity].
Qed.

Example C96_case : forall a b,
  let cr := Build_coarse_result RS (fun _ => [a; b]) (fun _ => [a; b]) in
  exists p v, msfem_apply RS true false 1 (init RS) up_prog [] (Some cr) [up_cell] [0%nat] = Some (Proxy p) /\
    assoc 0 p = Some v /\ nth 0 v 0 - nth 1 v 0 = -1 /\
    (forall z, (forall w, vanishes 2 up_con w ->
       energy 1 up_q (field_of 2 z) (field_of 2 w) =
       side_integral (nat -> Q) (fun x => up_eq0 (x 1%nat)) w (up_elem, up_low)) <-> z 0%nat - z 1%nat = 1).
Proof.
  intros a b cr.
  assert (SI : forall w, side_integral (nat -> Q) (fun x => up_eq0 (x 1%nat)) w (up_elem, up_low) = w 0%nat).
  { intros w. unfold side_integral, up_low, up_at, up_eq0, fine_val. cbn. unfold Q2R. simpl. field. }
  assert (EN : forall z w, energy 1 up_q (field_of 2 z) (field_of 2 w) = (z 1%nat - z 0%nat) * (w 1%nat - w 0%nat)).
  { intros z w. unfold energy, up_q, field_of, dot, mv. cbn. ring. }
  set (e0 := fun i : nat => if Nat.eqb i 0 then 1 else 0).
  assert (V0 : vanishes 2 up_con e0).
  { intros i L C. destruct i as [|i]; [discriminate|reflexivity]. }
  destruct (SolutionProofs.solution_values RS true false 1 [up_cell] up_prog (init RS) [] cr [up_cell] [0%nat])
    as (p & A & _ & _).
  - repeat constructor. intros [].
  - intros c [<-|[]]. exact up_dims.
  - split; [exists []; reflexivity|reflexivity].
  - exact up_interleaving.
  - repeat constructor. intros [].
  - intros x X; exact X.
  - intros c [<-|[]]. reflexivity.
  - intros c [<-|[]]. reflexivity.
  - discriminate.
  - reflexivity.
  - apply Permutation_refl.
  - exists p.
    destruct (C96_spe10_inflow_has_the_wrong_sign true 1 [up_cell] up_prog (init RS) [] cr [up_cell] [0%nat] p up_cell
                1 up_q up_q up_con up_hat up_eq0 up_cells [(up_elem, up_low); (up_elem, up_high)] [])
      as (v & S2 & S3 & _); auto.
    + repeat constructor. intros [].
    + intros c [<-|[]]. exact up_dims.
    + split; [exists []; reflexivity|reflexivity].
    + exact up_interleaving.
    + repeat constructor. intros [].
    + intros x X; exact X.
    + intros c [<-|[]]. reflexivity.
    + intros c [<-|[]]. reflexivity.
    + now left.
    + intros j L. cbn [c_len up_cell] in L. destruct j as [|[|j]]; [..|lia]; unfold combine_fn, up_hat; cbn; lra.
    + exact up_exact.
    + intros i L. cbn [c_len up_cell] in L. destruct i as [|[|i]]; [reflexivity..|lia].
    + intros y _. reflexivity.
    + intros e fs i [E|[]] L. injection E as <- <-. exact L.
    + intros i L. cbn [c_len up_cell] in L. destruct i as [|[|i]]; [reflexivity..|lia].
    + intros s [].
    + exists v. split; [exact A|]. split; [exact S2|]. split.
      * specialize (S3 e0 V0). cbn [c_len up_cell] in S3. rewrite EN in S3. cbn [lsum] in S3.
        rewrite SI in S3. unfold e0 in S3. cbn [Nat.eqb] in S3. unfold entries in S3. cbn [K RS] in *.
        assert (Z : forall w, side_integral (nat -> Q) (fun x => up_eq0 (x 1%nat)) w (up_elem, up_high) = 0)
          by reflexivity.
        rewrite Z in S3. lra.
      * intros z. split.
        -- intros H. specialize (H e0 V0). rewrite EN, SI in H. unfold e0 in H. cbn [Nat.eqb] in H. lra.
        -- intros H w W. rewrite EN, SI. pose proof (W 1%nat ltac:(lia) eq_refl) as W1. rewrite W1. nra.
Qed.

(** Inner intersections: two elements on a line, boundary value one
    everywhere; the function of the middle node, which vanishes on the outer
    intersections, is given the value two. *)
Definition in_elem (k : nat) : fcell R :=
  Build_fcell R 2 (fun i _ _ => match i with O => -1 | _ => 1 end)
    (fun i x => match i with O => 1 - x | _ => x end) (fun i => (k + i)%nat) (fun x => x + INR k) (fun _ => 1) [(1/2, 1)] [(1/2, 1)].
Definition in_face (x g : R) : cface R := Build_cface R false [(x, g, 1)].
Example C96_inner_case :
  let left := (in_elem 0, in_face 1 1) in let right := (in_elem 1, in_face 0 1) in
  let cells := [(in_elem 0, [in_face 0 0; in_face 1 1]); (in_elem 1, [in_face 0 1; in_face 1 2])] in
  Permutation (sides R cells)
    ([(in_elem 0, in_face 0 0); (in_elem 1, in_face 1 2)] ++ flat_map (fun p => [fst p; snd p]) [(left, right)]) /\
  same_place R left right /\
  local_flux R (fun _ => 1) cells 1%nat = 2.
Proof.
  intros left right cells. split; [|split].
  - cbn. apply perm_skip. etransitivity; [|apply perm_swap]. apply perm_skip. apply perm_swap.
  - repeat constructor. intros w. unfold fine_val. cbn. ring.
  - unfold local_flux, flux_face, cells, vadd. cbn. ring.
Qed.
