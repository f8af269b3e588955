(** Property C102: what the choice of the local solver does. *)
From Coq Require Import Reals List Arith ZArith Bool String Lia Lra Permutation.
From Verif Require Import Util RSum StorageModel StorageSpec StorageProps MsfemModel MsfemSpec MsfemProofs
  MsfemProps SolutionModel SolutionSpec SolutionProps SolverModel SolverSpec SolverProofs
  CoarseModel SystemModel.
Import ListNotations.

(** With the direct solver a local solve gives exactly the result of that
    solver, if everything is valid. *)
Theorem C102_direct_solver_solves : forall F built conf l s r x,
  ~ other_solver built conf ->
  (apply_inverse F built conf l s r = Some x <->
   s_valid F l r = true /\ s_options F l "umfpack" = true /\ s_direct F l s r = Some x /\ s_valid F l x = true).
Proof.
  intros F built conf l s r x N.
  assert (U : use_umfpack built conf = true).
  { destruct (use_umfpack built conf) eqn:E; auto. destruct N. now apply other_not_used. }
  assert (T : solver_type conf = "umfpack"%string).
  { unfold use_umfpack in U. apply andb_true_iff in U. now apply String.eqb_eq. }
  unfold apply_inverse. rewrite U, T.
  destruct (s_valid F l r); cbn [negb]; [|split; [discriminate|intros (? & _); discriminate]].
  destruct (s_options F l "umfpack"); cbn [negb]; [|split; [discriminate|intros (_ & ? & _); discriminate]].
  destruct (s_direct F l s r) as [y|]; [|split; [discriminate|intros (_ & _ & ? & _); discriminate]].
  destruct (s_valid F l y) eqn:V; split; intros H.
  - injection H as <-. auto.
  - destruct H as (_ & _ & H & _). exact H.
  - discriminate.
  - destruct H as (_ & _ & H & V'). injection H as <-. congruence.
Qed.
Print Assumptions C102_direct_solver_solves.

(** Every other solver: a solve that succeeds leaves the function it should
    compute as it was, whatever matrix, right hand side and solver. *)
Theorem C102_other_solvers_change_nothing : forall F built conf l s r x,
  other_solver built conf -> apply_inverse F built conf l s r = Some x -> x = s.
Proof. exact unchanged. Qed.
Print Assumptions C102_other_solvers_change_nothing.

(** All local functions of the cell are zero, whatever coefficients, data and
    coarse basis functions are. *)
Theorem C102_other_solvers_give_zero_correctors : forall F built conf c sols0 sols,
  other_solver built conf -> solved_with F built conf c ->
  solve_all_on_single_cell F c sols0 = Some sols ->
  forall i j, coef F sols i j = k0 F.
Proof. exact cell_zero. Qed.
Print Assumptions C102_other_solvers_give_zero_correctors.

(** A whole run: the solution is the coarse function, without any fine scale
    part. *)
Theorem C102_solution_is_the_coarse_function :
  forall F built conf debug cut ncells cs tr s0 reads cr cs' order p,
  other_solver built conf -> (forall c, In c cs -> solved_with F built conf c) ->
  NoDup (map (c_key F) cs) -> (forall c, In c cs -> dims_ok F c) ->
  empty_store F s0 -> interleaving F cs tr ->
  NoDup (map (c_key F) cs') -> incl cs' cs ->
  (forall c, In c cs -> List.length (cr_local F cr (c_key F c)) = c_n F c) ->
  (forall c, In c cs -> List.length (cr_prolong F cr (c_key F c)) = c_len F c) ->
  Permutation order (map (c_key F) cs') ->
  msfem_apply F debug cut ncells s0 tr reads (Some cr) cs' order = Some (Proxy p) ->
  map fst p = map (c_key F) cs' /\
  forall c, In c cs' -> exists v, assoc (c_key F c) p = Some v /\
    forall j, nth j v (k0 F) = nth j (cr_prolong F cr (c_key F c)) (k0 F).
Proof.
  intros F built conf debug cut ncells cs tr s0 reads cr cs' order p O U N D E T N' I L LP PM H.
  assert (NE : cs' <> []).
  { intros ->. destruct (C79_ranks_without_or_with_foreign_cells F debug cut ncells cs tr s0 reads cr [] order
                N D E T N' I L) as (Q & _). rewrite (Q eq_refl) in H. discriminate. }
  assert (DB : debug = true -> List.length cs' = ncells).
  { intros ->. destruct (Nat.eq_dec (List.length cs') ncells) as [|X]; auto.
    destruct (C79_ranks_without_or_with_foreign_cells F true cut ncells cs tr s0 reads cr cs' order
                N D E T N' I L) as (_ & Q). rewrite (Q NE X) in H. discriminate. }
  destruct (C79_solution_is_coarse_plus_correction F debug cut ncells cs tr s0 reads cr cs' order
              N D E T N' I L LP NE DB PM) as (p' & A & K & V).
  rewrite A in H. injection H as <-. split; [exact K|].
  intros c Hc. destruct (V c Hc) as (sols & v & S & AV & _ & NV). exists v. split; [exact AV|].
  intros j. rewrite NV, ref_zero, kadd_0_l; [reflexivity|].
  apply (cell_zero F built conf c (fresh_slots F c) sols O (U c (I c Hc)) S).
Qed.
Print Assumptions C102_solution_is_the_coarse_function.

(** And the coarse system is the one of the uncorrected coarse functions. *)
Theorem C102_coarse_system_has_no_correctors :
  forall built conf d P diffusion source neumann N constrained g n (cell_of : coarse_cell P -> cell RS)
         (sols_of : coarse_cell P -> list (vec RS)) cells sol,
  other_solver built conf ->
  (forall c, In c (map fst cells) ->
     solved_with RS built conf (cell_of c) /\
     solver_functions RS (cell_of c) (sols_of c) /\
     local_functions P (n c) (coef RS (sols_of c)) c) ->
  (coarse_solution d P diffusion source neumann N constrained g cells sol <->
   coarse_solution d P diffusion source neumann N constrained g
     (map (fun cf => (without_correctors P (fst cf), snd cf)) cells) sol).
Proof.
  intros built conf d P diffusion source neumann N constrained g n cell_of sols_of cells sol O H.
  assert (E : map (fun cf => (without_correctors P (fst cf), snd cf)) cells = cells).
  { induction cells as [|(c, fs) r IH]; [reflexivity|]. cbn [map fst snd].
    destruct (H c (or_introl eq_refl)) as (U & S & L).
    rewrite (plain_cell P (n c) (coef RS (sols_of c)) c L
              (cell_zero RS built conf (cell_of c) (fresh_slots RS (cell_of c)) (sols_of c) O U S)).
    f_equal. apply IH. intros c' I. apply H. now right. }
  rewrite E. tauto.
Qed.
Print Assumptions C102_coarse_system_has_no_correctors.

(** A cell whose solvers work: both return twice the right hand side they get. *)
Definition ex_solvers : solvers ZS :=
  {| s_options := fun _ => true;
     s_direct := fun _ b => Some (vscale ZS 2%Z b);
     s_apply := fun _ rhs _ => Some (vscale ZS 2%Z rhs);
     s_valid := fun _ => true |}.
Definition ex_solved (built : bool) (conf : option string) (k : nat) (b : bool) : cell ZS :=
  let c := ex_cell k b in
  Build_cell ZS k (c_n ZS c) (c_len ZS c) b (c_inner ZS c) (c_neu ZS c) (c_dir ZS c)
    (c_constrain ZS c) (apply_inverse ZS built conf ex_solvers) (c_mesh ZS c).

Example C102_case :
  other_solver true (Some "bicgstab"%string) /\ ~ other_solver true None /\
  solved_with ZS true (Some "bicgstab"%string) (ex_solved true (Some "bicgstab"%string) 4 true) /\
  solve_all_on_single_cell ZS (ex_solved true None 4 true) (fresh_slots ZS (ex_cell 4 true)) =
    Some [[0; 0; 8]; [0; 2; 10]; [0; 4; 8]; [0; 10; 6]]%Z /\
  solve_all_on_single_cell ZS (ex_solved true (Some "bicgstab"%string) 4 true) (fresh_slots ZS (ex_cell 4 true)) =
    Some [[0; 0; 0]; [0; 0; 0]; [0; 0; 0]; [0; 0; 0]]%Z.
Proof.
  split; [right; exists "bicgstab"%string; split; [reflexivity|discriminate]|].
  split; [intros H; apply other_not_used in H; discriminate|].
  split; [exists ex_solvers; reflexivity|]. split; vm_compute; reflexivity.
Qed.

(** A run on two cells, with the direct solver and with another one. *)
Definition ex_run (conf : option string) : option (made ZS) :=
  let cs := [ex_solved true conf 4 true; ex_solved true conf 1 false] in
  let prog c := match cell_prog ZS c with Some p => map (pair (c_key ZS c)) p | None => [] end in
  msfem_apply ZS true true 2 (init ZS) (List.concat (map prog cs)) []
    (Some (Build_coarse_result ZS (fun _ => [10; 100]%Z) (fun k => [1; 2; Z.of_nat k]%Z))) cs [1; 4]%nat.
Example C102_runs :
  ex_run None = Some (@Proxy ZS [(4%nat, [1; 208; 2]%Z); (1%nat, [1; 202; 1]%Z)]) /\
  ex_run (Some "umfpack"%string) = ex_run None /\
  ex_run (Some "bicgstab"%string) = Some (@Proxy ZS [(4%nat, [1; 2; 4]%Z); (1%nat, [1; 2; 1]%Z)]).
Proof.
  split; [vm_compute; reflexivity|].
  split; [vm_compute; reflexivity|vm_compute; reflexivity].
Qed.
