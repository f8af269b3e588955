(** C110: the systems of the method have exactly one solution. *)
From Coq Require Import Reals List Arith Bool Lra Lia.
From Verif Require Import Util RSum LinModel LinSpec LinProofs QuadModel CoarseModel CoarseSpec SystemModel SystemSpec.
From Verif Require Import FemModel FemSpec EnergySpec PatchSpec PatchProofs PatchProps SolveSpec SolveProofs.
Import ListNotations.
Open Scope R_scope.

(** A global solve finds a solution for all data exactly if it never has a
    choice. *)
Theorem C110_solvable_iff_unique : forall n con A,
  (forall b g, exists u, coarse_apply n con A b g u) <->
  (forall b g u v, coarse_apply n con A b g u -> coarse_apply n con A b g v -> forall i, (i < n)%nat -> u i = v i).
Proof.
  intros n con A. split.
  - intros E b g u v U V. apply (unique_solution n con A b g).
    + apply solvable_unique. intros b' g'. destruct (E b' g') as (w & W). exists w. now apply coarse_bvp.
    + now apply coarse_bvp.
    + now apply coarse_bvp.
  - intros U b g. destruct (unique_solvable n con A) with (b := b) (g := g) as (u & S).
    + intros u S i Li. rewrite (U (fun _ => 0) (fun _ => 0) u (fun _ => 0)); auto; apply coarse_bvp; auto.
      intros k _. destruct (con k); auto. apply rsum_0. intros. ring.
    + exists u. now apply coarse_bvp.
Qed.
Print Assumptions C110_solvable_iff_unique.

(** Local problems on grids of boxes: any positive definite diffusion, any
    gradient field to correct, at least one fixed node, at least two
    quadrature points per direction. *)
Theorem C110_every_corrector_exists_once : forall ns hs num n con A order rs field,
  length hs = length ns -> Forall (fun m => (0 < m)%nat) ns -> Forall (Rlt 0) hs -> numbering ns num n ->
  (2 <= gauss_points order <= 3)%nat ->
  (forall cs xs, In cs (cells ns) -> length xs = length ns -> positive (length ns) (A cs xs)) ->
  (exists i, (i < n)%nat /\ con i = true) ->
  one_solution n (corrector (length ns) (grid_points (length ns) order (varied_elements ns hs num A)) rs n con field).
Proof.
  intros ns hs num n con A order rs field Lh Fn Fh Nu G Po C. apply coercive_one. apply varied_coercive; auto. now apply gauss_two.
Qed.
Print Assumptions C110_every_corrector_exists_once.
(** The same for any right hand side, the prescribed flux in particular. *)
Theorem C110_every_local_problem_has_one_solution : forall ns hs num n con A order b,
  length hs = length ns -> Forall (fun m => (0 < m)%nat) ns -> Forall (Rlt 0) hs -> numbering ns num n ->
  (2 <= gauss_points order <= 3)%nat ->
  (forall cs xs, In cs (cells ns) -> length xs = length ns -> positive (length ns) (A cs xs)) ->
  (exists i, (i < n)%nat /\ con i = true) ->
  one_solution n (local_problem (length ns) (grid_points (length ns) order (varied_elements ns hs num A)) n con b).
Proof.
  intros ns hs num n con A order b Lh Fn Fh Nu G Po C. apply coercive_problem. apply varied_coercive; auto. now apply gauss_two.
Qed.
Print Assumptions C110_every_local_problem_has_one_solution.

(** The reference system on grids of boxes. *)
Theorem C110_reference_solution_exists_once :
  forall ns hs num n diffusion global line rquad fs con source neumann g start,
  length hs = length ns -> Forall (fun m => (0 < m)%nat) ns -> Forall (Rlt 0) hs -> numbering ns num n -> two_points line ->
  (forall x, positive (length ns) (diffusion x)) -> (exists i, (i < n)%nat /\ con i = true) ->
  one_solution n (fem_solution (length ns) (list R) diffusion source neumann n con g start
    (fine_boxes ns hs num global (product_rule line (length ns)) rquad fs)).
Proof. intros. now apply fine_one. Qed.
Print Assumptions C110_reference_solution_exists_once.

(** Without any prescribed value: a solution exists exactly if source and
    prescribed flux cancel, and it is determined up to a constant. *)
Theorem C110_pure_neumann_solvable_iff_balanced :
  forall ns hs num n diffusion global line rquad fs source neumann g start,
  length hs = length ns -> Forall (fun m => (0 < m)%nat) ns -> Forall (Rlt 0) hs -> numbering ns num n -> two_points line ->
  (forall x, positive (length ns) (diffusion x)) ->
  (forall cs q, In cs (cells ns) -> In q (rquad cs) -> length (fst q) = length ns) ->
  (forall cs f q, In cs (cells ns) -> In f (fs cs) -> In q (cf_quad (list R) f) -> length (fst (fst q)) = length ns) ->
  let grid := fine_boxes ns hs num global (product_rule line (length ns)) rquad fs in
  let solution := fem_solution (length ns) (list R) diffusion source neumann n (fun _ => false) g start grid in
  ((exists u, solution u) <-> supply source neumann grid = 0) /\
  (forall u, solution u -> forall u', solution u' <-> exists s, forall i, (i < n)%nat -> u' i = u i + s).
Proof.
  intros ns hs num n diffusion global line rquad fs source neumann g start Lh Fn Fh Nu T Po Lr Lf grid solution. split.
  - now apply neumann_solvable.
  - intros u U. now apply neumann_level.
Qed.
Print Assumptions C110_pure_neumann_solvable_iff_balanced.

(** The coarse system has exactly one solution, whatever the data, exactly if
    every coarse function but zero that vanishes where values are prescribed
    keeps some gradient after correction. *)
Theorem C110_coarse_solution_exists_once_iff : forall d P diffusion grid N con source neumann g,
  (forall c fs i, In (c, fs) grid -> (i < cc_n P c)%nat -> (cc_index P c i < N)%nat) ->
  (forall c fs, In (c, fs) grid -> (cc_slots P c = cc_n P c + 2)%nat) ->
  (forall c fs l q, In (c, fs) grid -> In l (covered P c) -> In q (lc_quad P l) ->
     positive d (diffusion (lc_global P l (fst q))) /\ 0 < lc_factor P l (fst q) * snd q) ->
  (one_solution N (coarse_solution d P diffusion source neumann N con g grid) <-> seen d N con grid).
Proof. intros. now apply coarse_one. Qed.
Print Assumptions C110_coarse_solution_exists_once_iff.

(** Without oversampling it always does: grids of boxes, local functions that
    vanish on the boundary of their coarse cell. *)
Theorem C110_coarse_solution_exists_once_without_oversampling :
  forall ns hs num n ms gs diffusion line loc global rquad vals fs con source neumann g,
  length hs = length ns -> length ms = length ns -> length gs = length ns ->
  Forall (fun m => (0 < m)%nat) ns -> Forall (fun m => (0 < m)%nat) ms -> Forall (Rlt 0) hs -> Forall (Rlt 0) gs ->
  numbering ns num n -> two_points line -> (forall x, positive (length ns) (diffusion x)) ->
  (forall cs i js, In cs (cells ns) -> (i < length (corners cs))%nat -> node ms js -> outer_node ms js = true -> loc cs i js = 0) ->
  (exists i, (i < n)%nat /\ con i = true) ->
  one_solution n (coarse_solution (length ns) (list R) diffusion source neumann n con g
    (map (fun cs => (box_cell hs num cs (inner_elements ms gs line (global cs) (rquad cs) (vals cs) (loc cs)), fs cs)) (cells ns))).
Proof. intros. now apply inner_one. Qed.
Print Assumptions C110_coarse_solution_exists_once_without_oversampling.

(** * Concrete cases *)
Lemma two_gauss : two_points (line_rule 2).
Proof. apply gauss_two. lia. Qed.
Lemma scalar_positive : forall d a, 0 < a -> positive d (scalar a).
Proof.
  intros d a A. apply diagonal_positive; [apply scalar_diagonal|]. intros k _. unfold scalar. now rewrite Nat.eqb_refl.
Qed.
(** Diffusion 1 and 1000 like a chess board. *)
Definition board (cs : list nat) : nat -> nat -> R := scalar (if Nat.even (fold_right Nat.add 0%nat cs) then 1 else 1000).
Lemma board_positive : forall d cs, positive d (board cs).
Proof. intros d cs. apply scalar_positive. destruct (Nat.even _); lra. Qed.
Definition board_at (x : list R) : nat -> nat -> R := match x with a :: _ => if Rle_dec a (1/2) then scalar 1 else scalar 1000 | _ => scalar 1 end.
Lemma board_at_positive : forall d x, positive d (board_at x).
Proof. intros d [|a x]; unfold board_at; [|destruct (Rle_dec a (1/2))]; apply scalar_positive; lra. Qed.
Lemma half_pos : Forall (Rlt 0) half.
Proof. repeat constructor; lra. Qed.
Lemma twos : Forall (fun m => (0 < m)%nat) [2; 2]%nat.
Proof. repeat constructor; lia. Qed.

Example C110_case : forall field,
  one_solution 9 (corrector 2 (grid_points 2 3 (varied_elements [2; 2]%nat half num3 (fun cs _ => board cs)))
    (grid_points 2 1 (varied_elements [2; 2]%nat half num3 (fun cs _ => board cs))) 9 outer9 field) /\
  one_solution 9 (fem_solution 2 (list R) board_at (fun _ => 1) (fun _ => 2) 9 outer9 (fun _ => 3) (fun _ => 0)
    (fine_boxes [2; 2]%nat half num3 (fun _ x => x) (product_rule (line_rule 2) 2) (fun _ => []) (fun _ => []))) /\
  one_solution 9 (coarse_solution 2 (list R) board_at (fun _ => 1) (fun _ => 2) 9 outer9 (fun _ => 3)
    (map (fun cs => (box_cell half num3 cs (inner_elements [2; 2]%nat [1/4; 1/4] (line_rule 2) (fun _ x => x) (fun _ => [])
       (fun _ _ _ => 0) (fun i js => if outer_node [2; 2]%nat js then 0 else INR (i + 1))), [])) (cells [2; 2]%nat))).
Proof.
  intros field. pose proof half_pos as Fh. pose proof twos as Fn. pose proof num3_numbering as Nu. pose proof two_gauss as T.
  assert (C : exists i, (i < 9)%nat /\ outer9 i = true) by (exists 0%nat; split; [lia|reflexivity]).
  split; [|split].
  - apply (C110_every_corrector_exists_once [2; 2]%nat half num3 9 outer9 (fun cs _ => board cs) 3); auto.
    intros. apply board_positive.
  - apply (C110_reference_solution_exists_once [2; 2]%nat half num3 9 board_at (fun _ x => x) (line_rule 2)); auto.
    intros. apply board_at_positive.
  - apply (C110_coarse_solution_exists_once_without_oversampling [2; 2]%nat half num3 9 [2; 2]%nat [1/4; 1/4] board_at (line_rule 2)
      (fun _ i js => if outer_node [2; 2]%nat js then 0 else INR (i + 1)) (fun _ _ x => x) (fun _ _ => []) (fun _ _ _ _ => 0)); auto.
    + repeat constructor; lra.
    + intros. apply board_at_positive.
    + intros cs i js _ _ _ O. now rewrite O.
Qed.

(** A corrector that takes away the whole coarse function leaves no equation:
    one cell on the line, stored functions the negative hat functions. *)
Definition lost_cell : coarse_cell (list R) :=
  box_cell [1] (fun js => nth 0 js 0%nat) [0%nat]
    [ {| lc_covered := true; lc_global := fun x => x; lc_factor := fun _ => 1;
         lc_grad := fun i xs => fun k => - grad [1] (one_at (fun js => nth 0 js 0%nat) i) [0%nat] xs k; lc_val := fun _ _ => 0;
         lc_quad := product_rule (line_rule 2) 1; lc_rquad := [] |} ].
Example C110_lost_gradient : forall source neumann g,
  ~ one_solution 2 (coarse_solution 1 (list R) (fun _ => scalar 1) source neumann 2 (fun i => Nat.eqb i 0) g [(lost_cell, [])]).
Proof.
  intros source neumann g S. apply C110_coarse_solution_exists_once_iff in S.
  - specialize (S (fun i => if Nat.eqb i 0 then 0 else 1)).
    assert (E : (if Nat.eqb 1 0 then 0 else 1) = 0).
    { apply S; auto.
      - intros i _ C. now rewrite C.
      - intros c fs l q k [I|[]] L Q Lk. injection I as <- <-. destruct L as [<-|[]]. destruct k; [|lia].
        cbn in Q. destruct Q as [<-|[<-|[]]]; unfold test_grad, used_grad; cbn; field. }
    cbn in E. lra.
  - intros c fs i [I|[]] L. injection I as <- <-. cbn in L |- *. destruct i as [|[|i]]; cbn; lia.
  - intros c fs [I|[]]. injection I as <- <-. reflexivity.
  - intros c fs l q [I|[]] L Q. injection I as <- <-. destruct L as [<-|[]]. cbn in Q |- *. split; [apply scalar_positive; lra|].
    destruct Q as [<-|[<-|[]]]; cbn; lra.
Qed.

(** One cell on the line, flux 1 prescribed at the right end: solvable exactly
    with a source of total -1. *)
Definition right_end : cface (list R) := {| cf_neumann := true; cf_quad := [([1], [1], 1)] |}.
Definition line_cell : list (fcell (list R) * list (cface (list R))) :=
  fine_boxes [1%nat] [1] (fun js => nth 0 js 0%nat) (fun _ x => x) (product_rule (line_rule 2) 1)
    (fun _ => [([1/2], 1)]) (fun _ => [right_end]).
Lemma line_numbering : numbering [1%nat] (fun js => nth 0 js 0%nat) 2.
Proof.
  split; [|split].
  - intros js N. inversion N as [|a ? js1 ? La N1]; subst. inversion N1; subst. cbn. lia.
  - intros js js' N N' E. inversion N as [|a ? js1 ? La N1]; subst. inversion N1; subst.
    inversion N' as [|a' ? js1' ? La' N1']; subst. inversion N1'; subst. cbn in E. now subst.
  - intros i L. exists [i]. split; [|reflexivity]. constructor; [lia|constructor].
Qed.
Example C110_neumann_case : forall s,
  (exists u, fem_solution 1 (list R) (fun _ => scalar 1) (fun _ => s) (fun _ => 1) 2 (fun _ => false) (fun _ => 0) (fun _ => 0) line_cell u)
  <-> s = -1.
Proof.
  intros s.
  destruct (C110_pure_neumann_solvable_iff_balanced [1%nat] [1] (fun js => nth 0 js 0%nat) 2 (fun _ => scalar 1) (fun _ x => x) (line_rule 2)
    (fun _ => [([1/2], 1)]) (fun _ => [right_end]) (fun _ => s) (fun _ => 1) (fun _ => 0) (fun _ => 0)) as (E & _); auto.
  - repeat constructor; lra.
  - apply line_numbering.
  - apply two_gauss.
  - intros. apply scalar_positive. lra.
  - intros cs q _ [<-|[]]. reflexivity.
  - intros cs f q _ [<-|[]] [<-|[]]. reflexivity.
  - unfold line_cell. rewrite E. unfold supply, fine_load, boundary_load. cbn. split; intros; lra.
Qed.
