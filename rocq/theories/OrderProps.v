(** C115: results do not depend on numberings and orders. *)
From Coq Require Import Reals List Arith Bool Permutation Lra Lia.
From Verif Require Import Util RSum LinModel LinSpec CoarseModel SystemModel FemModel FluxModel OrderSpec OrderProofs.
Import ListNotations.
Open Scope R_scope.

(** Local problems: nodes renumbered by [p], elements and quadrature points in
    any order. *)
Theorem C115_local_problems_do_not_depend_on_the_order :
  forall d n p r qs qs' con con' b b' x x', renumbering n p r -> matched (same_point n p) qs qs' ->
  (forall i, (i < n)%nat -> con' (p i) = con i) -> (forall i, (i < n)%nat -> b' (p i) = b i) ->
  (forall i, (i < n)%nat -> x' (p i) = x i) ->
  (local_problem d qs' n con' b' x' <-> local_problem d qs n con b x).
Proof. intros. now apply (problem_order d n p r). Qed.
Print Assumptions C115_local_problems_do_not_depend_on_the_order.

(** Their right hand sides: of the correctors of corner functions and of the
    Dirichlet data (node values [y]) and of the Neumann data. *)
Theorem C115_local_right_hand_sides_do_not_depend_on_the_order :
  forall d n p r, renumbering n p r ->
  (forall rs rs' y y' i, matched (same_point n p) rs rs' -> (forall i, (i < n)%nat -> y' (p i) = y i) -> (i < n)%nat ->
     local_rhs d rs' (field_of n y') (p i) = local_rhs d rs (field_of n y) i) /\
  (forall P neumann cells cells' i, matched (same_fine P p) cells cells' ->
     (forall c fs i, In (c, fs) cells -> (i < fc_n P c)%nat -> (fc_index P c i < n)%nat) -> (i < n)%nat ->
     local_flux P neumann cells' (p i) = local_flux P neumann cells i).
Proof.
  intros d n p r Re. split.
  - intros rs rs' y y' i M Y Li. apply (rhs_order d n p); auto. intros q q' k _ _ S _. now apply (field_order n p r).
  - intros P neumann cells cells' i M Ix Li. now apply (flux_order P neumann n p r).
Qed.
Print Assumptions C115_local_right_hand_sides_do_not_depend_on_the_order.

(** Coarse problem: nodes renumbered by [p], cells, corners of a cell with their
    stored functions, local elements, faces and quadrature points in any order. *)
Theorem C115_coarse_solution_does_not_depend_on_the_order :
  forall d P diffusion source neumann N p r cells cells' con con' g g' u u',
  renumbering N p r -> matched (same_coarse P p) cells cells' ->
  (forall c fs i, In (c, fs) cells -> (i < cc_n P c)%nat -> (cc_index P c i < N)%nat) ->
  (forall c fs, In (c, fs) cells -> cc_slots P c = (cc_n P c + 2)%nat) ->
  (forall c fs, In (c, fs) cells' -> cc_slots P c = (cc_n P c + 2)%nat) ->
  (forall i, (i < N)%nat -> con' (p i) = con i) -> (forall i, (i < N)%nat -> g' (p i) = g i) ->
  (forall i, (i < N)%nat -> u' (p i) = u i) ->
  (coarse_solution d P diffusion source neumann N con' g' cells' u' <->
   coarse_solution d P diffusion source neumann N con g cells u).
Proof. intros. now apply (coarse_order d P diffusion source neumann N p r). Qed.
Print Assumptions C115_coarse_solution_does_not_depend_on_the_order.

(** Reference problem, whatever the solution contained before. *)
Theorem C115_reference_solution_does_not_depend_on_the_order :
  forall d P diffusion source neumann N p r cells cells' con con' g g' start start' u u',
  renumbering N p r -> matched (same_fine P p) cells cells' ->
  (forall c fs i, In (c, fs) cells -> (i < fc_n P c)%nat -> (fc_index P c i < N)%nat) ->
  (forall i, (i < N)%nat -> con' (p i) = con i) -> (forall i, (i < N)%nat -> g' (p i) = g i) ->
  (forall i, (i < N)%nat -> u' (p i) = u i) ->
  (fem_solution d P diffusion source neumann N con' g' start' cells' u' <->
   fem_solution d P diffusion source neumann N con g start cells u).
Proof. intros. now apply (fine_order d P diffusion source neumann N p r). Qed.
Print Assumptions C115_reference_solution_does_not_depend_on_the_order.

(** * Concrete cases *)
(** Two cells of an interval with one covered and one other local element each,
    and a Neumann face at the right end; then numbered from right to left,
    corners exchanged, right cell first, local elements and quadrature points in
    reverse. *)
Definition ends (i : nat) (x : R) : R := match i with O => 1 - x | _ => x end.
Definition stored (i : nat) (x : R) : R := INR (2 * i + 1) * x.
Definition side (i : nat) : nat := (1 - i)%nat.
Definition swap (i : nat) : nat := match i with O => 1%nat | 1%nat => O | _ => i end.
Definition part (cov : bool) (perm : nat -> nat) (quad : list (R * R)) : local_cell R :=
  {| lc_covered := cov; lc_global := fun x => x; lc_factor := fun _ => 1 / 2;
     lc_grad := fun i _ _ => INR (2 * perm i + 1); lc_val := fun i x => stored (perm i) x; lc_quad := quad; lc_rquad := quad |}.
Definition interval (perm : nat -> nat) (index : nat -> nat) (ls : list (local_cell R)) : coarse_cell R :=
  {| cc_n := 2; cc_grad := fun i _ _ => match perm i with O => -1 | _ => 1 end; cc_val := fun i x => ends (perm i) x;
     cc_index := index; cc_slots := 4; cc_locals := ls |}.
Definition points : list (R * R) := [(1/4, 1/2); (3/4, 1/2)].
Definition right_end : cface R := {| cf_neumann := true; cf_quad := [(1, 2, 1)] |}.
Definition forwards : list (coarse_cell R * list (cface R)) :=
  [(interval (fun i => i) (fun i => i) [part true (fun i => i) points; part false (fun i => i) points], []);
   (interval (fun i => i) S [part true (fun i => i) points; part false (fun i => i) points], [right_end])].
Definition backwards : list (coarse_cell R * list (cface R)) :=
  [(interval side (fun i => i) [part false swap (rev points); part true swap (rev points)], [right_end]);
   (interval side S [part false swap (rev points); part true swap (rev points)], [])].

Lemma exchanged : forall p fs fs' index index',
  (forall i, (i < 2)%nat -> index' (side i) = p (index i)) -> matched (same_face R) fs fs' ->
  same_coarse R p
    (interval (fun i => i) index [part true (fun i => i) points; part false (fun i => i) points], fs)
    (interval side index' [part false swap (rev points); part true swap (rev points)], fs').
Proof.
  intros p fs fs' index index' I F. exists side, side. cbn [fst snd interval cc_n].
  assert (S : forall i, (i < 2)%nat -> (side i < 2)%nat /\ side (side i) = i) by (intros i L; unfold side; lia).
  split; [split; exact S|]. split; [reflexivity|]. split; [|split; [|exact F]].
  - intros i L. cbn [interval cc_index cc_grad cc_val]. rewrite (proj2 (S i L)). auto.
  - cbn [interval cc_locals filter lc_covered part]. eexists. split; [apply Permutation_refl|]. constructor; [|constructor].
    unfold same_local, part. cbn [lc_global lc_factor lc_grad lc_val lc_quad lc_rquad].
    split; [auto|split; [auto|split; [|split; [|split; [|split]]]]].
    + intros i x k L. destruct i as [|[|]]; [reflexivity|reflexivity|lia].
    + intros i x L. destruct i as [|[|]]; [reflexivity|reflexivity|lia].
    + intros i x k L. destruct i as [|[|]]; [lia|lia|reflexivity].
    + apply Permutation_sym, Permutation_rev.
    + apply Permutation_sym, Permutation_rev.
Qed.

Lemma turned : matched (same_coarse R (fun i => 2 - i)%nat) forwards backwards.
Proof.
  eexists. split; [apply perm_swap|]. constructor; [|constructor; [|constructor]].
  - apply exchanged; [|exists []; auto]. intros i L. destruct i as [|[|]]; [reflexivity|reflexivity|lia].
  - apply exchanged.
    + intros i L. destruct i as [|[|]]; [reflexivity|reflexivity|lia].
    + exists [right_end]. split; [auto|]. constructor; [|constructor]. split; auto.
Qed.

Example C115_case : forall diffusion source neumann g u,
  coarse_solution 1 R diffusion source neumann 3 (fun i => Nat.eqb i 2) (fun i => g (2 - i)%nat) backwards (fun i => u (2 - i)%nat) <->
  coarse_solution 1 R diffusion source neumann 3 (fun i => Nat.eqb i 0) g forwards u.
Proof.
  intros diffusion source neumann g u.
  assert (B : forall i, (i < 3)%nat -> (2 - (2 - i) = i)%nat) by (intros; lia).
  apply (C115_coarse_solution_does_not_depend_on_the_order 1 R diffusion source neumann 3 (fun i => 2 - i)%nat (fun i => 2 - i)%nat).
  - split; intros i L; lia.
  - exact turned.
  - intros c fs i [E|[E|[]]] L; injection E as <- <-; cbn [interval cc_n cc_index] in *; lia.
  - intros c fs [E|[E|[]]]; injection E as <- <-; reflexivity.
  - intros c fs [E|[E|[]]]; injection E as <- <-; reflexivity.
  - intros i L. destruct i as [|[|[|]]]; [reflexivity|reflexivity|reflexivity|lia].
  - intros i L. now rewrite B.
  - intros i L. now rewrite B.
Qed.
(** Two points of a local grid in the other order and with exchanged nodes. *)
Example C115_case_points : matched (same_point 2 side)
  [{| q_w := 1; q_A := fun _ _ => 1; q_grad := fun i _ => INR i |}; {| q_w := 2; q_A := fun _ _ => 3; q_grad := fun _ _ => 5 |}]
  [{| q_w := 2; q_A := fun _ _ => 3; q_grad := fun _ _ => 5 |}; {| q_w := 1; q_A := fun _ _ => 1; q_grad := fun i _ => INR (1 - i) |}].
Proof.
  eexists. split; [apply perm_swap|]. constructor; [|constructor; [|constructor]].
  - repeat split. intros i k L. cbn [q_grad]. unfold side. f_equal. lia.
  - repeat split.
Qed.
