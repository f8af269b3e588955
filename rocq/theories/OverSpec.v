(** Vocabulary for C128: oversampling on an interval. *)
From Coq Require Import Reals List Arith Bool.
From Verif Require Import Util RSum LinModel QuadModel CoarseModel SystemModel FemModel PatchSpec SolveSpec LayerSpec LineSpec.
Import ListNotations.
Open Scope R_scope.

(** The local grid of the coarse cell [c]: [M] fine cells, [k] of them to the
    left of the coarse cell, both ends constrained. *)
Definition widened (I : interval) (c k M : nat) (p : patch) : Prop :=
  (k <= c * iv_m I)%nat /\ (k + iv_m I <= M)%nat /\ (c * iv_m I + M <= iv_n I * iv_m I + k)%nat /\
  pa_cells p = [M] /\ pa_edges p = [iv_h I] /\ pa_low p = [- (INR k / INR (iv_m I))] /\
  numbering [M] (pa_num p) (pa_n p) /\ outer_constrained [M] (pa_num p) (pa_con p) /\
  (forall f, pa_inside p f = Nat.leb k (nth 0 f 0%nat) && Nat.ltb (nth 0 f 0%nat) (k + iv_m I)) /\
  forall f x, (f < M)%nat -> pa_global p [f] x = iv_global I [(c * iv_m I + f - k)%nat] x.

(** The coarse grid with these local grids. *)
Definition wide_line (I : interval) (k : nat -> nat) : list (coarse_cell (list R) * list (cface (list R))) :=
  patched [iv_n I] [iv_H I] (iv_num I) (iv_pa I) (line_rule (gauss_points (iv_o I)))
    (fun cs f => iv_rq I (nth 0 cs 0%nat * iv_m I + nth 0 f 0%nat - k (nth 0 cs 0%nat))%nat) (iv_x I)
    (end_faces (iv_n I) (iv_nl I) (iv_nr I) (iv_left I) (iv_right I)).
Definition wide_result (I : interval) (k : nat -> nat) (u : nat -> R) : Prop :=
  coarse_solution 1 (list R) (iv_diffusion I) (iv_source I) (iv_neumann I) (iv_N I) (iv_con I) (iv_g I) (wide_line I k) u.

(** Grids and rules as in [sound_interval], local grids with oversampling. *)
Definition sound_layers (I : interval) (k M : nat -> nat) : Prop :=
  (0 < iv_n I)%nat /\ (0 < iv_m I)%nat /\ 0 < iv_H I /\
  numbering [iv_n I] (iv_num I) (iv_N I) /\ numbering [(iv_n I * iv_m I)%nat] (iv_numf I) (iv_Nf I) /\
  (forall c, (c < iv_n I)%nat -> widened I c (k c) (M c) (iv_pa I [c])) /\
  (forall g, (g < iv_n I * iv_m I)%nat -> 0 < iv_a I g /\
    forall rule, In rule [cube_rule 1 (iv_order I); cube_rule 1 (iv_rhs_order I); cube_rule 1 (iv_o I); iv_rq I g; cube_rule 1 (iv_fo I)] ->
      mean (iv_diffusion I) (iv_global I) rule g = iv_a I g) /\
  (forall c, (c < iv_n I)%nat ->
    corrected [iv_H I] (iv_num I) (iv_diffusion I) (iv_order I) (iv_rhs_order I) (iv_pa I [c]) [c] (iv_x I [c])) /\
  (forall g q, In q (iv_rq I g) -> length (fst q) = 1%nat).

(** Harmonic mean over the local grid of the coarse cell [c]. *)
Definition kappa_patch (I : interval) (k M : nat -> nat) (c : nat) : R :=
  INR (M c) / rsum (M c) (fun f => / iv_a I (c * iv_m I - k c + f)%nat).

(** Change of the boundary correctors (Dirichlet minus Neumann) over the coarse cell. *)
Definition moved (I : interval) (k : nat -> nat) (c : nat) : R :=
  let b := fun j => iv_x I [c] 3%nat (pa_num (iv_pa I [c]) [j]) - iv_x I [c] 2%nat (pa_num (iv_pa I [c]) [j]) in
  b (k c + iv_m I)%nat - b (k c).

(** Coarse function [u] plus its correction at the node [j] of the local grid
    of the coarse cell [c]. *)
Definition corrected_at (I : interval) (k : nat -> nat) (u : nat -> R) (c j : nat) : R :=
  u (iv_num I [c]) + (INR j - INR (k c)) / INR (iv_m I) * (u (iv_num I [S c]) - u (iv_num I [c])) +
  (u (iv_num I [c]) * iv_x I [c] 0%nat (pa_num (iv_pa I [c]) [j]) + u (iv_num I [S c]) * iv_x I [c] 1%nat (pa_num (iv_pa I [c]) [j])).

(** No source; the value prescribed at the left end (zero difference of the boundary
    correctors over every coarse cell, as for the value zero), the flux [q] at the
    right end. *)
Definition driven_by_flux (I : interval) (k : nat -> nat) (q : R) : Prop :=
  (forall y, iv_source I y = 0) /\ (forall c, (c < iv_n I)%nat -> moved I k c = 0) /\
  iv_nl I = false /\ iv_nr I = true /\ iv_neumann I (iv_right I) = q /\
  (forall c, (c <= iv_n I)%nat -> iv_con I (iv_num I [c]) = Nat.eqb c 0) /\
  (forall g, (g <= iv_n I * iv_m I)%nat -> iv_conf I (iv_numf I [g]) = Nat.eqb g 0).
