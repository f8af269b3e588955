(** Vocabulary for C127: the method on an interval. *)
From Coq Require Import Reals List Arith Bool.
From Verif Require Import Util RSum LinModel QuadModel CoarseModel SystemModel FemModel PatchSpec SolveSpec LayerSpec.
Import ListNotations.
Open Scope R_scope.

(** The local grid of the coarse cell [c]: the cell divided into [m] cells of
    length [h], both ends constrained; [global] are the coordinates on the cells
    of the fine grid, which are the local cells of all coarse cells in order. *)
Definition divided (m : nat) (h : R) (global : list nat -> list R -> list R) (c : nat) (p : patch) : Prop :=
  pa_cells p = [m] /\ pa_edges p = [h] /\ pa_low p = [0] /\ numbering [m] (pa_num p) (pa_n p) /\
  outer_constrained [m] (pa_num p) (pa_con p) /\ (forall f, pa_inside p f = true) /\
  forall f x, (f < m)%nat -> pa_global p [f] x = global [(c * m + f)%nat] x.

(** Mean of the diffusion over a cell of the fine grid by a quadrature rule. *)
Definition mean (diffusion : list R -> nat -> nat -> R) (global : list nat -> list R -> list R) (rule : list (list R * R)) (g : nat) : R :=
  lsum rule (fun q => snd q * diffusion (global [g] (fst q)) 0%nat 0%nat).

(** Harmonic mean over the coarse cell [c] of the values [a] on fine cells. *)
Definition harmonic (m : nat) (a : nat -> R) (c : nat) : R := INR m / rsum m (fun f => / a (c * m + f)%nat).

(** Boundary faces of the first and the last of [n] cells: the end points of the
    interval, with or without prescribed flux. *)
Definition end_face (neumann : bool) (x : R) (position : list R) : cface (list R) :=
  {| cf_neumann := neumann; cf_quad := [(([x], position), 1)] |}.
Definition end_faces (n : nat) (nl nr : bool) (left right : list R) (cs : list nat) : list (cface (list R)) :=
  (if Nat.eqb (nth 0 cs 0%nat) 0 then [end_face nl 0 left] else []) ++
  (if Nat.eqb (S (nth 0 cs 0%nat)) n then [end_face nr 1 right] else []).

(** Inner nodes are not constrained. *)
Definition only_ends (n : nat) (num : list nat -> nat) (con : nat -> bool) : Prop :=
  forall c, (0 < c < n)%nat -> con (num [c]) = false.

(** Source in the coarse cell [c] times the distance between the place where a
    point of a local cell lies in the coarse cell and the place where it lies in
    the local cell, both in reference coordinates. *)
Definition misplaced (source : list R -> R) (global : list nat -> list R -> list R) (rule : nat -> list (list R * R)) (m c : nat) : R :=
  rsum m (fun f => lsum (rule (c * m + f)%nat) (fun q =>
    snd q * source (global [(c * m + f)%nat] (fst q)) * (nth 0 (fst q) 0 - (INR f + nth 0 (fst q) 0) / INR m))).

(** An interval of [iv_n] coarse cells of length [iv_H], each divided into [iv_m]
    fine cells.  [iv_num], [iv_numf]: numbers of the coarse and fine nodes;
    [iv_a]: mean of the diffusion on every fine cell; [iv_pa], [iv_x]: local grid
    and stored functions of every coarse cell; [iv_order], [iv_rhs_order],
    [iv_o], [iv_fo]: orders of the local matrix, the local right hand side, the
    coarse matrix and the fine matrix; [iv_rq], [iv_rqf]: rules of the coarse and
    fine right hand side on a fine cell; [iv_nl], [iv_nr]: flux prescribed at an
    end; [iv_con], [iv_g]: constrained coarse indices and their values,
    [iv_conf], [iv_gf] of the fine grid. *)
Record interval := {
  iv_n : nat; iv_m : nat; iv_N : nat; iv_Nf : nat; iv_H : R;
  iv_num : list nat -> nat; iv_numf : list nat -> nat;
  iv_diffusion : list R -> nat -> nat -> R; iv_source : list R -> R; iv_neumann : list R -> R;
  iv_global : list nat -> list R -> list R; iv_a : nat -> R;
  iv_order : nat; iv_rhs_order : nat; iv_o : nat; iv_fo : nat;
  iv_pa : list nat -> patch; iv_x : list nat -> nat -> nat -> R;
  iv_rq : nat -> list (list R * R); iv_rqf : nat -> list (list R * R);
  iv_nl : bool; iv_nr : bool; iv_left : list R; iv_right : list R;
  iv_con : nat -> bool; iv_g : nat -> R; iv_conf : nat -> bool; iv_gf : nat -> R
}.
Definition iv_h (I : interval) : R := iv_H I / INR (iv_m I).

Definition coarse_line (I : interval) : list (coarse_cell (list R) * list (cface (list R))) :=
  patched [iv_n I] [iv_H I] (iv_num I) (iv_pa I) (line_rule (gauss_points (iv_o I)))
    (fun cs f => iv_rq I (nth 0 cs 0%nat * iv_m I + nth 0 f 0%nat)%nat) (iv_x I)
    (end_faces (iv_n I) (iv_nl I) (iv_nr I) (iv_left I) (iv_right I)).
Definition fine_line (I : interval) : list (fcell (list R) * list (cface (list R))) :=
  fine_boxes [(iv_n I * iv_m I)%nat] [iv_h I] (iv_numf I) (iv_global I) (cube_rule 1 (iv_fo I)) (fun g => iv_rqf I (nth 0 g 0%nat))
    (end_faces (iv_n I * iv_m I) (iv_nl I) (iv_nr I) (iv_left I) (iv_right I)).

(** The grids fit; all rules give the same positive mean of the diffusion on
    every fine cell; the stored functions are the exact correctors, the boundary
    correctors vanish at the ends of their cell; both right hand sides integrate
    the source times an affine function alike; constrained are at most the ends,
    the same ones with the same values on both grids. *)
Definition sound_interval (I : interval) : Prop :=
  (0 < iv_n I)%nat /\ (0 < iv_m I)%nat /\ 0 < iv_H I /\
  numbering [iv_n I] (iv_num I) (iv_N I) /\ numbering [(iv_n I * iv_m I)%nat] (iv_numf I) (iv_Nf I) /\
  (forall c, (c < iv_n I)%nat -> divided (iv_m I) (iv_h I) (iv_global I) c (iv_pa I [c])) /\
  (forall g, (g < iv_n I * iv_m I)%nat -> 0 < iv_a I g /\
    forall rule, In rule [cube_rule 1 (iv_order I); cube_rule 1 (iv_rhs_order I); cube_rule 1 (iv_o I); iv_rq I g; cube_rule 1 (iv_fo I)] ->
      mean (iv_diffusion I) (iv_global I) rule g = iv_a I g) /\
  (forall c, (c < iv_n I)%nat ->
    corrected [iv_H I] (iv_num I) (iv_diffusion I) (iv_order I) (iv_rhs_order I) (iv_pa I [c]) [c] (iv_x I [c])) /\
  (forall c i, (c < iv_n I)%nat -> (i = 2 \/ i = 3)%nat ->
    iv_x I [c] i (pa_num (iv_pa I [c]) [0%nat]) = 0 /\ iv_x I [c] i (pa_num (iv_pa I [c]) [iv_m I]) = 0) /\
  (forall g q, In q (iv_rq I g) \/ In q (iv_rqf I g) -> length (fst q) = 1%nat) /\
  (forall g b0 b1, (g < iv_n I * iv_m I)%nat ->
    lsum (iv_rq I g) (fun q => snd q * iv_source I (iv_global I [g] (fst q)) * (b0 + b1 * nth 0 (fst q) 0)) =
    lsum (iv_rqf I g) (fun q => snd q * iv_source I (iv_global I [g] (fst q)) * (b0 + b1 * nth 0 (fst q) 0))) /\
  only_ends (iv_n I) (iv_num I) (iv_con I) /\ only_ends (iv_n I * iv_m I) (iv_numf I) (iv_conf I) /\
  iv_con I (iv_num I [0%nat]) = iv_conf I (iv_numf I [0%nat]) /\
  iv_con I (iv_num I [iv_n I]) = iv_conf I (iv_numf I [(iv_n I * iv_m I)%nat]) /\
  (iv_con I (iv_num I [0%nat]) = true -> iv_g I (iv_num I [0%nat]) = iv_gf I (iv_numf I [0%nat])) /\
  (iv_con I (iv_num I [iv_n I]) = true -> iv_g I (iv_num I [iv_n I]) = iv_gf I (iv_numf I [(iv_n I * iv_m I)%nat])).

Definition coarse_result (I : interval) (u : nat -> R) : Prop :=
  coarse_solution 1 (list R) (iv_diffusion I) (iv_source I) (iv_neumann I) (iv_N I) (iv_con I) (iv_g I) (coarse_line I) u.
Definition fine_result (I : interval) (start u : nat -> R) : Prop :=
  fem_solution 1 (list R) (iv_diffusion I) (iv_source I) (iv_neumann I) (iv_Nf I) (iv_conf I) (iv_gf I) start (fine_line I) u.
(** Difference of the two solutions at the coarse node [c]. *)
Definition difference_at (I : interval) (u uh : nat -> R) (c : nat) : R := u (iv_num I [c]) - uh (iv_numf I [(c * iv_m I)%nat]).
Definition left_constrained (I : interval) : Prop := iv_con I (iv_num I [0%nat]) = true.
Definition right_constrained (I : interval) : Prop := iv_con I (iv_num I [iv_n I]) = true.
Definition mis (I : interval) (c : nat) : R := misplaced (iv_source I) (iv_global I) (iv_rq I) (iv_m I) c.
Definition kappa (I : interval) (c : nat) : R := harmonic (iv_m I) (iv_a I) c.

(** The source is [s0 + s1 y] at the point [y], the point [t] of the fine cell
    [g] is [start + (g + t) h] and the rule of the right hand side is exact up to
    degree two. *)
Definition affine_source (I : interval) (start s0 s1 : R) : Prop :=
  (forall y, iv_source I [y] = s0 + s1 * y) /\
  (forall g t, (g < iv_n I * iv_m I)%nat -> iv_global I [g] [t] = [start + (INR g + t) * iv_h I]) /\
  (forall g, exists r, (2 <= r <= 5)%nat /\ iv_rq I g = cube_rule 1 r).
