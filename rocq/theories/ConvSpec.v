(** Vocabulary for C131: distance between the multiscale solution and the
    reference solution on an interval. *)
From Coq Require Import Reals List Arith Bool.
From Verif Require Import Util RSum QuadModel PatchSpec LayerSpec LineSpec OverSpec.
Import ListNotations.
Open Scope R_scope.

(** A quadrature rule with points of the cell and weights that are not negative
    and add up to one. *)
Definition ordinary_rule (rule : list (list R * R)) : Prop :=
  (forall q, In q rule -> 0 <= snd q /\ 0 <= nth 0 (fst q) 0 <= 1) /\ lsum rule snd = 1.

(** The source is at most [F] at all points of the rules of the right hand side. *)
Definition bounded_source (I : interval) (F : R) : Prop :=
  (forall g, (g < iv_n I * iv_m I)%nat -> ordinary_rule (iv_rq I g)) /\
  forall g q, (g < iv_n I * iv_m I)%nat -> In q (iv_rq I g) -> Rabs (iv_source I (iv_global I [g] (fst q))) <= F.

(** The source changes by at most [K] times the distance; [start] is the left
    end of the interval; the rule of the right hand side is one of the rules
    exact for affine functions. *)
Definition smooth_source (I : interval) (start K : R) : Prop :=
  (forall y z, Rabs (iv_source I [y] - iv_source I [z]) <= K * Rabs (y - z)) /\
  (forall g t, (g < iv_n I * iv_m I)%nat -> iv_global I [g] [t] = [start + (INR g + t) * iv_h I]) /\
  (forall g, exists r, (2 <= r <= 5)%nat /\ iv_rq I g = cube_rule 1 r).

(** The diffusion is at least [al]; it may change from cell to cell as it likes. *)
Definition diffusion_from (I : interval) (al : R) : Prop := 0 < al /\ forall g, (g < iv_n I * iv_m I)%nat -> al <= iv_a I g.

(** At the node [j] of the coarse cell [c]: the multiscale solution without the
    boundary correctors, the boundary correctors, the reference solution. *)
Definition inner_at (I : interval) (u : nat -> R) (c j : nat) : R := corrected_at I (fun _ => 0%nat) u c j.
Definition boundary_at (I : interval) (c j : nat) : R :=
  iv_x I [c] 3%nat (pa_num (iv_pa I [c]) [j]) - iv_x I [c] 2%nat (pa_num (iv_pa I [c]) [j]).
Definition multiscale_at (I : interval) (u : nat -> R) (c j : nat) : R := inner_at I u c j + boundary_at I c j.
Definition reference_at (I : interval) (uh : nat -> R) (c j : nat) : R := uh (iv_numf I [(c * iv_m I + j)%nat]).
(** Diffusion times derivative of a function on the fine cell [f] of the coarse
    cell [c]. *)
Definition flow (I : interval) (w : nat -> nat -> R) (c f : nat) : R := iv_a I (c * iv_m I + f)%nat * (w c (S f) - w c f) / iv_h I.
(** Square of the energy norm of a function. *)
Definition energy_of (I : interval) (w : nat -> nat -> R) : R :=
  rsum (iv_n I) (fun c => rsum (iv_m I) (fun f => flow I w c f * (w c (S f) - w c f))).
