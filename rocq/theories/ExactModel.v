(** The two problems with a known solution: Synthetic and ER2007.

    /repo/dune/multiscale/problems/synthetic.cc:17,45-69,93-140,160-207 and
    /repo/dune/multiscale/problems/er2007.hh:71-92, er2007.cc:43-65.
    Simplified: exact real arithmetic, the C library's functions and M_PI are
    the mathematical ones, pow with positive base is [Rpower].  A point, a
    gradient and a matrix are functions of their indices; output arguments are
    passed in with the caller's content. *)
From Coq Require Import Reals Arith Bool.
Open Scope R_scope.

(** DomainType x: synthetic.cc:93, er2007.cc:43. *)
Definition point : Type := nat -> R.

(** One assignment [a[i] = v] to an output argument: synthetic.cc:138-139,
    er2007.cc:63-64. *)
Definition set1 (a : nat -> R) (i : nat) (v : R) : nat -> R :=
  fun k => if Nat.eqb k i then v else a k.
(** synthetic.cc:128-129, er2007.cc:55-56. *)
Definition set2 (m : nat -> nat -> R) (i j : nat) (v : R) : nat -> nat -> R :=
  fun k l => if Nat.eqb k i && Nat.eqb l j then v else m k l.

(** synthetic.cc:17. *)
Definition TWOPI : R := PI * 2.

(** synthetic.cc:66-69: the configured epsilon or 0.05. *)
Definition get_eps (configured : option R) : R :=
  match configured with Some e => e | None => 5 / 100 end.

Section Synthetic.
Variable epsilon : R.

(** Source::evaluate, synthetic.cc:93-121. *)
Definition syn_source (x : point) : R :=
  let pi_square := PI * PI in
  let x0_eps := x 0%nat / epsilon in
  let cos_eps := cos (TWOPI * x0_eps) in
  let sin_eps := sin (TWOPI * x0_eps) in
  let coefficient_0 := 2 * (1 / (8 * PI * PI)) * (1 / (2 + cos_eps)) in
  let coefficient_1 := (1 / (8 * PI * PI)) * (1 + (1/2) * cos_eps) in
  let sin_x0 := sin (TWOPI * x 0%nat) in
  let cos_x0 := cos (TWOPI * x 0%nat) in
  let sin_x1 := sin (TWOPI * x 1%nat) in
  let d_coefficient_0 := Rpower (2 + cos_eps) (-2) * (1 / TWOPI) * (1 / epsilon) * sin_eps in
  let grad_u := (TWOPI * cos_x0 * sin_x1)
                + ((-1) * epsilon * PI * (sin_x0 * sin_x1 * sin_eps))
                + (PI * (cos_x0 * sin_x1 * cos_eps)) in
  let d_x0_x0_u := - (4 * pi_square * sin_x0 * sin_x1)
                   - (2 * pi_square * (epsilon + 1 / epsilon) * cos_x0 * sin_x1 * sin_eps)
                   - (4 * pi_square * sin_x0 * sin_x1 * cos_eps) in
  let d_x1_x1_u := - (4 * pi_square * sin_x0 * sin_x1)
                   - (2 * pi_square * epsilon * cos_x0 * sin_x1 * sin_eps) in
  - (d_coefficient_0 * grad_u) - (coefficient_0 * d_x0_x0_u) - (coefficient_1 * d_x1_x1_u).

(** Diffusion::evaluate, synthetic.cc:123-130: writes two diagonal entries. *)
Definition syn_diffusion (x : point) (ret : nat -> nat -> R) : nat -> nat -> R :=
  let x0_eps := x 0%nat / epsilon in
  let inv_pi8pi := 1 / (8 * PI * PI) in
  let cos_eval := cos (TWOPI * x0_eps) in
  set2 (set2 ret 0 0 (2 * inv_pi8pi * (1 / (2 + cos_eval))))
       1 1 (inv_pi8pi * (1 + (1/2) * cos_eval)).

(** Diffusion::diffusiveFlux, synthetic.cc:132-140: the local matrix [eval] is
    filled first, then two components of [flux] are written. *)
Definition syn_flux (eval : nat -> nat -> R) (x direction : point) (flux : nat -> R) : nat -> R :=
  let eval := syn_diffusion x eval in
  set1 (set1 flux 0 (eval 0%nat 0%nat * direction 0%nat)) 1 (eval 1%nat 1%nat * direction 1%nat).

(** ExactSolution::evaluate, synthetic.cc:160-173. *)
Definition syn_exact (x : point) : R :=
  let x0_eps := x 0%nat / epsilon in
  let sin_eps := sin (TWOPI * x0_eps) in
  let x0_2_pi := TWOPI * x 0%nat in
  let x1_2_pi := TWOPI * x 1%nat in
  let sin_x0 := sin x0_2_pi in
  let cos_x0 := cos x0_2_pi in
  let sin_x1 := sin x1_2_pi in
  sin_x0 * sin_x1 + ((1/2) * epsilon * cos_x0 * sin_x1 * sin_eps).

(** ExactSolution::jacobian, synthetic.cc:175-192. *)
Definition syn_jacobian (x : point) (grad_u : nat -> R) : nat -> R :=
  let x0_eps := x 0%nat / epsilon in
  let cos_eps := cos (TWOPI * x0_eps) in
  let sin_eps := sin (TWOPI * x0_eps) in
  let x0_2_pi := TWOPI * x 0%nat in
  let x1_2_pi := TWOPI * x 1%nat in
  let sin_x0 := sin x0_2_pi in
  let cos_x0 := cos x0_2_pi in
  let sin_x1 := sin x1_2_pi in
  let cos_x1 := cos x1_2_pi in
  let eps_pi_sin := epsilon * PI * sin_eps in
  set1 (set1 grad_u 1 ((TWOPI * sin_x0 * cos_x1) + (eps_pi_sin * cos_x0 * cos_x1)))
       0 ((TWOPI * cos_x0 * sin_x1) - (eps_pi_sin * sin_x0 * sin_x1)
          + (PI * cos_x0 * sin_x1 * cos_eps)).

(** DirichletData, synthetic.cc:194-202; NeumannData, 204-207. *)
Definition syn_dirichlet (x : point) : R := syn_exact x.
(** DirichletData::jacobian, synthetic.cc:199-202. *)
Definition syn_dirichlet_jacobian (x : point) (y : nat -> R) : nat -> R := syn_jacobian x y.
(** NeumannData::evaluate, synthetic.cc:204-207. *)
Definition syn_neumann (x : point) : R := 0.
End Synthetic.

(** Kind of boundary of a point with the given outer normal, default settings
    (synthetic.cc:50-62): Dirichlet, in three dimensions Neumann where the
    normal is plus or minus the third unit vector.  Normals of the domain are
    given by axis and sign. *)
Definition syn_is_neumann (dim axis : nat) : bool := Nat.eqb dim 3 && Nat.eqb axis 2.

(** ER2007: er2007.hh:88 (Source), 92 (ExactSolution), 71 (exact_deriv, used as
    derivative of both). *)
Definition er_source (x : point) : R :=
  64 * PI * PI * (cos (8 * PI * x 0%nat) + cos (8 * PI * x 1%nat)).
(** ExactSolution, er2007.hh:92. *)
Definition er_exact (x : point) : R := cos (8 * PI * x 0%nat) + cos (8 * PI * x 1%nat).
(** er2007.hh:71. *)
Definition exact_deriv (x : point) : nat -> R := fun k =>
  match k with
  | O => -8 * PI * sin (8 * PI * x 0%nat)
  | _ => -8 * PI * sin (8 * PI * x 1%nat)
  end.
(** Source, er2007.hh:88: constructed with exact_deriv. *)
Definition er_source_jacobian : point -> nat -> R := exact_deriv.
(** ExactSolution, er2007.hh:92: constructed with exact_deriv. *)
Definition er_exact_jacobian : point -> nat -> R := exact_deriv.

(** er2007.cc:53-57 and 59-65. *)
Definition er_diffusion (x : point) (ret : nat -> nat -> R) : nat -> nat -> R :=
  set2 (set2 ret 0 0 1) 1 1 1.
(** Diffusion::diffusiveFlux, er2007.cc:59-65. *)
Definition er_flux (x direction : point) (flux : nat -> R) : nat -> R :=
  set1 (set1 flux 0 (direction 0%nat)) 1 (direction 1%nat).
(** er2007.cc:43-51; ZeroNeumannData, base.hh:111-127. *)
Definition er_dirichlet (x : point) : R := er_exact x.
(** DirichletData::jacobian, er2007.cc:48-51. *)
Definition er_dirichlet_jacobian : point -> nat -> R := er_exact_jacobian.
