(** Data of the problem Thirteen.

    /repo/dune/multiscale/problems/thirteen.cc:36-235.  No target compiles this
    file and the header declares other names (thirteen.hh:28-37,39-50); the functions
    are modelled as written.  Simplified: exact real arithmetic, the C library's
    functions are the mathematical ones.  A point and a gradient are functions
    of their indices; output arguments are passed in with the caller's content. *)
From Coq Require Import Reals Arith Bool.
From Verif Require Import ExactModel.
Open Scope R_scope.

(** [a <= b] as a condition, thirteen.cc:78,82,92,106,109. *)
Definition le_test (a b : R) : bool := if Rle_dec a b then true else false.
(** std::floor, thirteen.cc:119-122 (external). *)
Definition floor (a : R) : R := IZR (Int_part a).

(** FirstSource::evaluate, thirteen.cc:36-39. *)
Definition first_source (x : point) : R := 0.

(** The coefficient in diffusiveFlux, thirteen.cc:57-124, and, with another
    [conductivity], in jacobianDiffusiveFlux, 141-208; [eps] is
    constants().epsilon. *)
Definition coefficient13 (eps conductivity : R) (x : point) : R :=
  let conductor_thickness := 5 / 100 in
  let isolator_thickness := 5 / 100 in
  let isolator_conductivity := 1 / 100 in
  let position_x_a := 0 in
  let position_x_b := 8 / 10 in
  let position_y_a := 2 / 10 in
  let position_y_b := 8 / 10 - conductor_thickness in
  let x_0_qualifies := le_test position_x_a (x 0%nat) && le_test (x 0%nat) position_x_b in
  let first := x_0_qualifies && (le_test position_y_a (x 1%nat) && le_test (x 1%nat) (position_y_a + conductor_thickness)) in
  let second := x_0_qualifies && (le_test position_y_b (x 1%nat) && le_test (x 1%nat) (position_y_b + conductor_thickness)) in
  let in_conductor := first || second in
  let coefficient := if in_conductor then conductivity else 0 in
  let x_0_qualifies := le_test (5 / 10 - 5 / 10 * isolator_thickness) (x 0%nat) && le_test (x 0%nat) (5 / 10 + 5 / 10 * isolator_thickness) in
  let x_1_qualifies := le_test (35 / 100) (x 1%nat) && le_test (x 1%nat) (65 / 100) in
  let in_isolator := x_0_qualifies && x_1_qualifies in
  let coefficient := if in_isolator then isolator_conductivity else coefficient in
  if negb in_isolator && negb in_conductor then
    let floor_x_0 := floor (x 0%nat + x 1%nat) in
    let floor_x_1 := floor (x 1%nat - x 0%nat) in
    12 / 10 + 5 / 10 * sin (floor_x_0 + floor (x 0%nat / eps) + floor (x 1%nat / eps))
    + 5 / 10 * cos (floor_x_1 + floor (x 0%nat / eps) + floor (x 1%nat / eps))
  else coefficient.

(** The last lines of both, thirteen.cc:126-132 and 210-216. *)
Definition write_flux (coefficient : R) (direction flux : nat -> R) : nat -> R :=
  let a_0_0 := coefficient in
  let a_0_1 := 0 in
  let a_1_0 := 0 in
  let a_1_1 := coefficient in
  set1 (set1 flux 0 (a_0_0 * direction 0%nat + a_0_1 * direction 1%nat)) 1 (a_1_0 * direction 0%nat + a_1_1 * direction 1%nat).

(** Diffusion::diffusiveFlux, thirteen.cc:52-133. *)
Definition diffusive_flux (eps : R) (x : point) (direction flux : nat -> R) : nat -> R :=
  write_flux (coefficient13 eps 20 x) direction flux.
(** Diffusion::jacobianDiffusiveFlux, thirteen.cc:135-217. *)
Definition jacobian_diffusive_flux (eps : R) (x : point) (position direction flux : nat -> R) : nat -> R :=
  write_flux (coefficient13 eps 100 x) direction flux.

(** NeumannBoundaryCondition::evaluate, thirteen.cc:220-235. *)
Definition neumann13 (x : point) : R :=
  let conductor_thickness := 5 / 100 in
  let position_y_a := 2 / 10 in
  let position_y_b := 8 / 10 - conductor_thickness in
  if le_test position_y_a (x 1%nat) && le_test (x 1%nat) (position_y_a + conductor_thickness) then 2
  else if le_test position_y_b (x 1%nat) && le_test (x 1%nat) (position_y_b + conductor_thickness) then 2
  else 0.
