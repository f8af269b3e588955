(** Quadrature orders requested by the stages of the method and the rules
    behind them. *)
From Coq Require Import Reals List Arith Bool.
From Verif Require Import Util RSum BoundaryModel LinModel.
Import ListNotations.
Open Scope R_scope.

(** DiffusionBase::order, base.hh:55-58, overridden in synthetic.cc:142-145
    (same value) and random.cc:157-160. *)
Definition diffusion_order (p : pname) : nat :=
  match p with
  | PRandom => 1
  | PSynthetic | PSpe10 | PTarbert | PEr2007 => 2
  end.

(** Order of the coarse and local basis functions, config.h.cmake:61 used in
    common/traits.hh:58-59; what a basis function set on a cube reports as its
    order is external. *)
Definition basis_order : nat := 1.

(** MsFEMCodim0Integral::apply, coarse_scale_assembler.cc:48; over_integrate is
    the default 0, coarse_scale_assembler.hh:53. *)
Definition coarse_matrix_order (p : pname) : nat := diffusion_order p + basis_order + basis_order + 0.

(** RhsCodim0Integral::apply, coarse_rhs_functional.cc:40; over_integrate is the
    default 0, coarse_rhs_functional.hh:56.  The source has no say. *)
Definition coarse_rhs_order (p : pname) : nat := diffusion_order p + basis_order + 0.

(** CoarseBasisProduct::order and DirichletProduct::order,
    diffusion_evaluation.hh:79-85,194-199, with the diffusion as inducing
    function (localoperator.cc:53-55,141-147). *)
Definition local_rhs_order (p : pname) : nat := diffusion_order p + basis_order.

(** Dune::QuadratureRules for a cube (external; coarse_scale_assembler.cc:50-51,
    coarse_rhs_functional.cc:42-43): the Gauss rule with the smallest number of
    points per direction that is exact up to the order. *)
Definition gauss_points (order : nat) : nat := Nat.div2 order + 1.

(** Gauss rules on [0,1] with up to three points (external): point and weight. *)
Definition line_rule (n : nat) : list (R * R) :=
  match n with
  | 1%nat => [(1/2, 1)]
  | 2%nat => [(1/2 - sqrt 3 / 6, 1/2); (1/2 + sqrt 3 / 6, 1/2)]
  | 3%nat => [(1/2 - sqrt 15 / 10, 5/18); (1/2, 4/9); (1/2 + sqrt 15 / 10, 5/18)]
  | _ => []
  end.

(** Product rule on the cube of dimension [d] (external;
    coarse_scale_assembler.cc:46-51). *)
Fixpoint product_rule (line : list (R * R)) (d : nat) : list (list R * R) :=
  match d with
  | O => [([], 1)]
  | S d' => flat_map (fun p => map (fun q => (fst p :: fst q, snd p * snd q)) (product_rule line d')) line
  end.
(** Rule of a given order on the cube (external; coarse_scale_assembler.cc:50-51). *)
Definition cube_rule (d order : nat) : list (list R * R) := product_rule (line_rule (gauss_points order)) d.

(** One element of a local grid in reference coordinates: integration element,
    diffusion and gradients of all local basis functions
    (diffusion_evaluation.hh:99-129). *)
Record element := {
  el_factor : list R -> R;
  el_A : list R -> nat -> nat -> R;
  el_grad : nat -> list R -> nat -> R
}.

(** All quadrature points of a local grid for an order, as used by the
    operator (localoperator.cc:101,110) and the functionals
    (localoperator.cc:136-151); the walk over the elements is external. *)
Definition grid_points (d order : nat) (els : list element) : list qpoint :=
  flat_map (fun e => map (fun q => {| q_w := el_factor e (fst q) * snd q; q_A := el_A e (fst q);
                                      q_grad := fun i => el_grad e i (fst q) |}) (cube_rule d order)) els.
