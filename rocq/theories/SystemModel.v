(** The coarse system as a whole.

    /repo/dune/multiscale/msfem/coarse_scale_operator.cc:36-91 (constructor)
    and 99-138 (apply_inverse), on top of CoarseModel (volume terms) and
    LinModel (constraints and solve).
    Simplified: exact real numbers; external: GDT's L2Face functional (adds, on
    every Neumann intersection of a cell, the face quadrature of boundary value
    times basis function), the linear solver. *)
From Coq Require Import Reals List Arith Bool.
From Verif Require Import Util RSum CoarseModel LinModel.
Import ListNotations.
Open Scope R_scope.

Section System.
Variable d : nat.
Variable P : Type.
Variable diffusion : P -> nat -> nat -> R.
Variable source : P -> R.
Variable neumann : P -> R.          (* problem_.getNeumannData(), line 62 *)

(** An intersection of a coarse cell: boundary type (boundary_info, line 61)
    and the points of its quadrature in coarse reference coordinates, in
    global coordinates and with weight times integration element. *)
Record cface := { cf_neumann : bool; cf_quad : list (P * P * R) }.

(** neumann_functional on one intersection, lines 69-70,75-76; the values of
    the coarse basis functions are used, without correctors. *)
Definition add_face (c : coarse_cell P) (V : vector) (f : cface) : vector :=
  if cf_neumann f then
    fold_left (fun V ii => vadd V (cc_index P c ii)
      (lsum (cf_quad f) (fun q => snd q * (neumann (snd (fst q)) * cc_val P c ii (fst (fst q))))))
      (seq 0 (cc_n P c)) V
  else V.

(** The grid walk, lines 72-78: matrix, force functional and Neumann
    functional on every cell. *)
Fixpoint walk (M : matrix) (V : vector) (cells : list (coarse_cell P * list cface)) : option (matrix * vector) :=
  match cells with
  | [] => Some (M, V)
  | (c, fs) :: r =>
    match assemble_cell d P diffusion M c, assemble_rhs_cell d P diffusion source V c with
    | Some M', Some V' => walk M' (fold_left (add_face c) fs V') r
    | _, _ => None
    end
  end.

(** Construction (coarse_scale_operator.cc:36-92) and apply_inverse (99-138); [sol]: a possible solution afterwards. *)
Definition coarse_solution (N : nat) (constrained : nat -> bool) (g : nat -> R)
    (cells : list (coarse_cell P * list cface)) (sol : nat -> R) : Prop :=
  exists M V, walk (fun _ _ => 0) (fun _ => 0) cells = Some (M, V) /\
              coarse_apply N constrained M V g sol.
End System.
