(** The system of the reference solver as a whole.

    /repo/dune/multiscale/msfem/fem_solver.cc:49-131 (apply), on top of
    LinModel (constraints, lifting and solve).
    Simplified: exact real numbers; vectors and matrices are functions of
    their indices; basis functions, geometries, quadratures and data are
    arbitrary functions; points are of an arbitrary type.  External: GDT's
    EllipticCG operator, L2Volume and L2Face functionals (quadratures over the
    elements and over the intersections passed by the filter), the grid walk,
    the linear solver. *)
From Coq Require Import Reals List Arith Bool.
From Verif Require Import Util RSum CoarseModel LinModel SystemModel.
Import ListNotations.
Open Scope R_scope.

Section Fem.
Variable d : nat.
Variable P : Type.
Variable diffusion : P -> nat -> nat -> R.   (* problem_.getDiffusion(), line 67 *)
Variable source : P -> R.                    (* problem_.getSource(), line 70 *)
Variable neumann : P -> R.                   (* problem_.getNeumannData(), line 58 *)

(** An element of the fine grid: basis functions of the space (line 31) in
    reference coordinates with their global indices, geometry, quadratures. *)
Record fcell := {
  fc_n : nat;
  fc_grad : nat -> P -> nat -> R;
  fc_val : nat -> P -> R;
  fc_index : nat -> nat;
  fc_global : P -> P;
  fc_factor : P -> R;
  fc_quad : list (P * R);     (* of elliptic_operator, lines 66-67 *)
  fc_rquad : list (P * R)     (* of force_functional, lines 69-70 *)
}.

(** elliptic_operator on one element, lines 66-67,85. *)
Definition fem_matrix_cell (c : fcell) (M : matrix) : matrix :=
  fold_left (fun M ii =>
    fold_left (fun M jj => madd M (fc_index c ii) (fc_index c jj)
      (lsum (fc_quad c) (fun q => fc_factor c (fst q) * snd q *
        dot d (mv d (diffusion (fc_global c (fst q))) (fc_grad c jj (fst q))) (fc_grad c ii (fst q)))))
      (seq 0 (fc_n c)) M)
  (seq 0 (fc_n c)) M.

(** force_functional on one element, lines 69-70,86. *)
Definition fem_force_cell (c : fcell) (V : vector) : vector :=
  fold_left (fun V ii => vadd V (fc_index c ii)
    (lsum (fc_rquad c) (fun q => fc_factor c (fst q) * snd q *
      (source (fc_global c (fst q)) * fc_val c ii (fst q)))))
  (seq 0 (fc_n c)) V.

(** neumann_functional on one intersection, lines 71-72,87: only Neumann
    intersections of boundary_info pass the filter. *)
Definition fem_face (c : fcell) (V : vector) (f : cface P) : vector :=
  if cf_neumann P f then
    fold_left (fun V ii => vadd V (fc_index c ii)
      (lsum (cf_quad P f) (fun q => snd q * (neumann (snd (fst q)) * fc_val c ii (fst (fst q))))))
      (seq 0 (fc_n c)) V
  else V.

(** The first grid walk, lines 83-89; matrix and vector start from zero
    (lines 62-64). *)
Definition fem_walk (cells : list (fcell * list (cface P))) : matrix * vector :=
  fold_left (fun MV cf =>
    (fem_matrix_cell (fst cf) (fst MV),
     fold_left (fem_face (fst cf)) (snd cf) (fem_force_cell (fst cf) (snd MV))))
  cells (fun _ _ => 0, fun _ => 0).

(** apply, fem_solver.cc:49-131: [start] is the content of the solution before, [sol] a possible
    content afterwards. *)
Definition fem_solution (N : nat) (constrained : nat -> bool) (g start : nat -> R)
    (cells : list (fcell * list (cface P))) (sol : nat -> R) : Prop :=
  fem_apply N constrained (fst (fem_walk cells)) (snd (fem_walk cells)) g start sol.
End Fem.
