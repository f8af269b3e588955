(** Assembly of the coarse system.

    /repo/dune/multiscale/msfem/coarse_scale_assembler.cc:35-109,127-180,
    /repo/dune/multiscale/msfem/coarse_rhs_functional.cc:27-113,120-164 and
    the grid walk of coarse_scale_operator.cc:72-78.
    Simplified: exact real numbers; vectors and matrices are functions of
    their indices ([d] space directions); basis functions, geometries,
    quadratures, diffusion and source are arbitrary functions; points are of
    an arbitrary type; the Neumann functional (coarse_scale_operator.cc:69-76,
    external) is added in SystemModel.v. *)
From Coq Require Import Reals List Arith Bool.
From Verif Require Import Util RSum.
Import ListNotations.
Open Scope R_scope.

Section Coarse.
Variable d : nat.                                (* world dimension *)
Variable P : Type.                               (* points *)
Variable diffusion : P -> nat -> nat -> R.       (* diffusion matrix at a global point *)
Variable source : P -> R.

(** JacobianRangeType with one row, coarse_scale_assembler.cc:64. *)
Definition vecd : Type := nat -> R.

(** An element of the local grid.  [lc_grad i x], [lc_val i x]: gradient and
    value of the i-th stored local function at the local coordinate x
    (coarse_scale_assembler.cc:68-72, coarse_rhs_functional.cc:60-65). *)
Record local_cell := {
  lc_covered : bool;                 (* localGridList_.covers, line 149 *)
  lc_global : P -> P;                (* geometry().global *)
  lc_factor : P -> R;                (* geometry().integrationElement *)
  lc_grad : nat -> P -> vecd;
  lc_val : nat -> P -> R;
  lc_quad : list (P * R);            (* quadrature of the matrix, coarse_scale_assembler.cc:48-51:
                                        order of the diffusion plus the orders of both bases *)
  lc_rquad : list (P * R)            (* quadrature of the right hand side, coarse_rhs_functional.cc:40-43:
                                        order of the diffusion plus the order of one basis *)
}.

(** A coarse cell: number of basis functions, their gradients and values in
    coarse reference coordinates, global indices, number of stored local
    functions and the local grid (coarse_scale_assembler.cc:53-54, 60-62, 80, 142-147,
    169-170; coarse_rhs_functional.cc:75-76). *)
Record coarse_cell := {
  cc_n : nat;
  cc_grad : nat -> P -> vecd;
  cc_val : nat -> P -> R;
  cc_index : nat -> nat;
  cc_slots : nat;
  cc_locals : list local_cell
}.

(** LinearOperatorType systemMatrix, coarse_scale_assembler.cc:131; ret, 40. *)
Definition matrix : Type := nat -> nat -> R.
(** GdtVectorType systemVector, coarse_rhs_functional.cc:123; ret, 31. *)
Definition vector : Type := nat -> R.

(** add_to_entry, coarse_scale_assembler.cc:176; also [ret[jj][ii] += ...], 105. *)
Definition madd (M : matrix) (i j : nat) (x : R) : matrix :=
  fun a b => if Nat.eqb a i && Nat.eqb b j then M a b + x else M a b.
(** add_to_entry of vectors, coarse_rhs_functional.cc:161; retRow, 109-110. *)
Definition vadd (V : vector) (i : nat) (x : R) : vector :=
  fun a => if Nat.eqb a i then V a + x else V a.

(** reconstructionGradPhi, lines 95-98: the coarse gradient is taken at the
    quadrature point [x] of the LOCAL element (lines 79-80). *)
Definition recon_grad (c : coarse_cell) (l : local_cell) (i : nat) (x : P) : vecd :=
  fun k => cc_grad c i x k + lc_grad l i x k.

(** Body of the innermost loop, lines 90-105. *)
Definition integrand (c : coarse_cell) (l : local_cell) (q : P * R) (ii jj : nat) : R :=
  dot d (mv d (diffusion (lc_global l (fst q))) (recon_grad c l ii (fst q)))
        (recon_grad c l jj (fst q))
  * lc_factor l (fst q) * snd q.

(** MsFEMCodim0Integral::apply, lines 74-108; rows = cols = cc_n. *)
Definition element_matrix (c : coarse_cell) (l : local_cell) : matrix :=
  fold_left (fun M q =>
    fold_left (fun M ii =>
      fold_left (fun M jj => madd M jj ii (integrand c l q ii jj)) (seq 0 (cc_n c)) M)
    (seq 0 (cc_n c)) M)
  (lc_quad l) (fun _ _ => 0).

(** Loop writing one element matrix, lines 171-178. *)
Definition write_matrix (c : coarse_cell) (M L : matrix) : matrix :=
  fold_left (fun M ii =>
    fold_left (fun M jj => madd M (cc_index c ii) (cc_index c jj) (L ii jj)) (seq 0 (cc_n c)) M)
  (seq 0 (cc_n c)) M.

(** assembleLocal, lines 127-180.  None: assertion of line 91 (the number of
    stored functions without the two boundary correctors, line 62). *)
Definition assemble_cell (M : matrix) (c : coarse_cell) : option matrix :=
  if Nat.eqb (cc_slots c - 2) (cc_n c) then
    Some (fold_left (fun M l => if lc_covered l then write_matrix c M (element_matrix c l) else M)
                    (cc_locals c) M)
  else None.

(** RhsCodim0Integral::apply, coarse_rhs_functional.cc:94-102: the Dirichlet
    extension is the zero function (line 137). *)
Definition direction (c : coarse_cell) (l : local_cell) (x : P) : vecd :=
  fun k => 0 + lc_grad l (cc_n c + 1) x k - lc_grad l (cc_n c) x k.

(** Lines 72-112. *)
Definition element_vector (c : coarse_cell) (l : local_cell) : vector :=
  fold_left (fun V q =>
    fold_left (fun V ii =>
      let x := fst q in
      let w := lc_factor l x * snd q in
      let phi := cc_val c ii x + lc_val l ii x in
      let flux := mv d (diffusion (lc_global l x)) (direction c l x) in
      vadd (vadd V ii (w * (source (lc_global l x) * phi)))
           ii (- (w * dot d flux (recon_grad c l ii x))))
    (seq 0 (cc_n c)) V)
  (lc_rquad l) (fun _ => 0).

(** assembleLocal of the functional, lines 120-164. *)
Definition write_vector (c : coarse_cell) (V L : vector) : vector :=
  fold_left (fun V ii => vadd V (cc_index c ii) (L ii)) (seq 0 (cc_n c)) V.
Definition assemble_rhs_cell (V : vector) (c : coarse_cell) : option vector :=
  if Nat.eqb (cc_slots c) (cc_n c + 2) then              (* assertion, line 90 *)
    Some (fold_left (fun V l => if lc_covered l then write_vector c V (element_vector c l) else V)
                    (cc_locals c) V)
  else None.

(** Grid walk, coarse_scale_operator.cc:53,72-78: matrix and right hand side
    start from zero, cells in the given order. *)
Fixpoint assemble_matrix (M : matrix) (cs : list coarse_cell) : option matrix :=
  match cs with
  | [] => Some M
  | c :: r => match assemble_cell M c with None => None | Some M' => assemble_matrix M' r end
  end.
(** The walk over the interior cells, coarse_scale_operator.cc:72-78. *)
Fixpoint assemble_vector (V : vector) (cs : list coarse_cell) : option vector :=
  match cs with
  | [] => Some V
  | c :: r => match assemble_rhs_cell V c with None => None | Some V' => assemble_vector V' r end
  end.
End Coarse.
