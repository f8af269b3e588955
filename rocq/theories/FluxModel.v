(** Right hand side of the Neumann correctors.

    /repo/dune/multiscale/msfem/localproblems/localoperator.cc:51-52 (the
    functional), 77-81 (add_to: added without a filter), 127-131,152-154
    (assembled on cells at the domain boundary).
    Simplified: exact real numbers; basis functions, geometries, quadratures and
    data are arbitrary functions; vectors are functions of their indices.
    External: GDT's L2Face functional (face quadrature of the boundary value
    times basis function) and the grid walk, which without a filter visits
    every intersection of every element. *)
From Coq Require Import Reals List Arith Bool.
From Verif Require Import Util RSum CoarseModel SystemModel FemModel.
Import ListNotations.
Open Scope R_scope.

Section Flux.
Variable P : Type.
Variable neumann : P -> R.   (* problem.getNeumannData(), localoperator.cc:51 *)

(** neumann_functional on one intersection of an element of the local grid,
    localoperator.cc:52,79; the kind of the intersection is not asked. *)
Definition flux_face (c : fcell P) (V : vector) (f : cface P) : vector :=
  fold_left (fun V ii => vadd V (fc_index P c ii)
    (lsum (cf_quad P f) (fun q => snd q * (neumann (snd (fst q)) * fc_val P c ii (fst (fst q))))))
    (seq 0 (fc_n P c)) V.

(** The grid walk, localoperator.cc:154; the vector starts from zero. *)
Definition local_flux (cells : list (fcell P * list (cface P))) : vector :=
  fold_left (fun V cf => fold_left (flux_face (fst cf)) (snd cf) V) cells (fun _ => 0).
End Flux.
