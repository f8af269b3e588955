(** Vocabulary for C123. *)
From Coq Require Import List ZArith QArith String.
From Verif Require Import SuiteModel.
Import ListNotations.
Local Open Scope string_scope.

(** A setup: coarse cells, fine cells per coarse cell (in three directions) and
    layers of oversampling. *)
Definition meant (s : string) (macro micro : list Z) (layers : Z) : Prop :=
  In (s, macro, micro, layers)
     [("p_small", [4; 4; 4], [8; 8; 8], 0); ("p_large", [20; 20; 20], [40; 40; 40], 0);
      ("p_aniso", [14; 4; 6], [3; 32; 8], 0); ("p_wover", [14; 14; 14], [18; 18; 18], 6);
      ("p_huge", [40; 40; 40], [120; 120; 120], 0); ("p_fail", [12; 15; 10], [6; 7; 10], 0);
      ("p_minimal", [1; 1; 1], [1; 1; 1], 0); ("p_small_aniso", [4; 2; 1], [8; 2; 1], 0);
      ("p_small_wover", [4; 4; 4], [8; 8; 8], 1)]%Z.

(** The test programs with a shipped configuration, and the setups each is run with. *)
Definition shipped : list (list line * list string) :=
  [(compare_cgfem_mini, ["p_small"; "p_minimal"]); (compare_msfem_mini, ["p_small"; "p_minimal"]);
   (error_calc_check_mini, ["p_small"; "p_wover"; "p_minimal"]);
   (grid_creation_mini, ["p_aniso"; "p_wover"; "p_small"]); (projection_mini, ["p_small"; "p_minimal"]);
   (proxy_mini, ["p_small"; "p_large"; "p_minimal"])].

(** Cells of the fine grid per direction. *)
Fixpoint fine_cells (macro micro : list Z) : list nat :=
  match macro, micro with n :: r, m :: q => Z.to_nat (n * m) :: fine_cells r q | _, _ => [] end.
