(** Vocabulary for C112: the method as a whole. *)
From Coq Require Import Reals List Arith Bool.
From Verif Require Import Util RSum LinModel LinSpec QuadModel CoarseModel SystemModel PatchSpec SolveSpec LayerSpec.
Import ListNotations.
Open Scope R_scope.

(** A result of the method: local functions [x cs i] for every coarse cell (one
    per corner, then the two boundary correctors with the right hand
    sides [extra cs i]) and coarse values [u]. *)
Definition result (ns : list nat) (hs : list R) (num : list nat -> nat) (n : nat) (con : nat -> bool) (pa : list nat -> patch)
    (diffusion : list R -> nat -> nat -> R) (order rhs_order : nat) (line : list (R * R))
    (rquad : list nat -> list nat -> list (list R * R)) (extra : list nat -> nat -> nat -> R)
    (fs : list nat -> list (cface (list R))) (source neumann : list R -> R) (g : nat -> R)
    (x : list nat -> nat -> nat -> R) (u : nat -> R) : Prop :=
  (forall cs, In cs (cells ns) ->
     corrected hs num diffusion order rhs_order (pa cs) cs (x cs) /\
     forall i, (length (corners cs) <= i < length (corners cs) + 2)%nat ->
       local_problem (length ns) (patch_points (length ns) order diffusion (pa cs))
         (pa_n (pa cs)) (pa_con (pa cs)) (extra cs i) (x cs i)) /\
  coarse_solution (length ns) (list R) diffusion source neumann n con g (patched ns hs num pa line rquad x fs) u.

(** Two results with the same coarse values and the same local functions. *)
Definition same_result (ns : list nat) (n : nat) (pa : list nat -> patch) (x x' : list nat -> nat -> nat -> R) (u u' : nat -> R) : Prop :=
  (forall i, (i < n)%nat -> u i = u' i) /\
  forall cs i m, In cs (cells ns) -> (i < length (corners cs) + 2)%nat -> (m < pa_n (pa cs))%nat -> x cs i m = x' cs i m.
