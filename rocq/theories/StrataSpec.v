(** Vocabulary for C132: diffusion that does not change along the flow. *)
From Coq Require Import Reals List Arith Bool.
From Verif Require Import Util RSum CoarseModel SystemModel PatchSpec LayerSpec.
Import ListNotations.
Open Scope R_scope.

(** The two lists differ in entry [k] at most. *)
Definition beside {X} (k : nat) (a b : list X) : Prop := forall m, m <> k -> nth_error a m = nth_error b m.

(** Gradient of the linear function with slope [ss] per cell of edges [hs]. *)
Definition slope (ss hs : list R) : nat -> R := fun m => nth m ss 0 / nth m hs 1.

(** The flux of the gradient [s] in direction [k] stays the same if one moves in
    direction [k].  Across this direction it may change as it likes. *)
Definition steady (d : nat) (diffusion : list R -> nat -> nat -> R) (s : nat -> R) : Prop :=
  forall k y z, (k < d)%nat -> beside k y z -> mv d (diffusion y) s k = mv d (diffusion z) s k.

(** Grids parallel to the axes: moving to another cell in direction [k] moves a
    point in direction [k]. *)
Definition straight (ns : list nat) (global : list nat -> list R -> list R) : Prop :=
  forall k cs cs' xs, In cs (cells ns) -> In cs' (cells ns) -> length xs = length ns -> beside k cs cs' ->
    beside k (global cs xs) (global cs' xs).

(** Node values on the local grid of the multiscale function of a coarse cell:
    coarse functions with their correctors, Dirichlet corrector, minus Neumann
    corrector. *)
Definition multiscale_node (hs : list R) (num : list nat -> nat) (p : patch) (cs : list nat) (x : nat -> nat -> R)
    (u : nat -> R) (js : list nat) : R :=
  rsum (length (corners cs)) (fun i =>
    u (num (nth i (corners cs) [])) * (restricted hs p (one_at num (num (nth i (corners cs) []))) cs js + x i (pa_num p js)))
  + (x (length (corners cs) + 1)%nat (pa_num p js) - x (length (corners cs)) (pa_num p js)).
