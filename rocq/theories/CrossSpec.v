(** Vocabulary for C135: faces of coarse cells, layers across the flow. *)
From Coq Require Import Reals List Arith Bool.
From Verif Require Import Util RSum CoarseModel SystemModel PatchSpec LayerSpec StrataSpec.
Import ListNotations.
Open Scope R_scope.

(** [js'] is [m] nodes after [js] in direction [k]. *)
Definition ahead (k m : nat) (js js' : list nat) : Prop :=
  length js' = length js /\ beside k js js' /\ nth k js' 0%nat = (nth k js 0 + m)%nat.

(** The node of the fine grid at the node [js] of the coarse cell [cs], which is
    divided into [ms] cells. *)
Fixpoint fine_node (ms cs js : list nat) : list nat :=
  match ms, cs, js with
  | m :: ms', c :: cs', j :: js' => (c * m + j)%nat :: fine_node ms' cs' js'
  | _, _, _ => []
  end.

(** Layers across direction [k]: inside the cells of layer [c], that is with
    number [c] in direction [k], a unit gradient in direction [k] has the flux
    [a c] in direction [k].  What gradients in other directions do is free. *)
Definition layers (ns : list nat) (global : list nat -> list R -> list R) (diffusion : list R -> nat -> nat -> R)
    (k : nat) (a : nat -> R) : Prop :=
  forall cs xs i, In cs (cells ns) -> length xs = length ns -> Forall (fun x => 0 < x < 1) xs -> (i < length ns)%nat ->
    diffusion (global cs xs) i k = if Nat.eqb i k then a (nth k cs 0%nat) else 0.

(** The largest of three errors. *)
Definition worst (x y z : R) : R := Rmax (Rabs x) (Rmax (Rabs y) (Rabs z)).

(** Resistance of the [m] layers from layer [c] on. *)
Definition resistance (a : nat -> R) (c m : nat) : R := rsum m (fun i => / a (c + i)%nat).
