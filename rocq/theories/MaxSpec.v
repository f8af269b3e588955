(** Vocabulary for C116, C117: shape of the cells, data in a cell. *)
From Coq Require Import Reals List Arith Bool.
From Verif Require Import Util RSum SystemModel PatchSpec LayerSpec.
Import ListNotations.
Open Scope R_scope.

(** Diffusion in direction [k] over the square of the edge length. *)
Definition steep (hs : list R) (a : nat -> R) (k : nat) : R := a k / (nth k hs 1 * nth k hs 1).
(** In every direction this is at least a third of the sum over all directions.
    With equal diffusion in all directions: always true on the line; no edge
    longer than sqrt 2 times the other in the plane; cubes in space. *)
Definition even_shape (hs : list R) (a : nat -> R) : Prop :=
  forall k, (k < length hs)%nat -> rsum (length hs) (steep hs a) <= 3 * steep hs a k.

(** The diffusion has the diagonal [a cs] inside the cell [cs] and no other
    entries. *)
Definition cellwise (ns : list nat) (global : list nat -> list R -> list R) (diffusion : list R -> nat -> nat -> R)
    (a : list nat -> nat -> R) : Prop :=
  forall cs xs i j, In cs (cells ns) -> length xs = length ns -> Forall (fun x => 0 < x < 1) xs -> (i < length ns)%nat -> (j < length ns)%nat ->
    diffusion (global cs xs) i j = if Nat.eqb i j then a cs i else 0.

(** Points of the reference cell in [d] dimensions. *)
Definition in_cell (d : nat) (xs : list R) : Prop := length xs = d /\ Forall (fun x => 0 <= x <= 1) xs.
(** Quadratures with points of the cell and weights that are not negative. *)
Definition good_rules (ns : list nat) (rquad : list nat -> list (list R * R)) (fs : list nat -> list (cface (list R))) : Prop :=
  forall cs, In cs (cells ns) ->
    (forall q, In q (rquad cs) -> in_cell (length ns) (fst q) /\ 0 <= snd q) /\
    forall f q, In f (fs cs) -> In q (cf_quad _ f) -> in_cell (length ns) (fst (fst q)) /\ 0 <= snd q.

(** A local grid that is exactly the coarse cell with edges [hs]. *)
Definition fills (hs : list R) (p : patch) : Prop :=
  forall k, (k < length hs)%nat -> nth k (pa_low p) 0 = 0 /\ INR (nth k (pa_cells p) 0%nat) * nth k (pa_edges p) 0 = nth k hs 0.

(** The coarse function with values [u] at the coarse nodes plus the stored
    functions [x], at the point [xs] of the fine cell [f] of the local grid. *)
Definition corrected_value (hs : list R) (num : list nat -> nat) (p : patch) (cs : list nat) (x : nat -> nat -> R) (u : nat -> R)
    (f : list nat) (xs : list R) : R :=
  value (fun js => u (num js)) cs (place (pa_low p) (pa_edges p) hs f xs) +
  rsum (length (corners cs)) (fun i => u (num (nth i (corners cs) [])) * value (fun js => x i (pa_num p js)) f xs).
