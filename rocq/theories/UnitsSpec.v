(** Vocabulary for C113: the same problem in other units. *)
From Coq Require Import Reals List Arith Bool.
From Verif Require Import Util RSum SystemModel PatchSpec LayerSpec.
Import ListNotations.
Open Scope R_scope.

(** A point or the edges of a box when lengths are [L] times as large. *)
Definition longer (L : R) (y : list R) : list R := map (Rmult L) y.
(** The same local grid: numbering, constraints and reference coordinates do
    not change. *)
Definition longer_patch (L : R) (p : patch) : patch :=
  {| pa_cells := pa_cells p; pa_edges := longer L (pa_edges p); pa_low := pa_low p; pa_num := pa_num p; pa_n := pa_n p;
     pa_con := pa_con p; pa_inside := pa_inside p; pa_global := fun f xs => longer L (pa_global p f xs) |}.
(** The same face of a cell in [d] dimensions. *)
Definition longer_face (d : nat) (L : R) (f : cface (list R)) : cface (list R) :=
  {| cf_neumann := cf_neumann _ f;
     cf_quad := map (fun q => (fst (fst q), longer L (snd (fst q)), L ^ d / L * snd q)) (cf_quad _ f) |}.

(** Data in other units: lengths times [L], diffusion times [s], solution times
    [t]. *)
Definition other_units (L s t : R) (diffusion diffusion' : list R -> nat -> nat -> R)
    (source source' neumann neumann' : list R -> R) : Prop :=
  (forall y i j, diffusion' (longer L y) i j = s * diffusion y i j) /\
  (forall y, source' (longer L y) = s * t / (L * L) * source y) /\
  (forall y, neumann' (longer L y) = s * t / L * neumann y).

(** Local functions: only the two boundary correctors have the unit of the
    solution. *)
Definition other_locals (t : R) (x : list nat -> nat -> nat -> R) : list nat -> nat -> nat -> R :=
  fun cs i m => if Nat.ltb i (length (corners cs)) then x cs i m else t * x cs i m.
