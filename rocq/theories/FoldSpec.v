(** Vocabulary for C129: data as the coarse system sees them. *)
From Coq Require Import Reals List Arith Bool.
From Verif Require Import Util RSum CoarseModel CoarseSpec SystemModel PatchSpec LayerSpec.
Import ListNotations.
Open Scope R_scope.

(** Mean over the covered local elements of the values of [f] at the same place
    [x] in each of them; [vol]: volume of the coarse cell. *)
Definition folded {P} (c : coarse_cell P) (vol : R) (f : P -> R) (x : P) : R :=
  lsum (covered P c) (fun l => lc_factor P l x * f (lc_global P l x)) / vol.

(** The same rules on all local elements. *)
Definition same_rules {P} (c : coarse_cell P) (quad rquad : list (P * R)) : Prop :=
  forall l, In l (covered P c) -> lc_quad P l = quad /\ lc_rquad P l = rquad.

(** The stored functions vanish at the points of the rules. *)
Definition nothing_added {P} (c : coarse_cell P) (quad rquad : list (P * R)) : Prop :=
  forall l q i, In l (covered P c) -> In q (quad ++ rquad) -> (i < cc_n P c + 2)%nat ->
    lc_val P l i (fst q) = 0 /\ forall k, lc_grad P l i (fst q) k = 0.

(** Value of the correction of the coarse function [v]. *)
Definition correction {P} (v : nat -> R) (c : coarse_cell P) (l : local_cell P) (x : P) : R :=
  rsum (cc_n P c) (fun i => v (cc_index P c i) * lc_val P l i x).

(** Fine cells of a local grid inside the coarse cell, and the mean of [f] over
    them at the same place [x]. *)
Definition inside (p : patch) : list (list nat) := filter (pa_inside p) (cells (pa_cells p)).
Definition mean_inside (p : patch) (f : list R -> R) (x : list R) : R :=
  lsum (inside p) (fun fs => f (pa_global p fs x)) / INR (length (inside p)).
