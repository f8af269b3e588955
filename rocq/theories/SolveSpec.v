(** Vocabulary for C110. *)
From Coq Require Import Reals List Arith Bool.
From Verif Require Import Util RSum LinModel QuadModel CoarseModel CoarseSpec SystemModel SystemSpec FemModel FemSpec PatchSpec.
Import ListNotations.
Open Scope R_scope.

(** Exactly one vector with entries 0 .. n-1 has the property. *)
Definition one_solution (n : nat) (S : (nat -> R) -> Prop) : Prop :=
  (exists x, S x) /\ forall x y, S x -> S y -> forall i, (i < n)%nat -> x i = y i.

(** A grid of boxes with a diffusion matrix per cell and point (compare
    [box_elements]). *)
Definition varied_elements (ns : list nat) (hs : list R) (num : list nat -> nat) (A : list nat -> list R -> nat -> nat -> R) : list element :=
  map (fun cs => {| el_factor := fun _ => volume hs; el_A := A cs;
                    el_grad := fun i xs => grad hs (one_at num i) cs xs |}) (cells ns).

(** The elements of a box grid for the reference solver. *)
Definition fine_boxes (ns : list nat) (hs : list R) (num : list nat -> nat) (global : list nat -> list R -> list R)
    (quad : list (list R * R)) (rquad : list nat -> list (list R * R)) (fs : list nat -> list (cface (list R))) :
    list (fcell (list R) * list (cface (list R))) :=
  map (fun cs => (fem_cell (box_cell hs num cs []) (global cs) (volume hs) quad (rquad cs), fs cs)) (cells ns).

(** Positive weights and at least two different points. *)
Definition two_points (line : list (R * R)) : Prop :=
  Forall (fun p => 0 < snd p) line /\ exists x1 w1 x2 w2, In (x1, w1) line /\ In (x2, w2) line /\ x1 <> x2.

(** No coarse function but zero vanishes at the constrained indices and has no
    multiscale gradient anywhere. *)
Definition seen {P} (d : nat) (N : nat) (constrained : nat -> bool) (grid : list (coarse_cell P * list (cface P))) : Prop :=
  forall v, (forall i, (i < N)%nat -> constrained i = true -> v i = 0) ->
    (forall c fs l q k, In (c, fs) grid -> In l (covered P c) -> In q (lc_quad P l) -> (k < d)%nat ->
       test_grad P v c l (fst q) k = 0) ->
    forall i, (i < N)%nat -> v i = 0.

(** Source and prescribed flux altogether. *)
Definition supply {P} (source neumann : P -> R) (grid : list (fcell P * list (cface P))) : R :=
  lsum grid (fun cf => fine_load P source (fst cf) (fun _ => 1) + boundary_load P neumann (snd cf) (fun _ => 1)).

(** Local grids without oversampling: every coarse cell is divided into [ms]
    boxes with edges [gs]; [loc cs i] are the node values of the i-th function
    stored for the coarse cell [cs]. *)
Definition inner_elements (ms : list nat) (gs : list R) (line : list (R * R)) (global : list nat -> list R -> list R)
    (rquad : list nat -> list (list R * R)) (vals : list nat -> nat -> list R -> R) (loc : nat -> list nat -> R) : list (local_cell (list R)) :=
  map (fun fs => {| lc_covered := true; lc_global := global fs; lc_factor := fun _ => volume gs;
                    lc_grad := fun i xs => grad gs (loc i) fs xs; lc_val := vals fs;
                    lc_quad := product_rule line (length ms); lc_rquad := rquad fs |}) (cells ms).
