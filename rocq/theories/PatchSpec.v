(** Vocabulary for C108: grids of boxes with multilinear functions.

    What the grid manager and the finite element space provide (external:
    YaspGrid of grid_creation.cc:83-96 and localgridlist.cc:63-66, elements of
    order one of common/traits.hh:58-59), written down from their definition. *)
From Coq Require Import Reals List Arith Bool.
From Verif Require Import Util RSum LinModel QuadModel CoarseModel CoarseSpec FemModel SystemModel.
Import ListNotations.
Open Scope R_scope.

(** Cells of a grid with [ns] cells per direction, by their lower corners. *)
Fixpoint cells (ns : list nat) : list (list nat) :=
  match ns with
  | [] => [[]]
  | n :: r => flat_map (fun c => map (cons c) (cells r)) (seq 0 n)
  end.
(** Corners of a cell. *)
Fixpoint corners (cs : list nat) : list (list nat) :=
  match cs with
  | [] => [[]]
  | c :: r => map (cons c) (corners r) ++ map (cons (S c)) (corners r)
  end.
(** Nodes of the grid and nodes on its boundary. *)
Definition node (ns js : list nat) : Prop := Forall2 le js ns.
Fixpoint outer_node (ns js : list nat) : bool :=
  match ns, js with
  | n :: ns', j :: js' => Nat.eqb j 0 || Nat.eqb j n || outer_node ns' js'
  | _, _ => false
  end.

(** The function on the cell [cs] that is linear in each direction and has
    the values [v] at the corners: value and derivative in direction [k] at
    reference coordinates [xs]; [hs] are the edge lengths. *)
Fixpoint value (v : list nat -> R) (cs : list nat) (xs : list R) : R :=
  match cs, xs with
  | c :: cs', x :: xs' => (1 - x) * value (fun js => v (c :: js)) cs' xs' + x * value (fun js => v (S c :: js)) cs' xs'
  | _, _ => v []
  end.
Fixpoint grad (hs : list R) (v : list nat -> R) (cs : list nat) (xs : list R) (k : nat) : R :=
  match hs, cs, xs with
  | h :: hs', c :: cs', x :: xs' =>
    match k with
    | O => (value (fun js => v (S c :: js)) cs' xs' - value (fun js => v (c :: js)) cs' xs') / h
    | S k' => (1 - x) * grad hs' (fun js => v (c :: js)) cs' xs' k' + x * grad hs' (fun js => v (S c :: js)) cs' xs' k'
    end
  | _, _, _ => 0
  end.

(** Node values of a function on the whole box that is linear in each direction. *)
Fixpoint multilinear (d : nat) (v : list nat -> R) : Prop :=
  match d with
  | O => True
  | S d' => exists a b, multilinear d' a /\ multilinear d' b /\ forall j js, v (j :: js) = a js + INR j * b js
  end.
(** Node values of a linear function, slope [ss] per cell in each direction. *)
Fixpoint linear (ss : list R) (v : list nat -> R) : Prop :=
  match ss with
  | [] => True
  | s :: ss' => linear ss' (fun js => v (O :: js)) /\ forall j js, v (j :: js) = v (O :: js) + INR j * s
  end.

(** [num] numbers the nodes by 0 .. n-1. *)
Definition numbering (ns : list nat) (num : list nat -> nat) (n : nat) : Prop :=
  (forall js, node ns js -> (num js < n)%nat) /\
  (forall js js', node ns js -> node ns js' -> num js = num js' -> js = js') /\
  (forall i, (i < n)%nat -> exists js, node ns js /\ num js = i).
(** Exactly the outer nodes are constrained. *)
Definition outer_constrained (ns : list nat) (num : list nat -> nat) (con : nat -> bool) : Prop :=
  forall js, node ns js -> con (num js) = outer_node ns js.

Definition volume (hs : list R) : R := fold_right Rmult 1 hs.
Definition one_at (num : list nat -> nat) (i : nat) : list nat -> R := fun js => if Nat.eqb (num js) i then 1 else 0.
(** Positive definite matrix. *)
Definition positive (d : nat) (A : nat -> nat -> R) : Prop :=
  forall z : nat -> R, (exists k, (k < d)%nat /\ z k <> 0) -> 0 < dot d (mv d A z) z.
Definition diagonal (A : nat -> nat -> R) : Prop := forall i j, i <> j -> A i j = 0.

(** A local grid of boxes with the same diffusion matrix everywhere. *)
Definition box_elements (ns : list nat) (hs : list R) (num : list nat -> nat) (A : nat -> nat -> R) : list element :=
  map (fun cs => {| el_factor := fun _ => volume hs; el_A := fun _ => A;
                    el_grad := fun i xs => grad hs (one_at num i) cs xs |}) (cells ns).

(** The coarse cell [cs] with its corner functions, two more functions than
    corners and local elements [ls] ... *)
Definition box_cell (hs : list R) (num : list nat -> nat) (cs : list nat) (ls : list (local_cell (list R))) :
  coarse_cell (list R) :=
  {| cc_n := length (corners cs);
     cc_grad := fun i xs => grad hs (one_at num (num (nth i (corners cs) []))) cs xs;
     cc_val := fun i xs => value (one_at num (num (nth i (corners cs) []))) cs xs;
     cc_index := fun i => num (nth i (corners cs) []);
     cc_slots := length (corners cs) + 2;
     cc_locals := ls |}.
(** ... and as a cell of the finite element method on the coarse grid itself. *)
Definition fem_cell {P} (c : coarse_cell P) (global : P -> P) (vol : R) (quad rquad : list (P * R)) : fcell P :=
  {| fc_n := cc_n P c; fc_grad := cc_grad P c; fc_val := cc_val P c; fc_index := cc_index P c;
     fc_global := global; fc_factor := fun _ => vol; fc_quad := quad; fc_rquad := rquad |}.

(** The covered elements have the volume [vol] together, the same rules, and
    nothing is stored on them but zero functions. *)
Definition uncorrected {P} (c : coarse_cell P) (vol : R) (quad rquad : list (P * R)) : Prop :=
  exists f : local_cell P -> R,
    lsum (covered P c) f = vol /\
    forall l, In l (covered P c) ->
      lc_quad P l = quad /\ lc_rquad P l = rquad /\ (forall x, lc_factor P l x = f l) /\
      (forall i x, (i < cc_n P c + 2)%nat -> lc_val P l i x = 0 /\ forall k, lc_grad P l i x k = 0).
