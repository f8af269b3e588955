(** Projection of the multiscale solution onto the fine grid.

    /repo/dune/multiscale/common/heterogenous.cc:10-96.
    Simplified: one degree of freedom per grid node, numbered like the nodes
    (first order Lagrange space); values are exact rationals; the point search
    and the evaluation of the source (lines 27-42, see SearchModel) enter as
    the value found at each corner of each element ([None]: no entity found).
    [vector().set(k, x)] (line 44, external class GDT::LocalDoFVector)
    overwrites the entry. *)
From Coq Require Import List Arith ZArith QArith Lia Bool.
From Verif Require Import Util.
Import ListNotations.

(** One element: its nodes with the source value found there (lines 27-43). *)
Definition element : Type := list (nat * option Q).

(** How project ends, lines 10-78. *)
Inductive presult : Type :=
| Projected (v : list Q)
| NotFound           (* InvalidStateException, line 47 *)
| AssertionFails.    (* lines 72, 73, 92 *)

(** preprocess, lines 58-62. *)
Definition preprocess (v : list Q) : list Q := map (fun x => 0 * x)%Q v.

(** Line 44; [acc] = false is the code ([set]); [acc] = true is the variant
    that accumulates instead. *)
Definition write (acc : bool) (v : list Q) (i : nat) (x : Q) : list Q :=
  upd v i (if acc then nth i v 0 + x else x)%Q.

(** Body of the loop over the points of one element, lines 34-49; writes done
    before the exception is thrown are irrelevant, the target is lost. *)
Fixpoint project_element (acc : bool) (v : list Q) (e : element) : option (list Q) :=
  match e with
  | [] => Some v
  | (i, Some x) :: r => project_element acc (write acc v i x) r
  | (i, None) :: r => None
  end.

(** Grid walk, lines 52-53, in the given order. *)
Fixpoint walk (acc : bool) (v : list Q) (es : list element) : option (list Q) :=
  match es with
  | [] => Some v
  | e :: r => match project_element acc v e with None => None | Some v' => walk acc v' r end
  end.

(** identifySharedNodes, lines 80-96; None: assertion of line 92. *)
Fixpoint count_nodes (m : list nat) (nodes : list nat) : option (list nat) :=
  match nodes with
  | [] => Some m
  | i :: r => if Nat.ltb i (length m) then count_nodes (upd m i (S (nth i m 0%nat))) r else None
  end.
(** The loop over all elements, lines 84-95. *)
Fixpoint identify_shared (m : list nat) (leaf : list (list nat)) : option (list nat) :=
  match leaf with
  | [] => Some m
  | e :: r => match count_nodes m e with None => None | Some m' => identify_shared m' r end
  end.

(** Loop of postprocess, lines 70-76. *)
Fixpoint divide (v : list Q) (m : list nat) : option (list Q) :=
  match v with
  | [] => Some []
  | x :: r =>
    match m with
    | [] => None                                             (* 72 *)
    | k :: m' =>
      if Nat.ltb 0%nat k then                                    (* 73 *)
        match divide r m' with None => None
                             | Some r' => Some ((x / inject_Z (Z.of_nat k))%Q :: r') end
      else None
    end
  end.

(** postprocess, lines 64-78; [nnodes] = grid().size(world_dim). *)
Definition postprocess (nnodes : nat) (leaf : list (list nat)) (v : list Q) : presult :=
  match identify_shared (repeat 0%nat nnodes) leaf with
  | None => AssertionFails
  | Some m => match divide v m with None => AssertionFails | Some v' => Projected v' end
  end.

(** project, lines 10-56. *)
Definition project (acc : bool) (nnodes : nat) (leaf : list (list nat))
    (interior : list element) (v : list Q) : presult :=
  match walk acc (preprocess v) interior with
  | None => NotFound
  | Some v' => postprocess nnodes leaf v'
  end.
