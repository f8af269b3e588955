(** The fine grid as a list of elements with their nodes, and the test that
    projects a constant.

    /repo/dune/multiscale/common/grid_creation.cc:83-119 (fine grid),
    common/heterogenous.cc:10-96 (see ProjectionModel.v), test/projection.cc:34-50.
    Simplified: one process; exact rationals; YaspGrid is modelled as the tensor
    product grid it represents, nodes numbered by direction. *)
From Coq Require Import List Arith ZArith QArith.
From Verif Require Import ProjectionModel.
Import ListNotations.

(** Number of nodes of a grid with the given numbers of cells per direction:
    grid().size(world_dim), heterogenous.cc:67. *)
Fixpoint node_count (ns : list nat) : nat :=
  match ns with [] => 1 | n :: r => (n + 1) * node_count r end%nat.

(** Number of the node with the given indices: indexSet.index(node),
    heterogenous.cc:89. *)
Fixpoint number (ns ks : list nat) : nat :=
  match ns, ks with
  | _ :: r, k :: l => k * node_count r + number r l
  | _, _ => 0
  end%nat.

(** The elements with the numbers of their corners: the loops
    heterogenous.cc:85-94 run over; grid created in grid_creation.cc:99-103. *)
Fixpoint mesh (ns : list nat) : list (list nat) :=
  match ns with
  | [] => [[0]]
  | n :: r =>
    concat (map (fun i => map (fun e => map (fun j => i * node_count r + j) e ++
                                        map (fun j => (i + 1) * node_count r + j) e) (mesh r))
                (seq 0 n))
  end%nat.

(** The walk of heterogenous.cc:25-53 when the source has the value [u] at each
    node and every point is found. *)
Definition walk_of (u : nat -> Q) (ns : list nat) : list element :=
  map (map (fun j => (j, Some (u j)))) (mesh ns).

(** heterogenous.cc:10-56 on this grid; the target is new (error_calc.cc:175,
    test/projection.cc:44), its content is overwritten anyway. *)
Definition projected (u : nat -> Q) (ns : list nat) : presult :=
  project false (node_count ns) (mesh ns) (walk_of u ns) (repeat 0%Q (node_count ns)).

(** test/projection.cc:38-45: the projected constant one. *)
Definition projected_one (ns : list nat) : presult := projected (fun _ => 1%Q) ns.
