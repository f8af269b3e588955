(** Vocabulary for C32-C35. *)
From Coq Require Import List Arith ZArith QArith Qround Lia Bool.
From Verif Require Import Util GridModel.
Import ListNotations.
Open Scope Z_scope.

(** [n] is the smallest whole number of coarse cells of [m] fine cells each
    that covers [layers] fine cells. *)
Definition smallest_cover (layers : Z) (m : Q) (n : Z) : Prop :=
  (inject_Z layers <= inject_Z n * m)%Q /\
  (forall k, (inject_Z layers <= inject_Z k * m)%Q -> n <= k).

(** Every node of the first grid of [n] cells is a node of the second of [k]. *)
Definition nested (a b : Q) (n k : Z) : Prop :=
  forall i, 0 <= i <= n -> exists j, 0 <= j <= k /\ (node a b n i == node a b k j)%Q.

(** Number of cells of the whole grid. *)
Definition total (l : list Z) : Z := fold_right Z.mul 1 l.

(** A configuration of whole numbers. *)
Definition whole (c : config) (ns ms : list Z) : Prop :=
  Forall2 (fun q z => (q == inject_Z z)%Q) (c_coarse c) ns /\
  Forall2 (fun q z => (q == inject_Z z)%Q) (c_micro c) ms.
