(** Vocabulary for C13-C17. *)
From Coq Require Import List Arith Lia Bool.
From Verif Require Import Util StorageModel StorageSpec MsfemModel.
Import ListNotations.

Section Spec.
Variable F : Scalar.
Notation vec := (vec F).

(** Finite sum f 0 + ... + f (n-1). *)
Fixpoint sum_n (n : nat) (f : nat -> F) : F :=
  match n with O => k0 F | S n' => kadd F (sum_n n' f) (f n') end.

(** j-th coefficient of the i-th vector. *)
Definition coef (l : list vec) (i j : nat) : F := nth j (nth i l []) (k0 F).

(** Node [j] occurs in the mesh as a node outside the coarse cell. *)
Definition outside (mesh : list (list (nat * bool))) (j : nat) : bool :=
  existsb (existsb (fun nd => Nat.eqb (fst nd) j && negb (snd nd))) mesh.

(** Reference value of the correction of a cell at node [j]: cut linear
    combination of the first [n] functions with the coarse values as
    coefficients, plus function [n+1], minus function [n]. *)
Definition ref_value (cut : bool) (mesh : list (list (nat * bool))) (n : nat)
    (coarse : list F) (sols : list vec) (j : nat) : F :=
  ksub F (kadd F
     (if cut && outside mesh j then k0 F
      else sum_n n (fun i => kmul F (nth i coarse (k0 F)) (coef sols i j)))
     (coef sols (S n) j))
   (coef sols n j).

(** The part of a trace that belongs to cell [k]. *)
Definition proj {A} (k : nat) (tr : list (nat * A)) : list A :=
  map snd (filter (fun e => Nat.eqb (fst e) k) tr).

(** [tr] is an interleaving of the complete work on the cells [cs] (each
    cell handled once, by whatever thread) and contains nothing else. *)
Definition interleaving (cs : list (cell F)) (tr : list (nat * instr F)) : Prop :=
  (forall c, In c cs -> cell_prog F c = Some (proj (c_key F c) tr)) /\
  (forall k, ~ In k (map (c_key F) cs) -> proj k tr = []).

(** The functions the local solver produces for a cell. *)
Definition solver_functions (c : cell F) (sols : list vec) : Prop :=
  solve_all_on_single_cell F c (fresh_slots F c) = Some sols.

(** Store state at the beginning of a run: reachable, nothing registered. *)
Definition empty_store (s : state F) : Prop := reachable F s /\ reg F s = [].

(** Dimensions of a cell's data fit together: right hand sides and local
    solutions live in the local space. *)
Definition dims_ok (c : cell F) : Prop :=
  (forall i, length (c_inner F c i) = c_len F c) /\
  length (c_neu F c) = c_len F c /\ length (c_dir F c) = c_len F c /\
  (forall v, length v = c_len F c -> length (c_constrain F c v) = c_len F c) /\
  (forall s r x, length s = c_len F c -> length r = c_len F c ->
     c_solve F c s r = Some x -> length x = c_len F c).

(** Mesh flags that come from one predicate on nodes: a node's position
    decides whether it lies in the coarse cell. *)
Definition flags_from (inside : nat -> bool) (mesh : list (list (nat * bool))) : Prop :=
  forall e nd, In e mesh -> In nd e -> snd nd = inside (fst nd).

Definition is_node (mesh : list (list (nat * bool))) (j : nat) : Prop :=
  exists e nd, In e mesh /\ In nd e /\ fst nd = j.

(** Same nodes with the same flags up to order and repetitions: any
    reordering of elements and of nodes within elements. *)
Definition same_nodes (m1 m2 : list (list (nat * bool))) : Prop :=
  forall nd, In nd (concat m1) <-> In nd (concat m2).

End Spec.
