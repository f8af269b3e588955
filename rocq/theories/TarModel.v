(** Concurrent evaluations of one Tarbert diffusion object.

    /repo/dune/multiscale/problems/tarbert.cc:136-156 with the mutable members
    of /repo/dune/multiscale/problems/tarbert.hh:80-81.  Every access to a
    shared member is one step.  Simplified: sequentially consistent memory (the
    accesses are data races in C++, formally undefined); the table was read,
    its entries are given by a function; only the diagonal of the matrix is
    written. *)
From Coq Require Import ZArith List Arith Bool.
From Verif Require Import Util.
Import ListNotations.
Open Scope nat_scope.

Section Race.
Variable point : Type.
Variable val : Type.
Variable dim : nat.                     (* DomainType::dimension *)
Variable interval : point -> nat -> Z.  (* floor(x[dim] / deltas_[dim]), line 137 *)
Variable stride : nat -> Z.             (* factors in [offset], lines 144,149 *)
Variable entry : nat -> Z -> val.       (* permeability_[offset + block k], lines 145-152 *)

(** Members permIntervalls_ and the diagonal of permMatrix_, tarbert.hh:80-81. *)
Record shared := { intervals : nat -> Z; matrix : nat -> val }.
(** Assignment to one place: tarbert.cc:137, 145-152. *)
Definition set {A} (f : nat -> A) (k : nat) (a : A) : nat -> A := fun j => if Nat.eqb j k then a else f j.

(** Where a thread is in evaluate: writing intervals (136-137), summing up the
    offset (144/149), writing the matrix (145-152), copying it to [y] (156). *)
Inductive pc : Type :=
| Idle
| Write (x : point) (k : nat)
| Sum (x : point) (k : nat) (offset : Z)
| Fill (x : point) (k : nat) (offset : Z)
| Copy (x : point) (k : nat) (y : list val).

(** A thread calling evaluate (tarbert.cc:122-157): points still to be evaluated, position, results so far. *)
Record thread := { todo : list point; at_ : pc; done : list (point * list val) }.

(** One step of a thread: tarbert.cc:136-137, 144/149, 145-152, 156. *)
Definition tstep (sh : shared) (t : thread) : option (shared * thread) :=
  match at_ t with
  | Idle =>
      match todo t with
      | [] => None
      | x :: r => Some (sh, {| todo := r; at_ := Write x 0; done := done t |})
      end
  | Write x k =>
      Some ({| intervals := set (intervals sh) k (interval x k); matrix := matrix sh |},
            {| todo := todo t; at_ := if Nat.ltb (S k) dim then Write x (S k) else Sum x 0 0;
               done := done t |})
  | Sum x k o =>
      let o' := (o + intervals sh k * stride k)%Z in
      Some (sh, {| todo := todo t; at_ := if Nat.ltb (S k) dim then Sum x (S k) o' else Fill x 0 o';
                   done := done t |})
  | Fill x k o =>
      Some ({| intervals := intervals sh; matrix := set (matrix sh) k (entry k o) |},
            {| todo := todo t; at_ := if Nat.ltb (S k) dim then Fill x (S k) o else Copy x 0 [];
               done := done t |})
  | Copy x k y =>
      let y' := y ++ [matrix sh k] in
      Some (sh, if Nat.ltb (S k) dim
                then {| todo := todo t; at_ := Copy x (S k) y'; done := done t |}
                else {| todo := todo t; at_ := Idle; done := done t ++ [(x, y')] |})
  end.

(** All threads in evaluate, tarbert.cc:122-157; a schedule names the thread to move (no effect if it cannot). *)
Definition state : Type := (shared * list thread)%type.
(** One step of the evaluation (tarbert.cc:136-156) by thread [i]. *)
Definition gstep (s : state) (i : nat) : state :=
  match nth_error (snd s) i with
  | None => s
  | Some t => match tstep (fst s) t with
              | None => s
              | Some (sh, t') => (sh, upd (snd s) i t')
              end
  end.
(** A schedule of evaluations, tarbert.cc:136-156. *)
Definition run (schedule : list nat) (s : state) : state := fold_left gstep schedule s.

(** Threads before the first evaluation (tarbert.cc:122). *)
Definition start (programs : list (list point)) : list thread :=
  map (fun p => {| todo := p; at_ := Idle; done := [] |}) programs.
End Race.
