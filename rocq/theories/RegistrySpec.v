(** Vocabulary for C08-C10, C66. *)
From Coq Require Import List Arith Lia Bool.
From Verif Require Import Util RegistryModel.
Import ListNotations.

(** States reachable under some schedule. *)
Definition rreach (debug : bool) (m0 : list (nat * nat)) (next0 : nat)
    (progs : nat -> list nat) (s : rstate) : Prop :=
  exists sched, rrun debug (rinit m0 next0 progs) sched = Some s.

(** Key [k] is registered with object [o]. *)
Definition registered (s : rstate) (k o : nat) : Prop := In (k, o) (r_map s).

(** Well-formed start: keys registered once with distinct objects, older than
    [next0]. *)
Definition start_ok (m0 : list (nat * nat)) (next0 : nat) : Prop :=
  NoDup (map fst m0) /\ NoDup (map snd m0) /\ forall k o, In (k, o) m0 -> o < next0.

(** A thread is inside map.find while another one is inside map_emplace. *)
Definition racing (s : rstate) : Prop :=
  exists t t' k k' o', t <> t' /\ t_pc (r_thr s t) = Reading k /\
                       t_pc (r_thr s t') = Inserting k' o'.

(** Thread [t'] registered [k] after the failed lookup of [t]: in the (newest
    first) event log, the insertion stands before the miss. *)
Definition inserted_after_miss (s : rstate) (t t' k : nat) : Prop :=
  exists l1 l2 l3, r_log s = l1 ++ EIns t' k :: l2 ++ EMiss t k :: l3.

(** Thread [t] has nothing left to do. *)
Definition finished (s : rstate) (t : nat) : Prop :=
  t_pc (r_thr s t) = Ready /\ t_todo (r_thr s t) = [].

(** The key a thread is working on, if any. *)
Definition current (p : pc) : list nat :=
  match p with
  | Ready => []
  | Reading k | Missed k | Locked k | Inserting k _ | Leaving k _ => [k]
  end.

(** Sum of [f 0 .. f (n-1)]. *)
Fixpoint total (f : nat -> nat) (n : nat) : nat :=
  match n with O => 0 | S m => total f m + f m end.
