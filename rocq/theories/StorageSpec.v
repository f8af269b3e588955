(** Vocabulary for the storage properties C01-C07.  Only observable notions:
    what a handle shows ([view]), what the store holds ([stored]), outcomes
    of operations. *)
From Coq Require Import List Arith Lia Bool.
From Verif Require Import Util StorageModel.
Import ListNotations.

Section Spec.
Variable F : Scalar.

(** States some client history leads to (histories with undefined behaviour
    excluded, exceptions included). *)
Definition reachable (s : state F) : Prop :=
  exists ops, run F (init F) ops = Some s.

(** Number of handles created so far; the next handle gets this number. *)
Definition handles (s : state F) : nat := length (mgrs F s).

(** Cell a handle was created for. *)
Definition handle_cell (s : state F) (m : nat) : option nat :=
  option_map m_key (nth_error (mgrs F s) m).

(** Number of local problems of a handle. *)
Definition handle_num (s : state F) (m : nat) : nat :=
  match nth_error (mgrs F s) m with None => 0 | Some mg => m_num mg end.

(** The handle refers to the storage currently registered for cell [k]
    (i.e. the store was not cleared since the handle was created). *)
Definition live_for (s : state F) (m k : nat) : Prop :=
  exists mg, nth_error (mgrs F s) m = Some mg /\ m_key mg = k /\
             assoc k (reg F s) = Some (m_back mg).

(** Cell addressed by an operation ([None]: none). *)
Definition op_cell (s : state F) (o : op F) : option nat :=
  match o with
  | New _ key _ _ => Some key
  | Write _ m _ _ | Scale _ m _ _ | Save _ m | Load _ m | Drop _ m => handle_cell s m
  | Clear _ | Fail _ => None
  end.

(** State after an operation that did not run into undefined behaviour. *)
Definition after (s : state F) (o : op F) : option (state F) :=
  match step F s o with Ok _ s' => Some s' | Throw _ s' => Some s' | UB _ => None end.

(** Activity after a save of cell [k] that a reader of [k] need not care
    about: operations on other cells, and complete read cycles (new handle,
    one load) of any cell. *)
Inductive act : Type :=
| Other (o : op F)
| ReadFresh (key num len : nat).

(** Run one activity; exceptions are survived. *)
Definition run_act (s : state F) (a : act) : option (state F) :=
  match a with
  | Other o => after s o
  | ReadFresh key num len =>
      match after s (New F key num len) with
      | Some s1 => after s1 (Load F (handles s))
      | None => None
      end
  end.

Fixpoint run_acts (s : state F) (l : list act) : option (state F) :=
  match l with
  | [] => Some s
  | a :: r => match run_act s a with Some s' => run_acts s' r | None => None end
  end.

(** No activity of [l] clears the store, and all plain operations address
    cells other than [k]. *)
Fixpoint leaves_alone (k : nat) (s : state F) (l : list act) : Prop :=
  match l with
  | [] => True
  | a :: r =>
    match a with
    | Other o => o <> Clear F /\ op_cell s o <> Some k
    | ReadFresh _ _ _ => True
    end /\
    match run_act s a with Some s' => leaves_alone k s' r | None => True end
  end.

(** Nobody clears the store, saves for cell [k] or replaces the functions of
    handle [m]. *)
Fixpoint undisturbed (k m : nat) (s : state F) (ops : list (op F)) : Prop :=
  match ops with
  | [] => True
  | o :: r =>
    o <> Clear F /\ o <> Load F m /\ o <> Drop F m /\
    (forall m', o = Save F m' -> handle_cell s m' <> Some k) /\
    match after s o with Some s' => undisturbed k m s' r | None => True end
  end.

(** All-zero vector of the same length. *)
Definition zeroed (v : vec F) : vec F := map (fun _ => k0 F) v.

(** What a fresh handle with [num] slots would load for cell [k] in state
    [s]: outcome of creating it and loading once, and what it shows. *)
Definition fresh_read (s : state F) (k num len : nat) : option (list (vec F)) :=
  match step F s (New F k num len) with
  | Ok _ s1 => match step F s1 (Load F (handles s)) with
               | Ok _ s2 => Some (view F s2 (handles s))
               | _ => None
               end
  | _ => None
  end.

End Spec.

Section Replay.
Variable F : Scalar.

(** The same operation issued by a client whose handles are numbered from
    [d] on. *)
Definition shift_op (d : nat) (o : op F) : op F :=
  match o with
  | New _ k n l => New F k n l
  | Write _ m i v => Write F (d + m) i v
  | Scale _ m i c => Scale F (d + m) i c
  | Save _ m => Save F (d + m)
  | Load _ m => Load F (d + m)
  | Drop _ m => Drop F (d + m)
  | Clear _ => Clear F
  | Fail _ => Fail F
  end.

(** Two outcomes look the same to a client whose handles are numbered from
    0 (first) resp. from [d] on (second): same kind of outcome, same views
    of all its handles, same stored data. *)
Definition same_for_client (d : nat) (o1 o2 : outcome F) : Prop :=
  let same s1 s2 :=
    (forall m, view F s2 (d + m) = view F s1 m) /\
    (forall k, stored F s2 k = stored F s1 k) in
  match o1, o2 with
  | Ok _ s1, Ok _ s2 => same s1 s2
  | Throw _ s1, Throw _ s2 => same s1 s2
  | UB _, UB _ => True
  | _, _ => False
  end.

End Replay.
