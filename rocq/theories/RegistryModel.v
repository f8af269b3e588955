(** Concurrent lookups in the registry of storage objects.

    Models /repo/dune/multiscale/common/df_io.hh:149-160
    (DiscreteFunctionIO::get) executed by any number of threads, as called
    from the parallel cell loop
    msfem/localproblems/localproblemsolver.cc:134-152.

    Atomic steps of one call get(map, key):
      begin of map.find (line 152), end of map.find (152-154, the result is
      the one at the end of the call), lock_guard (155), make_shared and
      begin of map_emplace (156-157), end of map_emplace with
      assert(ret.second) (157-158), unlock and return (159).
    Simplified: the map is a list of (key, object); reading the map while
    another thread is inserting is a data race, the model makes such states
    visible (pc [Reading] next to pc [Inserting]) and continues with the
    value of the map at the end of the read. [debug] says whether assertions
    are compiled in. *)
From Coq Require Import List Arith Lia Bool.
From Verif Require Import Util.
Import ListNotations.

(** Position of a thread inside get, df_io.hh:149-160. *)
Inductive pc : Type :=
| Ready                      (* before the next call *)
| Reading (k : nat)          (* inside map.find, line 152 *)
| Missed (k : nat)           (* find returned end(), before line 155 *)
| Locked (k : nat)           (* holds mutex_, line 155 *)
| Inserting (k o : nat)      (* object o created, inside map_emplace, 156-157 *)
| Leaving (k o : nat).       (* before unlock and return, line 159 *)

(** Ghost events, newest first; not part of the program: a failed find
    (df_io.hh:152), an insertion (157). *)
Inductive event : Type :=
| EMiss (t k : nat)
| EIns (t k : nat).

(** A thread of the cell loop, localproblemsolver.cc:134-152: its calls of get. *)
Record thread : Type := {
  t_pc : pc;
  t_todo : list nat;                (* keys still to be looked up *)
  t_done : list (nat * nat)         (* completed lookups (key, object) *)
}.

(** Shared state: the map memory_ (df_io.hh:178), mutex_ (180), next fresh
    object, threads, whether an assertion aborted the program. *)
Record rstate : Type := {
  r_map : list (nat * nat);
  r_lock : option nat;
  r_next : nat;
  r_thr : nat -> thread;
  r_abort : bool;
  r_log : list event
}.

(** Change of one thread (df_io.hh:149-160 run by it). *)
Definition tset (f : nat -> thread) (t : nat) (x : thread) : nat -> thread :=
  fun u => if Nat.eqb u t then x else f u.

(** Change of one thread, the map and the mutex untouched (df_io.hh:152-154). *)
Definition with_thr (s : rstate) (t : nat) (x : thread) : rstate :=
  {| r_map := r_map s; r_lock := r_lock s; r_next := r_next s;
     r_thr := tset (r_thr s) t x; r_abort := r_abort s; r_log := r_log s |}.

(** The thread moves on inside df_io.hh:149-160. *)
Definition set_pc (th : thread) (p : pc) : thread :=
  {| t_pc := p; t_todo := t_todo th; t_done := t_done th |}.

(** Start: map contents [m0] (objects numbered below [next0]), thread [t]
    will look up the keys [progs t] in order (threads with no keys do not
    exist). *)
Definition rinit (m0 : list (nat * nat)) (next0 : nat) (progs : nat -> list nat) : rstate :=
  {| r_map := m0; r_lock := None; r_next := next0;
     r_thr := fun t => {| t_pc := Ready; t_todo := progs t; t_done := [] |};
     r_abort := false; r_log := [] |}.

(** Next atomic step of thread [t]; [None]: not enabled. *)
Definition fire (debug : bool) (t : nat) (s : rstate) : option rstate :=
  if r_abort s then None else
  let th := r_thr s t in
  match t_pc th with
  | Ready =>                                      (* df_io.hh:152 begin *)
    match t_todo th with
    | [] => None
    | k :: r => Some (with_thr s t {| t_pc := Reading k; t_todo := r; t_done := t_done th |})
    end
  | Reading k =>                                  (* df_io.hh:152-154 *)
    match assoc k (r_map s) with
    | Some o => Some (with_thr s t {| t_pc := Ready; t_todo := t_todo th;
                                      t_done := (k, o) :: t_done th |})
    | None => Some {| r_map := r_map s; r_lock := r_lock s; r_next := r_next s;
                      r_thr := tset (r_thr s) t (set_pc th (Missed k));
                      r_abort := false; r_log := EMiss t k :: r_log s |}
    end
  | Missed k =>                                   (* df_io.hh:155 *)
    match r_lock s with
    | Some _ => None
    | None => Some {| r_map := r_map s; r_lock := Some t; r_next := r_next s;
                      r_thr := tset (r_thr s) t (set_pc th (Locked k));
                      r_abort := false; r_log := r_log s |}
    end
  | Locked k =>                                   (* df_io.hh:156, 157 begin *)
    Some {| r_map := r_map s; r_lock := r_lock s; r_next := S (r_next s);
            r_thr := tset (r_thr s) t (set_pc th (Inserting k (r_next s)));
            r_abort := false; r_log := r_log s |}
  | Inserting k o =>                              (* df_io.hh:157 end, 158 *)
    match assoc k (r_map s) with
    | None => Some {| r_map := (k, o) :: r_map s; r_lock := r_lock s; r_next := r_next s;
                      r_thr := tset (r_thr s) t (set_pc th (Leaving k o));
                      r_abort := false; r_log := EIns t k :: r_log s |}
    | Some o' =>
      if debug then
        Some {| r_map := r_map s; r_lock := r_lock s; r_next := r_next s;
                r_thr := r_thr s; r_abort := true; r_log := r_log s |}
      else Some (with_thr s t (set_pc th (Leaving k o')))
    end
  | Leaving k o =>                                (* df_io.hh:159 *)
    Some {| r_map := r_map s; r_lock := None; r_next := r_next s;
            r_thr := tset (r_thr s) t {| t_pc := Ready; t_todo := t_todo th;
                                         t_done := (k, o) :: t_done th |};
            r_abort := false; r_log := r_log s |}
  end.

(** A schedule of the calls of get (df_io.hh:149-160) is a list of thread numbers;
    [None] if some step is not enabled. *)
Fixpoint rrun (debug : bool) (s : rstate) (sched : list nat) : option rstate :=
  match sched with
  | [] => Some s
  | t :: r => match fire debug t s with None => None | Some s' => rrun debug s' r end
  end.
