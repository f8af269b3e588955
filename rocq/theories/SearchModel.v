(** Point search over all local grids with a persistent position.

    /repo/dune/multiscale/msfem/localproblems/localgridsearch.cc:10-91 and the
    function proxy /repo/dune/multiscale/msfem/localsolution_proxy.cc:11-50
    that uses it.
    Parameters (external code): geometry ([inside c p]: point p passes the
    reference element check of coarse cell c, localgridsearch.cc:64), the
    per-grid entity search ([lookup n c ps]: answer of the n-th per-grid
    search issued by this object; an arbitrary function of n, so any internal
    state of the per-grid searches is covered), the iteration order of the
    interior view ([cells]) and the number view.size(0) ([wsize]). Results are
    [option ent], None is the null pointer. *)
From Coq Require Import List Arith Lia Bool.
From Verif Require Import Util.
Import ListNotations.

Section Search.
Variables cell point ent : Type.
Variable inside : cell -> point -> bool.
Variable lookup : nat -> cell -> list point -> list (option ent).
Variable cells : list cell.
Variable wsize : nat.

(** Members of LocalGridSearch (localgridsearch.cc:20-22, 35): static_iterator_ (None:
    null; Some i: position, Some (length cells): end), current_coarse_entity_,
    number of per-grid searches issued. *)
Record sstate : Type := { s_it : option nat; s_cur : option cell; s_calls : nat }.

(** Constructors, localgridsearch.cc:70-85. *)
Definition fresh : sstate := {| s_it := None; s_cur := None; s_calls := 0 |}.

(** How operator() ends, localgridsearch.cc:10-55. *)
Inductive outcome : Type :=
| Found (ret : list (option ent)) (st : sstate) (visits : nat)
| Throws (st : sstate) (visits : nat)    (* InvalidStateException, line 50 *)
| Bad                                    (* assert line 30 / write past the result vector *)
| OutOfFuel.

(** covers_strict, localgridsearch.cc:57-68. *)
Definition covers_all (c : cell) (ps : list point) : bool := forallb (inside c) ps.

(** The lambda is_null, localgridsearch.cc:14. *)
Definition is_null (o : option ent) : bool := match o with None => true | Some _ => false end.

(** std::find for nullptr, line 41; length if none. *)
Fixpoint find_null (l : list (option ent)) : nat :=
  match l with
  | [] => 0
  | o :: r => if is_null o then 0 else S (find_null r)
  end.

(** XT::Common::move_if(…, not_null), line 43: writes the non-null results to
    consecutive positions; None: position past the end. *)
Fixpoint move_if (src : list (option ent)) (dst : nat) (ret : list (option ent))
  : option (list (option ent)) :=
  match src with
  | [] => Some ret
  | o :: r =>
    if is_null o then move_if r dst ret
    else if Nat.ltb dst (length ret) then move_if r (S dst) (upd ret dst o) else None
  end.

(** std::count_if(is_null), lines 28 and 44. *)
Definition null_count (l : list (option ent)) : nat := length (filter is_null l).

(** while loop, lines 29-53; [i]: position of the iterator. *)
Fixpoint loop (fuel : nat) (ps : list point) (i : nat) (cur : option cell) (calls steps : nat)
    (ret : list (option ent)) (visits : nat) : outcome :=
  if Nat.eqb (null_count ret) 0 then
    Found ret {| s_it := Some i; s_cur := cur; s_calls := calls |} visits
  else
  match fuel with
  | O => OutOfFuel
  | S f =>
    match nth_error cells i with
    | None => Bad                                                   (* 30 *)
    | Some c =>
      let next calls' ret' :=
        if Nat.eqb (S i) (length cells) then                        (* 46 *)
          if Nat.ltb (S steps) wsize then                           (* 47 *)
            loop f ps 0 (Some c) calls' (S steps) ret' (S visits)   (* 48 *)
          else Throws {| s_it := Some (S i); s_cur := Some c; s_calls := calls' |} (S visits)
        else loop f ps (S i) (Some c) calls' steps ret' (S visits) in
      if covers_all c ps then                                       (* 39-40 *)
        match move_if (lookup calls c ps) (find_null ret) ret with  (* 41-43 *)
        | None => Bad
        | Some ret' => next (S calls) ret'
        end
      else next calls ret
    end
  end.

(** A bound for the number of rounds of the loop, localgridsearch.cc:29-53. *)
Definition fuel_for : nat := S (length cells) * S wsize.

(** operator(), lines 10-55. *)
Definition search (st : sstate) (ps : list point) : outcome :=
  let i := match s_it st with None => 0 | Some i => i end in        (* 20-22 *)
  loop fuel_for ps i (s_cur st) (s_calls st) 0 (repeat None (length ps)) 0.

(** A sequence of searches (heterogenous.cc:27-42) on one object; stops when one
    does not return. *)
Fixpoint searches (st : sstate) (qs : list (list point)) : option sstate :=
  match qs with
  | [] => Some st
  | ps :: r => match search st ps with Found _ st' _ => searches st' r | _ => None end
  end.

(** current_coarse_pointer, lines 87-91; None: assertion fails. *)
Definition current_coarse (st : sstate) : option cell := s_cur st.

(** localsolution_proxy.cc: the corrections of the cells by index. *)
Variable index : cell -> nat.
Variable lfun : Type.

(** How local_function ends, localsolution_proxy.cc:23-31. *)
Inductive lf_res : Type := LocalFunction (f : lfun) | CellMissing | NoCell.

(** local_function, localsolution_proxy.cc:23-31; [fs] maps a cell index to
    the (already localised) correction. *)
Definition local_function (corrections : list (nat * lfun)) (st : sstate) : lf_res :=
  match current_coarse st with
  | None => NoCell
  | Some c => match assoc (index c) corrections with
              | Some f => LocalFunction f
              | None => CellMissing
              end
  end.
End Search.

Arguments s_it {cell}. Arguments s_cur {cell}. Arguments s_calls {cell}.
Arguments Found {cell ent}. Arguments Throws {cell ent}. Arguments Bad {cell ent}.
Arguments OutOfFuel {cell ent}. Arguments fresh {cell}.
Arguments is_null {ent}. Arguments find_null {ent}. Arguments move_if {ent}.
Arguments null_count {ent}.
Arguments LocalFunction {lfun}. Arguments CellMissing {lfun}. Arguments NoCell {lfun}.
