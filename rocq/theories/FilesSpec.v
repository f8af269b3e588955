(** Vocabulary for C87. *)
From Coq Require Import List Arith NArith Ascii String.
From Verif Require Import NamesModel.
Import ListNotations.

(** Order of names in a sorted listing: by the first differing character, a
    beginning of another name comes before it. *)
Inductive listed_before : text -> text -> Prop :=
| lb_end : forall c r, listed_before [] (c :: r)
| lb_char : forall a b r s, (N_of_ascii a < N_of_ascii b)%N -> listed_before (a :: r) (b :: s)
| lb_same : forall a r s, listed_before r s -> listed_before (a :: r) (a :: s).

(** [path] is the file [base] in the directory [dir]. *)
Definition file_in (dir base path : text) : Prop :=
  ~ In "/"%char base /\ (path = dir ++ base \/ path = dir ++ "/"%char :: base) /\
  (dir <> [] -> exists p, path = p ++ "/"%char :: base).
