(** Vocabulary for C99: what the history of calls says about a name. *)
From Coq Require Import List Arith NArith Ascii String Bool.
From Verif Require Import NamesModel DiskModel.
Import ListNotations.

(** The calls after the last clearing, oldest first. *)
Fixpoint recent (acc os : list op) : list op :=
  match os with [] => acc | Clear :: r => recent [] r | o :: r => recent (acc ++ [o]) r end.

(** The data directory in the first call with a name; none if never called. *)
Fixpoint first_dir (f : text) (os : list op) : option (option text) :=
  match os with
  | [] => None
  | Append d g :: r => if list_eq_dec ascii_dec f g then Some d else first_dir f r
  | Read d g _ :: r => if list_eq_dec ascii_dec f g then Some d else first_dir f r
  | Clear :: r => first_dir f r
  end.

(** How many appends with a name. *)
Fixpoint appends (f : text) (os : list op) : N :=
  match os with
  | [] => 0
  | Append _ g :: r => (if list_eq_dec ascii_dec f g then 1 else 0) + appends f r
  | _ :: r => appends f r
  end.
