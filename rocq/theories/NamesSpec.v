(** Vocabulary for C11, C12. *)
From Coq Require Import List Arith NArith Lia Bool Ascii String.
From Verif Require Import NamesModel.
Import ListNotations.

(** [t] is the text after the last underscore of [s] (all of [s] if there is
    none). *)
Definition after_last_underscore (s t : text) : Prop :=
  ~ In "_"%char t /\ (s = t \/ exists p, s = p ++ "_"%char :: t).

(** The ten decimal digits and the white space characters. *)
Definition decimal (d : N) : ascii := nth (N.to_nat d) (list_ascii_of_string "0123456789") "0"%char.
Definition white (c : ascii) : Prop :=
  In c [" "; "009"; "010"; "011"; "012"; "013"]%char.

(** [ds] is a non-empty decimal numeral of value [v], most significant digit
    first. *)
Inductive numeral : text -> N -> Prop :=
| num_one : forall d, (d < 10)%N -> numeral [decimal d] d
| num_more : forall ds v d, numeral ds v -> (d < 10)%N ->
    numeral (ds ++ [decimal d]) (10 * v + d).

(** Text that starts with white space characters, an optional sign and a
    numeral that is not followed by a further digit. *)
Definition starts_with_number (t : text) (neg : bool) (v : N) : Prop :=
  exists ws sign ds rest, t = ws ++ sign ++ ds ++ rest /\
    Forall white ws /\
    (neg = true /\ sign = ["-"%char] \/ neg = false /\ (sign = [] \/ sign = ["+"%char])) /\
    numeral ds v /\
    (rest = [] \/ exists c r, rest = c :: r /\ forall d, (d < 10)%N -> c <> decimal d).
