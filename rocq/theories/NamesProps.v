(** Properties C11 and C12: storage names and keys. *)
From Coq Require Import List Arith NArith Lia Bool Ascii String.
From Verif Require Import NamesModel NamesSpec NamesProofs.
Import ListNotations.

(** C11. *)
Theorem C11_key_of_cell_name : forall i, (i < 2 ^ 64)%N ->
  memory_key (storage_name i) = Value i.
Proof. exact key_of_name. Qed.
Print Assumptions C11_key_of_cell_name.

Theorem C11_different_cells_different_storage : forall i j,
  (i < 2 ^ 64)%N -> (j < 2 ^ 64)%N ->
  (memory_key (storage_name i) = memory_key (storage_name j) <-> i = j) /\
  (storage_name i = storage_name j <-> i = j).
Proof.
  intros i j Hi Hj. split; (split; [|congruence]).
  - rewrite !key_of_name by assumption. congruence.
  - apply name_injective.
Qed.
Print Assumptions C11_different_cells_different_storage.

Example C11_case :
  storage_name 1024 = list_ascii_of_string "local_problems/_localProblemSolutions_1024" /\
  memory_key (storage_name 1024) = Value 1024 /\
  storage_name 0 = list_ascii_of_string "local_problems/_localProblemSolutions_0".
Proof. repeat split; reflexivity. Qed.

(** C12. Every name has exactly one text after its last underscore. *)
Theorem C12_key_depends_on_last_part_only : forall s1 s2 t,
  after_last_underscore s1 t -> after_last_underscore s2 t ->
  memory_key s1 = memory_key s2.
Proof.
  intros s1 s2 t A B. unfold memory_key. now rewrite (last_token _ _ A), (last_token _ _ B).
Qed.
Print Assumptions C12_key_depends_on_last_part_only.

Theorem C12_last_part_exists_once : forall s,
  exists t, after_last_underscore s t /\ forall t', after_last_underscore s t' -> t' = t.
Proof.
  intros s. destruct (after_last_exists s) as (t & A). exists t. split; auto.
  intros t' B. apply last_token in A, B. congruence.
Qed.
Print Assumptions C12_last_part_exists_once.

Theorem C12_key_is_the_number : forall s t neg v,
  after_last_underscore s t -> starts_with_number t neg v ->
  memory_key s = if (v <? 2 ^ 64)%N
                 then Value (if neg then (2 ^ 64 - v) mod 2 ^ 64 else v)%N
                 else OutOfRange.
Proof.
  intros s t neg v A N. unfold memory_key. rewrite (last_token _ _ A). now apply stoul_number.
Qed.
Print Assumptions C12_key_is_the_number.

Theorem C12_rejected_exactly_without_number : forall s t,
  after_last_underscore s t ->
  (memory_key s = Invalid <-> ~ exists neg v, starts_with_number t neg v).
Proof.
  intros s t A. unfold memory_key. rewrite (last_token _ _ A). apply stoul_invalid.
Qed.
Print Assumptions C12_rejected_exactly_without_number.

Theorem C12_same_storage_exactly_same_number : forall s1 s2 d1 d2 v1 v2,
  after_last_underscore s1 d1 -> after_last_underscore s2 d2 ->
  numeral d1 v1 -> numeral d2 v2 -> (v1 < 2 ^ 64)%N -> (v2 < 2 ^ 64)%N ->
  (memory_key s1 = memory_key s2 <-> v1 = v2).
Proof.
  intros s1 s2 d1 d2 v1 v2 A1 A2 N1 N2 L1 L2.
  rewrite (C12_key_is_the_number s1 d1 false v1 A1 (numeral_number _ _ N1)).
  rewrite (C12_key_is_the_number s2 d2 false v2 A2 (numeral_number _ _ N2)).
  apply N.ltb_lt in L1, L2. rewrite L1, L2. split; congruence.
Qed.
Print Assumptions C12_same_storage_exactly_same_number.

(** Leading zeros are the same number; text after the number is ignored;
    a minus sign wraps around; no number is rejected. *)
Example C12_case :
  memory_key (list_ascii_of_string "a_b_007") = Value 7 /\
  memory_key (list_ascii_of_string "x_7") = Value 7 /\
  memory_key (list_ascii_of_string "x_7.vtu") = Value 7 /\
  memory_key (list_ascii_of_string "x_-1") = Value (2 ^ 64 - 1) /\
  memory_key (list_ascii_of_string "x_7_") = Invalid /\
  memory_key (list_ascii_of_string "7x_") = Invalid /\
  memory_key (list_ascii_of_string "18446744073709551616") = OutOfRange.
Proof. repeat split; reflexivity. Qed.
