(** Vocabulary for C97 and C98. *)
From Coq Require Import List Arith Ascii String Bool Reals.
Import ListNotations.
Open Scope string_scope.

(** How the entries of errors.csv are called in the printed report. *)
Definition labels : list (string * string) :=
  [("msfem_exact_L2", "|| u_msfem - u_exact ||_L2"); ("msfem_exact_H1s", "|| u_msfem - u_exact ||_H1s");
   ("fem_exact_L2", "|| u_fem_h - u_exact ||_L2"); ("fem_exact_H1s", "|| u_fem_h - u_exact ||_H1s");
   ("coarse_fem_exact_L2", "|| u_fem_H - u_exact ||_L2"); ("coarse_fem_exact_H1s", "|| u_fem_H - u_exact ||_H1s");
   ("msfem_L2", "|| u_msfem ||_L2");
   ("msfem_coarse_fem_L2", "|| u_fem_H - u_msfem ||_L2"); ("msfem_coarse_fem_H1s", "|| u_fem_H - u_msfem ||_H1s");
   ("msfem_fem_L2", "|| u_msfem - u_fem ||_L2"); ("msfem_fem_H1s", "|| u_msfem - u_fem ||_H1s")].
Definition relative_coarse : string := "|| u_fem_H - u_msfem ||_L2 / || u_msfem ||_L2".
Definition relative_fine : string := "|| u_msfem - u_fem ||_L2 / || u_msfem ||_L2".

(** The byte at a place of a file: the one some text has there, or zero. *)
Definition comes_from (texts : list (list ascii)) (i : nat) (b : ascii) : Prop :=
  b = Ascii.zero \/ exists t, In t texts /\ nth_error t i = Some b.
