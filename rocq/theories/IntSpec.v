(** Vocabulary for C114. *)
From Coq Require Import ZArith List.
From Verif Require Import RandModel RandSpec.
Import ListNotations.

(** Largest logarithm of the number of segments. *)
Definition limit (dim : nat) : nat := if Nat.eqb dim 2 then 14 else 9.
(** Processes and positions of a rank, as numbers of the program. *)
Definition grid_of (pp : list nat) (iProc : nat) : list (Z * Z) :=
  combine (map Z.of_nat pp) (map Z.of_nat (grid_position iProc pp)).
Definition ranges_of (rs : list range) : list (Z * Z) := map (fun r => (Z.of_nat (fst r), Z.of_nat (snd r))) rs.
Definition sizes (rs : list range) : Z := Z.of_nat (product (map size rs)).
