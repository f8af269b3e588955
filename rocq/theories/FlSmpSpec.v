(** Vocabulary for C134. *)
From Coq Require Import ZArith QArith Qabs List Arith Bool.
From Verif Require Import Util SmpModel RoundSpec FlSmpModel.
Import ListNotations.
Open Scope Q_scope.

(** No thread has anything left to do. *)
Definition done (s : machine) : Prop := forall t, m_rest s t = [].

(** Exact sum, and sum of the absolute values. *)
Definition total (l : list Q) : Q := fold_right Qplus 0 l.
Definition size_of (l : list Q) : Q := total (map Qabs l).

(** What the cell adds to the entry: a list of numbers (one for each quadrature
    point) for every addition. *)
Definition parts_of (e : entry) (c : cell) : list (list Q) :=
  flat_map (fun l =>
    match e with
    | Mat a b =>
        map (fun ij => map (fun t => t (fst ij) (snd ij)) (l_mat l))
            (filter (fun ij => Nat.eqb a (c_index c (fst ij)) && Nat.eqb b (c_index c (snd ij)))
                    (list_prod (seq 0 (c_n c)) (seq 0 (c_n c))))
    | Vec a =>
        map (fun i => map (fun t => t i) (l_vec l))
            (filter (fun i => Nat.eqb a (c_index c i)) (seq 0 (c_n c)))
    end) (filter l_covered (c_locals c)).
Definition parts (e : entry) (cs : list cell) : list (list Q) := flat_map (parts_of e) cs.

(** The cell does not add anything to the entry. *)
Definition untouched (e : entry) (c : cell) : Prop := parts_of e c = [].

(** (1 + 2^-52)^n. *)
Fixpoint grown (n : nat) : Q := match n with O => 1 | S n => (1 + two (-52)) * grown n end.

(** Whole multiples of 2^k. *)
Definition multiple (k : Z) (x : Q) : Prop := exists m : Z, x == inject_Z m * two k.
