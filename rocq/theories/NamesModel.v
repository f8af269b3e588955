(** Storage names and keys.

    /repo/dune/multiscale/msfem/localproblems/localsolutionmanager.cc:24-26
    builds the storage name of a coarse cell,
    /repo/dune/multiscale/common/df_io.cc:11-18 turns a name into the key of
    the in-memory storage, df_io.cc:5-9 uses the name itself as the key of the
    on-disk storage.
    External: boost::format("%d") prints decimally without separators,
    XT::Common::tokenize splits at every separator character,
    XT::Common::from_string<size_t> is std::stoul. *)
From Coq Require Import List Arith NArith ZArith Lia Bool Ascii String.
Import ListNotations.

(** std::string, df_io.cc:5-18. *)
Definition text := list ascii.

(** "%d", localsolutionmanager.cc:24. *)
Definition digit (d : N) : ascii := ascii_of_N (48 + d).
(** from_string<size_t>, df_io.cc:16: accepted characters. *)
Definition is_digit (c : ascii) : bool :=
  (N.leb 48 (N_of_ascii c) && N.leb (N_of_ascii c) 57)%bool.
(** df_io.cc:16: value of a digit. *)
Definition digit_val (c : ascii) : N := (N_of_ascii c - 48)%N.

(** Decimal digits, at most [fuel] of them (localsolutionmanager.cc:24, "%d").
    [print_N] supplies one per binary digit, always enough (NamesProofs). *)
Fixpoint print_fuel (fuel : nat) (n : N) : text :=
  match fuel with
  | O => []
  | S f => if (n <? 10)%N then [digit n]
           else print_fuel f (n / 10) ++ [digit (n mod 10)]
  end.
(** "%d" of a number, localsolutionmanager.cc:24. *)
Definition print_N (n : N) : text := print_fuel (S (N.size_nat n)) n.

(** localsolutionmanager.cc:24-26 *)
Definition prefix : text := list_ascii_of_string "local_problems/_localProblemSolutions_".
(** localSolutionLocation_, localsolutionmanager.cc:24-26. *)
Definition storage_name (index : N) : text := prefix ++ print_N index.

(** tokenize(filename, "_"), df_io.cc:15: tokens in order, never empty. *)
Fixpoint tokenize (sep : ascii) (s : text) : list text :=
  match s with
  | [] => [[]]
  | c :: r =>
    if Ascii.eqb c sep then [] :: tokenize sep r
    else match tokenize sep r with
         | [] => [[c]]
         | t :: ts => (c :: t) :: ts
         end
  end.

(** std::stoul, base 10, 64 bit size_t (used at df_io.cc:16). *)
Inductive conv : Type :=
| Value (n : N)
| Invalid                 (* std::invalid_argument *)
| OutOfRange.             (* std::out_of_range *)

(** std::stoul (df_io.cc:16): white space of the C locale. *)
Definition is_space (c : ascii) : bool :=
  let n := N_of_ascii c in (N.eqb n 32 || (N.leb 9 n && N.leb n 13))%bool.

(** std::stoul (df_io.cc:16): leading white space is skipped. *)
Fixpoint skip_space (s : text) : text :=
  match s with
  | c :: r => if is_space c then skip_space r else s
  | [] => []
  end.

(** std::stoul (df_io.cc:16): reads as many digits as there are. *)
Fixpoint digits_prefix (s : text) : text :=
  match s with
  | c :: r => if is_digit c then c :: digits_prefix r else []
  | [] => []
  end.

(** std::stoul (df_io.cc:16): decimal value. *)
Definition digits_val (s : text) : N :=
  fold_left (fun a c => a * 10 + digit_val c)%N s 0%N.

(** 64 bit size_t, df_io.cc:16. *)
Definition size_t_max : N := (2 ^ 64)%N.

(** from_string<size_t>, df_io.cc:16: optional sign, digits; a minus sign negates
    modulo 2^64. *)
Definition stoul (s : text) : conv :=
  let s1 := skip_space s in
  let '(neg, s2) := match s1 with
                    | c :: r => if Ascii.eqb c "-" then (true, r)
                                else if Ascii.eqb c "+" then (false, r) else (false, s1)
                    | [] => (false, [])
                    end in
  match digits_prefix s2 with
  | [] => Invalid
  | ds => let v := digits_val ds in
          if (v <? size_t_max)%N then
            Value (if neg then (size_t_max - v) mod size_t_max else v)%N
          else OutOfRange
  end.

(** df_io.cc:15-16: key of the in-memory storage. *)
Definition memory_key (name : text) : conv :=
  stoul (List.last (tokenize "_" name) []).
