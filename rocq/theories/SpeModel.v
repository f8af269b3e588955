(** Permeability tables: SPE10 and Tarbert.

    /repo/dune/multiscale/problems/spe10.cc:17-53,98-214 and
    /repo/dune/multiscale/problems/tarbert.cc:29-47,59-93,106-186.
    Simplified: coordinates and permeabilities are exact rationals, SPE10 in
    three dimensions only (the code asserts this), XT's to_string / get of the
    constants is exact.  A file is a list of words, either a readable number or
    a word whose first character cannot start a number. *)
From Coq Require Import ZArith QArith Qabs Qround List Arith Bool.
From Verif Require Import Util.
Import ListNotations.
Open Scope nat_scope.

(** permeability_, a block of memory holding doubles (spe10.cc:202, tarbert.cc:178);
    [None] entries were never written. *)
Definition table : Type := list (option Q).
(** permeability_[i], spe10.cc:173-175, tarbert.cc:145-152: [None] when outside the
    block. *)
Definition access (t : table) (i : Z) : option (option Q) :=
  if (i <? 0)%Z then None else nth_error t (Z.to_nat i).

(** Assignments to the diagonal: spe10.cc:173-175, tarbert.cc:145-152. *)
Definition set_diag (m : nat -> nat -> option Q) (k : nat) (v : option Q) : nat -> nat -> option Q :=
  fun i j => if Nat.eqb i k && Nat.eqb j k then v else m i j.

(** How evaluate ends: spe10.cc:134-176, tarbert.cc:122-157. *)
Inductive eresult : Type :=
| Value (y : nat -> nat -> option Q)
| NoData                               (* Dune::IOError *)
| Undefined.                           (* access outside the table or bad conversion *)

(** ** SPE10. *)
(** spe10.cc:18-20. *)
Definition model2_elements (dd : nat) : Z := nth dd [60; 220; 85]%Z 0%Z.
(** spe10.cc:24-25. *)
Definition model_2_min : Q := 665 # 10000000000.
(** spe10.cc:25. *)
Definition model_2_max : Q := 20000 # 1.
(** spe10.cc:199-201. *)
Definition entries_per_dim : Z := (model2_elements 0 * model2_elements 1 * model2_elements 2)%Z.
(** spe10.cc:201. *)
Definition data_size : nat := Z.to_nat (3 * entries_per_dim).

(** Conversion of a double to size_t, spe10.cc:161: undefined outside its range. *)
Definition to_size_t (z : Z) : option Z :=
  if ((0 <=? z) && (z <? 2 ^ 64))%Z then Some z else None.

(** spe10.cc:161, one direction. *)
Definition which_partition (ne : Z) (ll ur c : Q) : option Z :=
  match to_size_t (Qfloor (inject_Z ne * ((c - ll) / (ur - ll)))) with
  | Some f => Some (Z.min f (ne - 1))
  | None => None
  end.

(** Diffusion::evaluate, spe10.cc:134-176; [ll], [ur] as configured (151-154). *)
Definition spe_evaluate (perm : option table) (ll ur : nat -> Q) (x : nat -> Q)
    (y : nat -> nat -> option Q) : eresult :=
  match perm with
  | None => NoData                                                   (* 138-146 *)
  | Some t =>
    match which_partition (model2_elements 0) (ll 0) (ur 0) (x 0),
          which_partition (model2_elements 1) (ll 1) (ur 1) (x 1),
          which_partition (model2_elements 2) (ll 2) (ur 2) (x 2) with
    | Some w0, Some w1, Some w2 =>
      let ii := (w0 + w1 * model2_elements 0 + w2 * model2_elements 1 * model2_elements 0)%Z in (* 169 *)
      match access t ii, access t (entries_per_dim + ii), access t (2 * entries_per_dim + ii) with
      | Some a, Some b, Some c => Value (set_diag (set_diag (set_diag y 0 a) 1 b) 2 c)
      | _, _, _ => Undefined
      end
    | _, _, _ => Undefined
    end
  end.

(** Configured corners, spe10.cc:44,48. *)
Definition spe_ll (dd : nat) : Q := 0%Q.
(** spe10.cc:48. *)
Definition spe_ur (dd : nat) : Q := nth dd [2; 5; 1]%Q 0%Q.

(** Words of a file: spe10.cc:205, tarbert.cc:176, 182. *)
Inductive word : Type := Num (q : Q) | Junk.

(** How readPermeability ends: spe10.cc:187-214, tarbert.cc:168-186. *)
Inductive rresult : Type :=
| Loaded (t : table)
| FileMissing                          (* spe10_model2_data_file_missing *)
| RangeError                           (* Dune::RangeError *)
| WrongCount (n : nat)                 (* Dune::IOError *)
| Overrun.                             (* write past the end of the table *)

(** The loop spe10.cc:205-207 from position [counter]: table and counter. *)
Fixpoint spe_loop (scale shift : Q) (file : list word) (counter : nat) (t : table) : option (table * nat) :=
  match file with
  | Num tmp :: r =>
      if Nat.ltb counter (length t)
      then spe_loop scale shift r (S counter) (upd t counter (Some (tmp * scale + shift)%Q))
      else None
  | _ => Some (t, counter)
  end.

(** readPermeability, spe10.cc:187-214, for a table of [size] entries. *)
Definition spe_read (size : nat) (mn mx : Q) (file : option (list word)) : rresult :=
  match file with
  | None => FileMissing                                              (* 192-193 *)
  | Some ws =>
    if Qle_bool mx mn then RangeError                                (* 194-195 *)
    else
      let scale := ((mx - mn) / (model_2_max - model_2_min))%Q in    (* 196 *)
      let shift := (mn - scale * model_2_min)%Q in                   (* 197 *)
      match spe_loop scale shift ws 0 (repeat (Some 0%Q) size) with  (* 202-207 *)
      | None => Overrun
      | Some (t, counter) => if Nat.eqb counter size then Loaded t else WrongCount counter (* 209 *)
      end
  end.

(** ** Tarbert. *)
(** tarbert.cc:109. *)
Definition delta (dd : nat) : Q := nth dd [6096 # 1000; 3048 # 1000; 6096 # 10000] 1%Q.
(** tarbert.cc:29-47: upper right corner. *)
Definition tar_ur (dd : nat) : Q := nth dd [36576 # 100; 67056 # 100; 21336 # 1000] 1%Q.
(** tarbert.cc:178. *)
Definition tar_size : nat := Z.to_nat 3366000.

(** Interval number of a point, tarbert.cc:136-137. *)
Definition interval (x : nat -> Q) (dd : nat) : Z := Qfloor (x dd / delta dd).
(** Factors of the intervals in [offset], tarbert.cc:144,149. *)
Definition stride (dd : nat) : Z := nth dd [1; 60; 220 * 60]%Z 0%Z.
(** Start of the values of one diagonal entry, tarbert.cc:145-146,150-152. *)
Definition block (k : nat) : Z := nth k [0; 1122000; 2244000]%Z 0%Z.

(** Diffusion::evaluate, tarbert.cc:122-157, for dimension 2 or 3; [permMatrix]
    is the member's content, the result its new content, copied to [y]. *)
Definition tar_evaluate (dim : nat) (perm : option table) (x : nat -> Q)
    (permMatrix : nat -> nat -> option Q) : eresult :=
  match perm with
  | None => NoData                                                   (* 126-134 *)
  | Some t =>
    match dim with
    | 2 =>
      let offset := (interval x 0 + interval x 1 * 60)%Z in          (* 144 *)
      match access t offset, access t (offset + 1122000) with
      | Some a, Some b => Value (set_diag (set_diag permMatrix 0 a) 1 b)
      | _, _ => Undefined
      end
    | _ =>
      let offset := (interval x 0 + interval x 1 * 60 + interval x 2 * 220 * 60)%Z in (* 149 *)
      match access t offset, access t (offset + 1122000), access t (offset + 2244000) with
      | Some a, Some b, Some c => Value (set_diag (set_diag (set_diag permMatrix 0 a) 1 b) 2 c)
      | _, _, _ => Undefined
      end
    end
  end.

(** State of the input stream of tarbert.cc:171: remaining words, whether white space follows the
    last word, fail bit and end-of-file bit. *)
Record stream := { s_words : list word; s_space : bool; s_fail : bool; s_eof : bool }.

(** [file >> val] (C++11 library): a stream that is not good only gets the fail
    bit; at the end both bits are set; an unreadable word sets the fail bit and
    stores zero; a number ending the file without white space sets the
    end-of-file bit. *)
Definition extract (s : stream) (val : option Q) : stream * option Q :=
  if s_fail s || s_eof s
  then ({| s_words := s_words s; s_space := s_space s; s_fail := true; s_eof := s_eof s |}, val)
  else match s_words s with
       | [] => ({| s_words := []; s_space := s_space s; s_fail := true; s_eof := true |}, val)
       | Num q :: r =>
           ({| s_words := r; s_space := s_space s; s_fail := false;
               s_eof := match r with [] => negb (s_space s) | _ => false end |}, Some q)
       | Junk :: r =>
           ({| s_words := Junk :: r; s_space := s_space s; s_fail := true; s_eof := false |}, Some 0%Q)
       end.

(** The loop tarbert.cc:179-183; [room] entries are left in the table. *)
Fixpoint tar_loop (room : nat) (s : stream) (val : option Q) (counter : nat) (t : table) : rresult :=
  if s_eof s then Loaded t
  else match room with
       | O => Overrun
       | S room' =>
           let t' := upd t counter val in
           let '(s', val') := extract s val in
           tar_loop room' s' val' (S counter) t'
       end.

(** readPermeability, tarbert.cc:168-186; [None] is a file that cannot be
    opened.  [new double[size]] is not initialised. *)
Definition tar_read (size : nat) (file : option (list word * bool)) : option rresult :=
  match file with
  | None => None                                                     (* 173-175: stays null *)
  | Some (ws, space) =>
      let '(s, val) := extract {| s_words := ws; s_space := space; s_fail := false; s_eof := false |} None in
      Some (tar_loop size s val 0 (repeat None size))
  end.

(** ~Diffusion, tarbert.cc:116-120: [delete] of memory from [new[]] is
    undefined, of a null pointer it is not. *)
Definition tar_destroy (perm : option table) : bool (* defined *) :=
  match perm with None => true | Some _ => false end.

(** ** Boundary data. *)
(** Outer normal of a face of the box: axis and direction (spe10.cc:92,
    tarbert.cc:72, 75). *)
Record face := { f_axis : nat; f_up : bool }.
(** Kinds of boundary in the settings, spe10.cc:82-93, tarbert.cc:65-77. *)
Inductive bkind : Type := Dirichlet | Neumann.
(** Comparison of normals by NormalBased (external), spe10.cc:34, tarbert.cc:24. *)
Definition face_eqb (f g : face) : bool := Nat.eqb (f_axis f) (f_axis g) && Bool.eqb (f_up f) (f_up g).
(** Default settings, spe10.cc:82-93 and tarbert.cc:65-77; external:
    NormalBased boundary info. *)
Definition spe_boundary (dim : nat) (f : face) : bkind :=
  if face_eqb f {| f_axis := 1; f_up := true |} then Dirichlet else Neumann.
(** tarbert.cc:65-77. *)
Definition tar_boundary (dim : nat) (f : face) : bkind :=
  if face_eqb f {| f_axis := 1; f_up := Nat.eqb dim 3 |} then Dirichlet else Neumann.
(** spe10.cc:98-120; [eq0] is FloatCmp::eq with zero (external). *)
Definition spe_dirichlet (x : nat -> Q) : Q := 0%Q.
(** spe10.cc:117-120. *)
Definition spe_source (x : nat -> Q) : Q := 0%Q.
(** spe10.cc:103-109. *)
Definition spe_neumann (eq0 : Q -> bool) (x : nat -> Q) : Q := if eq0 (x 1) then 1%Q else 0%Q.
(** tarbert.cc:82-104. *)
Definition tar_dirichlet (x : nat -> Q) : Q := 0%Q.
(** tarbert.cc:101-104. *)
Definition tar_source (x : nat -> Q) : Q := 0%Q.
(** tarbert.cc:87-93. *)
Definition tar_neumann (x : nat -> Q) : Q :=
  if negb (Qle_bool (1 # 1000000) (Qabs (x 1))) then (- (1))%Q else 0%Q.
