(** The on-disk variant of the store of local solutions.

    /repo/dune/multiscale/common/df_io.hh:44-82 (DiskBackend), 149-160 (get) and
    /repo/dune/multiscale/common/df_io.cc:5-9, 26-30 (get_disk, disk), 32-43
    (clear).  The operations are those a program can make: disk(config,
    filename).append(f), disk(config, filename).read(index, f), and the end of a
    clear guard.  External: test_create_directory creates directories; only the
    paths handed to it are recorded.  One thread. *)
From Coq Require Import List Arith NArith Ascii String Bool.
From Verif Require Import NamesModel FilesModel.
Import ListNotations.

(** Members of DiskBackend, df_io.hh:80-81. *)
Record disk_backend : Type := { dir_ : text; index_ : N }.

(** Constructor, df_io.hh:60-64; [datadir] is config["global.datadir"], if set. *)
Definition new_backend (datadir : option text) (filename : text) : disk_backend :=
  {| dir_ := path_join (match datadir with Some d => d | None => str "data" end) filename; index_ := 0 |}.

(** unsigned int, df_io.hh:81. *)
Definition uint_max : N := (2 ^ 32)%N.

(** Equality of the keys of the map, df_io.hh:152, 179. *)
Definition text_eqb (a b : text) : bool := if list_eq_dec ascii_dec a b then true else false.

(** The map disk_, df_io.hh:179. *)
Definition registry : Type := list (text * disk_backend).
(** map.find, df_io.hh:152-154. *)
Fixpoint find (k : text) (m : registry) : option disk_backend :=
  match m with [] => None | (k', b) :: r => if text_eqb k k' then Some b else find k r end.
(** map_emplace, df_io.hh:157, and the change of the element by append (68). *)
Fixpoint store (k : text) (b : disk_backend) (m : registry) : registry :=
  match m with
  | [] => [(k, b)]
  | (k', b') :: r => if text_eqb k k' then (k, b) :: r else (k', b') :: store k b r
  end.
(** get, df_io.hh:149-160 with df_io.cc:5-9. *)
Definition get (m : registry) (datadir : option text) (filename : text) : disk_backend :=
  match find filename m with Some b => b | None => new_backend datadir filename end.

(** The public calls disk(..).append, disk(..).read and ~ClearGuard, df_io.hh:66, 73,
    143-146, 170-175. *)
Inductive op : Type :=
| Append (datadir : option text) (filename : text)
| Read (datadir : option text) (filename : text) (index : N)
| Clear.

(** How a call ends (df_io.hh:70, 76) and the directories it asks for (69). *)
Inductive outcome : Type := Returned (asked : list text) | NotImplemented (asked : list text).

(** append, df_io.hh:66-71; read, lines 73-77; clear, df_io.cc:32-43. *)
Definition step (m : registry) (o : op) : registry * outcome :=
  match o with
  | Append d f =>
      let b := get m d f in
      let fn := path_join (dir_ b) (print_N (index_ b)) in
      (store f {| dir_ := dir_ b; index_ := ((index_ b + 1) mod uint_max)%N |} m, NotImplemented [fn])
  | Read d f i => (store f (get m d f) m, NotImplemented [])
  | Clear => ([], Returned [])
  end.

(** A sequence of calls, df_io.hh:66-77, 143-146. *)
Fixpoint run (m : registry) (os : list op) : registry * list outcome :=
  match os with
  | [] => (m, [])
  | o :: r => let '(m1, x) := step m o in let '(m2, xs) := run m1 r in (m2, x :: xs)
  end.
