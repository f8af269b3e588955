(** Names of the picture files of the multiscale solution.

    /repo/dune/multiscale/msfem/localsolution_proxy.cc:57-68,
    /repo/dune/multiscale/msfem/msfem_solver.cc:107-112 and
    /repo/dune/multiscale/tools/misc/outputparameter.cc:61-64.
    External: boost::format("%0wd") pads with zeros to width w, a number with
    more digits is printed in full; path concatenation adds a separator unless
    there is one.  Process and cell numbers are not negative. *)
From Coq Require Import List Arith NArith Bool Ascii String.
From Verif Require Import NamesModel.
Import ListNotations.

(** "%0wd", localsolution_proxy.cc:57-68, msfem_solver.cc:108-111. *)
Definition padded (w : nat) (n : N) : text :=
  let ds := print_N n in repeat (digit 0) (w - List.length ds) ++ ds.

(** The literals in localsolution_proxy.cc:62-65, msfem_solver.cc:108-111. *)
Definition str (s : string) : text := list_ascii_of_string s.
(** outputparameter.cc:63; the separator of paths, localsolution_proxy.cc:65. *)
Definition slash : ascii := "/"%char.

(** boost::filesystem::path operator/, used in localsolution_proxy.cc:65. *)
Definition path_join (base name : text) : text :=
  match base with
  | [] => name
  | c :: r => if Ascii.eqb (last (c :: r) "a"%char) slash then base ++ name else base ++ slash :: name
  end.

(** visualize_parts, localsolution_proxy.cc:57-68: file of one part. *)
Definition part_file (datadir : text) (rank id : N) : text :=
  path_join datadir (str "rank_" ++ padded 4 rank ++ str "_msfemsolution_parts_" ++ padded 8 id).
(** The loop over the parts, localsolution_proxy.cc:57-68. *)
Definition part_files (datadir : text) (rank : N) (ids : list N) : list text :=
  map (part_file datadir rank) ids.

(** msfem_solver.cc:108-111 with fullpath (outputparameter.cc:63); the name of
    the function is "correction" (msfem_solver.cc:64). *)
Definition correction_file (datadir : text) (rank index : N) : text :=
  datadir ++ str "/" ++ (str "local_" ++ padded 4 rank ++ str "_correction_" ++ padded 3 index ++ str "_")
    ++ str "_" ++ str "correction".
