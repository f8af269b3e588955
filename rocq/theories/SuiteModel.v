(** The shipped configurations of the test programs.

    /repo/dune/multiscale/test/common_grids.mini, compare_cgfem.mini,
    compare_msfem.mini, error_calc_check.mini, grid_creation.mini,
    projection.mini, proxy.mini; read by
    /repo/dune/multiscale/common/grid_creation.cc:30-46,
    /repo/dune/multiscale/test/compare_msfem.cc:20-21, compare_cgfem.cc:20-21,
    error_calc_check.cc:19-46.
    The program that turns one of these files into one configuration per setup
    (dune-testtools) is external; modelled are the features the files use:
    sections, one include, the list of setups to expand, and values that name
    a key of the section of the setup.
    Simplified: numbers are read already, the names of the output files
    (__name) are left out. *)
From Coq Require Import List ZArith QArith String Bool.
From Verif Require Import ErrorModel GridModel.
Import ListNotations.
Local Open Scope string_scope.

(** Right hand sides in the mini files (e.g. compare_msfem.mini:6, 11, 18):
    a word, a vector of numbers, a number, or a key of the section of the setup,
    written {{setup}.key}. *)
Inductive value : Type :=
| Word (s : string)
| Numbers (l : list Z)
| Number (q : Q)
| OfSetup (key : string).

(** Lines of the mini files (e.g. compare_msfem.mini:1-31). *)
Inductive line : Type :=
| Include
| Expand (setups : list string)
| Sect (name : string)
| Entry (key : string) (v : value).

(** Keys with their sections in front (e.g. common_grids.mini:1-4). *)
Definition table : Type := list (string * value).

(** The key of an entry in a section (common_grids.mini:1-2); entries before the
    first section (compare_msfem.mini:4-6) have none. *)
Definition full_key (sect key : string) : string :=
  match sect with "" => key | _ => sect ++ "." ++ key end.

(** Reads the lines of a file, starting in section [sect]; [inc] is what an
    include brings (compare_msfem.mini:2). *)
Fixpoint read (inc : table) (sect : string) (ls : list line) : table :=
  match ls with
  | [] => []
  | Include :: r => (inc ++ read inc sect r)%list
  | Expand _ :: r => read inc sect r
  | Sect n :: r => read inc n r
  | Entry k v :: r => (full_key sect k, v) :: read inc sect r
  end.

(** The setups to expand (compare_msfem.mini:8). *)
Fixpoint setups (ls : list line) : list string :=
  match ls with
  | [] => []
  | Expand l :: r => (l ++ setups r)%list
  | _ :: r => setups r
  end.

(** {{setup}.key} (compare_msfem.mini:11-12, 15, 30-31). *)
Definition resolve (t : table) (s : string) (v : value) : option value :=
  match v with OfSetup k => assoc_str (s ++ "." ++ k) t | _ => Some v end.

(** The configuration of one setup (compare_msfem.mini:8-31); a value that
    names a missing key is left out. *)
Fixpoint fill (t : table) (s : string) (es : table) : table :=
  match es with
  | [] => []
  | (k, v) :: r => match resolve t s v with Some w => (k, w) :: fill t s r | None => fill t s r end
  end.

(** One configuration per setup (compare_msfem.mini:8). *)
Definition expand (inc : table) (ls : list line) : list (string * table) :=
  let t := read inc "" ls in map (fun s => (s, fill t s t)) (setups ls).

(** ** The files. *)

(** common_grids.mini:1-47: section [name] with its three entries. *)
Definition grid_section (name : string) (macro micro : list Z) (layers : Q) : list line :=
  [Sect name; Entry "grids.macro_cells_per_dim" (Numbers macro);
   Entry "grids.micro_cells_per_macrocell_dim" (Numbers micro);
   Entry "msfem.oversampling_layers" (Number layers)].

(** common_grids.mini:1-47. *)
Definition common_grids : list line :=
  (grid_section "p_small" [4; 4; 4] [8; 8; 8] 0 ++
   grid_section "p_large" [20; 20; 20] [40; 40; 40] 0 ++
   grid_section "p_aniso" [14; 4; 6] [3; 32; 8] 0 ++
   grid_section "p_wover" [14; 14; 14] [18; 18; 18] 6 ++
   grid_section "p_huge" [40; 40; 40] [120; 120; 120] 0 ++
   grid_section "p_fail" [12; 15; 10] [6; 7; 10] 0 ++
   grid_section "p_minimal" [1; 1; 1] [1; 1; 1] 0 ++
   grid_section "p_small_aniso" [4; 2; 1] [8; 2; 1] 0 ++
   grid_section "p_small_wover" [4; 4; 4] [8; 8; 8] 1 ++
   [Sect "threading"; Entry "max_count" (Number 1)])%list%Z.

(** The lines for the grids all files have, e.g. grid_creation.mini:6-11. *)
Definition grid_lines : list line :=
  [Sect "grids";
   Entry "macro_cells_per_dim" (OfSetup "grids.macro_cells_per_dim");
   Entry "micro_cells_per_macrocell_dim" (OfSetup "grids.micro_cells_per_macrocell_dim");
   Sect "msfem"; Entry "oversampling_layers" (OfSetup "msfem.oversampling_layers")].

(** compare_cgfem.mini:4-6, compare_msfem.mini:4-6. *)
Definition compare_lines : list line :=
  [Entry "msfem.fem_comparison" (Number 0); Entry "global.vtk_output" (Number 0);
   Entry "problem.name" (Word "Synthetic")].

(** compare_cgfem.mini:17-27, compare_msfem.mini:17-27, error_calc_check.mini:13-23:
    two bounds in the section [name]. *)
Definition bounds (name l2 h1s : string) (a b : Q) : list line :=
  [Sect name; Entry l2 (Number a); Entry h1s (Number b)].

(** compare_cgfem.mini:29-31, compare_msfem.mini:29-31, error_calc_check.mini:25-27. *)
Definition expected_lines (l2 h1s : string) : list line :=
  [Sect "expected_errors"; Entry "fem_exact_L2" (OfSetup l2); Entry "fem_exact_H1s" (OfSetup h1s)].

(** compare_cgfem.mini:1-31. *)
Definition compare_cgfem_mini : list line :=
  ([Include] ++ compare_lines ++ [Expand ["p_small"; "p_minimal"]] ++ grid_lines ++
   bounds "p_small" "fem_exact_L2" "fem_exact_H1s" (251 # 1000) (267 # 100) ++
   bounds "p_large" "fem_exact_L2" "fem_exact_H1s" (7 # 100) (115 # 100) ++
   bounds "p_minimal" "fem_exact_L2" "fem_exact_H1s" (57 # 100) (23 # 10) ++
   expected_lines "fem_exact_L2" "fem_exact_H1s")%list.

(** compare_msfem.mini:1-31. *)
Definition compare_msfem_mini : list line :=
  ([Include] ++ compare_lines ++ [Expand ["p_small"; "p_minimal"]] ++ grid_lines ++
   bounds "p_small" "msfem_exact_L2" "msfem_exact_H1s" (251 # 1000) (267 # 100) ++
   bounds "p_large" "msfem_exact_L2" "msfem_exact_H1s" (7 # 100) (115 # 100) ++
   bounds "p_minimal" "msfem_exact_L2" "msfem_exact_H1s" (57 # 100) (23 # 10) ++
   expected_lines "msfem_exact_L2" "msfem_exact_H1s")%list.

(** error_calc_check.mini:1-27. *)
Definition error_calc_check_mini : list line :=
  ([Include; Expand ["p_small"; "p_wover"; "p_minimal"]] ++ grid_lines ++
   bounds "p_small" "fem_exact_L2" "fem_exact_H1s" (251 # 1000) (267 # 100) ++
   bounds "p_wover" "fem_exact_L2" "fem_exact_H1s" (7 # 100) (115 # 100) ++
   bounds "p_minimal" "fem_exact_L2" "fem_exact_H1s" (57 # 100) (23 # 10) ++
   expected_lines "fem_exact_L2" "fem_exact_H1s")%list.

(** grid_creation.mini:1-11. *)
Definition grid_creation_mini : list line :=
  ([Include; Expand ["p_aniso"; "p_wover"; "p_small"]] ++ grid_lines)%list.
(** projection.mini:1-11. *)
Definition projection_mini : list line :=
  ([Include; Expand ["p_small"; "p_minimal"]] ++ grid_lines)%list.
(** proxy.mini:1-11. *)
Definition proxy_mini : list line :=
  ([Include; Expand ["p_small"; "p_large"; "p_minimal"]] ++ grid_lines)%list.

(** The configurations of a test program; line 2 of every file includes
    common_grids.mini. *)
Definition configurations (ls : list line) : list (string * table) :=
  expand (read [] "" common_grids) ls.

(** ** What the programs read. *)

(** DXTC_CONFIG.get of a number, compare_msfem.cc:20-21. *)
Definition number_of (c : table) (k : string) : option Q :=
  match assoc_str k c with Some (Number q) => Some q | _ => None end.
(** get of a vector with one entry per direction, grid_creation.cc:34-39; the
    files have three, the program takes the first [d]. *)
Definition vector_of (d : nat) (c : table) (k : string) : option (list Q) :=
  match assoc_str k c with Some (Numbers l) => Some (firstn d (map inject_Z l)) | _ => None end.

(** What grid_creation.cc:30-46 reads in such a configuration; the corners and
    the fine overlap come from elsewhere. *)
Definition grid_config (d : nat) (ll ur : list Q) (overlap : Z) (c : table) : option config :=
  match vector_of d c "grids.macro_cells_per_dim", vector_of d c "grids.micro_cells_per_macrocell_dim",
        number_of c "msfem.oversampling_layers" with
  | Some coarse, Some micro, Some layers =>
    Some {| c_ll := ll; c_ur := ur; c_layers := Qround.Qfloor layers; c_coarse := coarse; c_micro := micro;
            c_overlap := overlap |}
  | _, _, _ => None
  end.

(** "expected_errors." and a key, compare_msfem.cc:20-21, compare_cgfem.cc:20-21. *)
Definition expected_error (c : table) (k : string) : option Q := number_of c ("expected_errors." ++ k).

(** get("msfem.fem_comparison", false), error_calc.cc:105; the files write 0
    for false. *)
Definition fem_comparison (c : table) : bool :=
  match number_of c "msfem.fem_comparison" with Some q => negb (Qeq_bool q 0) | None => false end.

(** run_error_calc, error_calc_check.cc:19-40: constructor and print, the
    result is dropped (38-39). The test fails if an exception gets out (43-46). *)
Definition error_calc_test {F V} (diff : F -> F -> F) (l2 h1s : F -> V) (zero : F) (c : table) (exact : option F)
    (fine_solve coarse_solve msfem : attempt F) (matched : bool) : bool :=
  match msfem_report F V diff l2 h1s zero (fem_comparison c) exact fine_solve coarse_solve msfem matched with
  | Report _ => true
  | _ => false
  end.
