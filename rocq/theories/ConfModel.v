(** Where the grid parameters come from: the copy of the configuration kept by
    the problem container, or the global configuration.

    /repo/dune/multiscale/problems/selector.cc:105-117,
    /repo/dune/multiscale/common/grid_creation.cc:24-119,
    /repo/dune/multiscale/msfem/localproblems/localgridlist.cc:27-75,
    /repo/dune/multiscale/msfem/algorithm.cc:47-68.
    Simplified: the external class Configuration is a pair of partial maps from
    keys to whole numbers and to vectors; parsing and validation of the values
    are not modelled. *)
From Coq Require Import List Arith ZArith QArith Bool String.
From Verif Require Import Util GridModel LocalGridModel.
Import ListNotations.
Open Scope string_scope.

(** The external class Configuration: DXTC_CONFIG (algorithm.cc:58, localgridlist.cc:35),
    problem.config() (grid_creation.cc:34-39). *)
Record tree : Type := { t_int : string -> option Z; t_vec : string -> option (list Q) }.

(** Configuration::set with overwriting (algorithm.cc:58). *)
Definition set_int (t : tree) (k : string) (v : Z) : tree :=
  {| t_int := fun k' => if String.eqb k' k then Some v else t_int t k'; t_vec := t_vec t |}.
(** The same for vectors (used by the user of the library, as algorithm.cc:58). *)
Definition set_vec (t : tree) (k : string) (v : list Q) : tree :=
  {| t_int := t_int t; t_vec := fun k' => if String.eqb k' k then Some v else t_vec t k' |}.

(** Configuration::get with a default, grid_creation.cc:34,46. *)
Definition get_int (t : tree) (k : string) (d : Z) : Z := match t_int t k with Some v => v | None => d end.
(** The same for vectors, localgridlist.cc:36-37. *)
Definition get_vec (t : tree) (k : string) (d : list Q) : list Q :=
  match t_vec t k with Some v => v | None => d end.

(** ProblemContainer, selector.cc:105-117: keeps a copy of the configuration;
    the corners of the domain are those of the model problem data. *)
Record container : Type := { k_config : tree; k_ll : list Q; k_ur : list Q }.
(** The constructor, selector.cc:105-117. *)
Definition make_container (t : tree) (ll ur : list Q) : container :=
  {| k_config := t; k_ll := ll; k_ur := ur |}.

(** setup, grid_creation.cc:30-39 and 46: all values from the container; the
    numbers of cells have no default, [None]: the missing key is an exception. *)
Definition grid_config (k : container) : option config :=
  match t_vec (k_config k) "grids.macro_cells_per_dim",
        t_vec (k_config k) "grids.micro_cells_per_macrocell_dim" with
  | Some n, Some m =>
    Some {| c_ll := k_ll k; c_ur := k_ur k;
            c_layers := get_int (k_config k) "msfem.oversampling_layers" 0;
            c_coarse := n; c_micro := m;
            c_overlap := get_int (k_config k) "grids.overlap" 1 |}
  | _, _ => None
  end.

(** make_coarse_grid on a container, grid_creation.cc:51-67. *)
Definition coarse_of (k : container) (comm nproc : nat) (stored layers : Z) : option gresult :=
  match grid_config k with Some c => Some (make_coarse_grid c comm nproc stored layers) | None => None end.
(** make_fine_grid on a container, grid_creation.cc:83-119. *)
Definition fine_of (k : container) (comm : nat) : option gresult :=
  match grid_config k with Some c => Some (make_fine_grid c comm) | None => None end.

(** LocalGridList, localgridlist.cc:32-43: the refinement of the local grids is
    read from the global configuration, with default 8; the layers come from
    the container. [mins], [maxs]: limits of the coarse entity (60-61). *)
Definition local_micro (global : tree) (dim : nat) : list Q :=
  get_vec global "grids.micro_cells_per_macrocell_dim" (repeat 8%Q dim).
(** The loop over the directions, localgridlist.cc:38-43, 59-70, on one coarse entity. *)
Definition local_of (global : tree) (k : container) (dim : nat) (mins maxs : list Q) : list axis :=
  map (fun i => {| a_gll := nth i (k_ll k) 0%Q; a_gur := nth i (k_ur k) 0%Q;
                   a_min := nth i mins 0%Q; a_max := nth i maxs 0%Q;
                   a_micro := nth i (local_micro global dim) 0%Q;
                   a_layers := get_int (k_config k) "msfem.oversampling_layers" 0 |})
      (seq 0 dim).

(** What a program using the library can do: algorithm.cc:47-68 and the test
    programs (e.g. test/grid_creation.cc:120-178). *)
Inductive op : Type :=
| SetInt (k : string) (v : Z)                 (* change the global configuration *)
| SetVec (k : string) (v : list Q)
| NewContainer (ll ur : list Q)               (* a container made from the global configuration *)
| CoarseGrid (k : nat) (comm nproc : nat) (stored layers : Z)
| FineGrid (k : nat) (comm : nat)
| LocalGrids (k : nat) (dim : nat) (mins maxs : list Q).

(** The answers: grids of grid_creation.cc:66,118 and localgridlist.cc:73. *)
Inductive out : Type :=
| Nothing | Grid (r : option gresult) | Locals (l : list axis) | NoContainer.

(** The global configuration and the containers made so far (selector.cc:105-117). *)
Record session : Type := { s_global : tree; s_containers : list container }.

(** One of the operations: algorithm.cc:58, selector.cc:105-117,
    grid_creation.cc:51-119, localgridlist.cc:27-75. *)
Definition step (s : session) (o : op) : session * out :=
  let with_k k f := match nth_error (s_containers s) k with
                    | Some c => (s, f c) | None => (s, NoContainer) end in
  match o with
  | SetInt k v => ({| s_global := set_int (s_global s) k v; s_containers := s_containers s |}, Nothing)
  | SetVec k v => ({| s_global := set_vec (s_global s) k v; s_containers := s_containers s |}, Nothing)
  | NewContainer ll ur =>
      ({| s_global := s_global s;
          s_containers := s_containers s ++ [make_container (s_global s) ll ur] |}, Nothing)
  | CoarseGrid k comm nproc stored layers => with_k k (fun c => Grid (coarse_of c comm nproc stored layers))
  | FineGrid k comm => with_k k (fun c => Grid (fine_of c comm))
  | LocalGrids k dim mins maxs => with_k k (fun c => Locals (local_of (s_global s) c dim mins maxs))
  end.
(** A sequence of operations (as algorithm.cc:47-68 or a test program issues them). *)
Fixpoint run (s : session) (os : list op) : session :=
  match os with [] => s | o :: r => run (fst (step s o)) r end.
(** Answers to the operations of a run (results of grid_creation.cc:51-119 and
    localgridlist.cc:27-75). *)
Fixpoint answers (s : session) (os : list op) : list out :=
  match os with [] => [] | o :: r => snd (step s o) :: answers (fst (step s o)) r end.

(** msfem_algorithm, algorithm.cc:53-67, as far as the grids are concerned;
    [cell] are the limits of a coarse cell. The fine grid is made later by the
    reference comparison from the same container. *)
Definition msfem_run (dim : nat) (ll ur : list Q) (nproc : nat) (stored layers : Z)
  (mins maxs : list Q) : list op :=
  [NewContainer ll ur; CoarseGrid 0 0 nproc stored layers; SetInt "grids.dim" (Z.of_nat dim);
   LocalGrids 0 dim mins maxs; FineGrid 0 0].
