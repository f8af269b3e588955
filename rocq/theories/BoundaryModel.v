(** Boundary conditions: which parts of the domain boundary carry prescribed
    values and which nodes of a local grid are constrained.

    Paths relative to /repo/dune/multiscale.
    - problems/synthetic.cc:45-64, random.cc:100-124, spe10.cc:76-96,
      tarbert.cc:59-81   boundary_settings
    - problems/er2007.cc:17-24   boundary information without settings
    - problems/synthetic.hh:55-56, random.hh:108-109, er2007.hh:67-68,
      spe10.cc:33-36, tarbert.cc:23-26   boundary information of local grids
    - msfem/localproblems/localoperator.cc:102   constraints of local problems

    Simplified: a normal is an axis direction of a cube grid ([face]), the text
    of the settings is already parsed, compare_tolerance is dropped (axis normals
    differ by at least 1).  External: NormalBased, AllDirichlet and
    DirichletConstraints of the libraries. *)
From Coq Require Import List Arith Bool.
From Verif Require Import Util SpeModel.
Import ListNotations.

(** The problems of the selector, problems/selector.cc:41-75. *)
Inductive pname : Type := PSynthetic | PRandom | PSpe10 | PTarbert | PEr2007.

(** Content of a parameter tree for NormalBased::create, e.g. synthetic.cc:23,
    51-61. *)
Record settings : Type := { st_default : bkind; st_dirichlet : list face; st_neumann : list face }.

(** A configuration as far as boundary_settings reads it: the sub tree
    "problem.boundaryInfo" if there is one (synthetic.cc:48, random.cc:102,
    spe10.cc:79, tarbert.cc:62). *)
Record config : Type := { cf_boundary : option settings }.

(** A normal of the texts "[0 1 0]" etc. in the branches below, e.g. random.cc:106-123. *)
Definition fc (axis : nat) (up : bool) : face := {| f_axis := axis; f_up := up |}.

(** The [else] branch of boundary_settings; [None]: an exception.
    synthetic.cc:51-61, random.cc:106-123, spe10.cc:82-93, tarbert.cc:65-77. *)
Definition default_settings (p : pname) (dim : nat) : option settings :=
  match p with
  | PSynthetic =>
      Some {| st_default := Dirichlet; st_dirichlet := [];
              st_neumann := if Nat.eqb dim 3 then [fc 2 true; fc 2 false] else [] |}
  | PRandom =>
      if Nat.eqb dim 1 then None
      else Some {| st_default := Dirichlet; st_dirichlet := [];
                   st_neumann := if Nat.eqb dim 3 then [fc 1 true; fc 1 false; fc 2 true; fc 2 false]
                                 else if Nat.eqb dim 2 then [fc 1 true; fc 1 false] else [] |}
  | PSpe10 =>
      if Nat.eqb dim 1 then None
      else Some {| st_default := Neumann;
                   st_dirichlet := if Nat.eqb dim 2 then [fc 1 true]
                                   else if Nat.eqb dim 3 then [fc 1 true] else [];
                   st_neumann := [] |}
  | PTarbert =>
      if Nat.eqb dim 1 then None
      else Some {| st_default := Neumann;
                   st_dirichlet := if Nat.eqb dim 2 then [fc 1 false]
                                   else if Nat.eqb dim 3 then [fc 1 true] else [];
                   st_neumann := [] |}
  | PEr2007 => None
  end.

(** boundary_settings: [global] is DXTC_CONFIG, [own] the configuration the
    problem was built with (kept in IModelProblemData, never asked here).
    synthetic.cc:45-64, random.cc:100-124, spe10.cc:76-96, tarbert.cc:59-81. *)
Definition boundary_settings (p : pname) (dim : nat) (global own : config) : option settings :=
  match cf_boundary global with
  | Some s => Some s
  | None => default_settings p dim
  end.

(** NormalBased::type (external, made in synthetic.cc:23, random.cc:33,
    spe10.cc:34, tarbert.cc:24): the listed normals are the exceptions to the
    default. *)
Definition normal_based (s : settings) (f : face) : bkind :=
  match st_default s with
  | Dirichlet => if existsb (face_eqb f) (st_neumann s) then Neumann else Dirichlet
  | Neumann => if existsb (face_eqb f) (st_dirichlet s) then Dirichlet else Neumann
  end.
(** AllDirichlet (external, er2007.cc:21). *)
Definition all_dirichlet (f : face) : bkind := Dirichlet.

(** Construction of ModelProblemData and boundaryInfo(): kind of each side of
    the domain; [None]: the constructor throws.
    synthetic.cc:19-26, random.cc:72-79, spe10.cc:28-37, tarbert.cc:18-27,
    er2007.cc:17-24. *)
Definition boundary_info (p : pname) (dim : nat) (global own : config) : option (face -> bkind) :=
  match p with
  | PEr2007 => Some all_dirichlet
  | _ => match boundary_settings p dim global own with
         | None => None
         | Some s => Some (normal_based s)
         end
  end.

(** subBoundaryInfo(): the same for the grid of a local problem.
    synthetic.cc:40-43, random.cc:95-98, er2007.cc:38-41 with the headers' AllDirichlet;
    spe10.cc:35-36, tarbert.cc:25-26. *)
Definition sub_boundary_info (p : pname) (dim : nat) (global own : config) : option (face -> bkind) :=
  match p with
  | PEr2007 => Some all_dirichlet
  | PSynthetic | PRandom =>
      match boundary_settings p dim global own with   (* same constructor *)
      | None => None
      | Some _ => Some all_dirichlet
      end
  | PSpe10 | PTarbert =>
      match boundary_settings p dim global own with
      | None => None
      | Some s => Some (normal_based s)
      end
  end.

(** A node of a cube grid with [nth i ns 0] cells along axis i is its
    multi-index. *)
Definition on_face (ns js : list nat) (f : face) : bool :=
  Nat.eqb (nth (f_axis f) js 0) (if f_up f then nth (f_axis f) ns 0 else 0).
(** The 2*dim sides of a box. *)
Definition faces (dim : nat) : list face :=
  flat_map (fun a => [fc a false; fc a true]) (seq 0 dim).
(** DirichletConstraints (external), localoperator.cc:102,156-163: the nodes on
    boundary intersections of Dirichlet kind. *)
Definition constrained_node (kind : face -> bkind) (ns js : list nat) : bool :=
  existsb (fun f => on_face ns js f && match kind f with Dirichlet => true | Neumann => false end)
          (faces (length ns)).
