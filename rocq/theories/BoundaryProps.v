(** Properties C77, C78: boundary conditions of the domain and of local problems. *)
From Coq Require Import List Arith Bool Lia.
From Verif Require Import Util SpeModel BoundaryModel BoundarySpec BoundaryProofs.
Import ListNotations.

(** C77. Which sides carry prescribed values, when nothing is configured. *)
Theorem C77_default_boundary_conditions : forall dim own f, 1 <= dim <= 3 -> is_side dim f ->
  (forall k, boundary_info PSynthetic dim none own = Some k -> (k f = Neumann <-> f_axis f = 2)) /\
  (forall k, boundary_info PRandom dim none own = Some k -> (k f = Neumann <-> f_axis f <> 0)) /\
  (forall k, boundary_info PSpe10 dim none own = Some k ->
     (k f = Dirichlet <-> f_axis f = 1 /\ f_up f = true)) /\
  (forall k, boundary_info PTarbert dim none own = Some k ->
     (k f = Dirichlet <-> f_axis f = 1 /\ (f_up f = true <-> dim = 3))) /\
  (forall k, boundary_info PEr2007 dim none own = Some k -> k f = Dirichlet).
Proof.
  intros dim own f D S. repeat split; intros.
  all: try (apply (kind_synthetic dim own k f D S); assumption).
  all: try (apply (kind_random dim own k f D S); assumption).
  all: try (apply (kind_spe10 dim own k f D S); assumption).
  all: try (apply (kind_tarbert dim own k f D S); assumption).
  now apply (kind_er2007 dim none own k f).
Qed.
Print Assumptions C77_default_boundary_conditions.

(** A problem can be built unless it is one of three in one dimension without
    global settings. *)
Theorem C77_construction_fails_iff : forall p dim global own,
  (boundary_info p dim global own = None <->
   cf_boundary global = None /\ dim = 1 /\ (p = PRandom \/ p = PSpe10 \/ p = PTarbert)) /\
  (sub_boundary_info p dim global own = None <-> boundary_info p dim global own = None).
Proof. intros. split; [apply info_defined|apply sub_defined]. Qed.
Print Assumptions C77_construction_fails_iff.

(** Settings of the global configuration replace the defaults in every
    dimension, except for ER2007; the problem's own configuration has no
    influence. *)
Theorem C77_settings_come_from_the_global_configuration : forall p dim s own f,
  (p <> PEr2007 -> exists k, boundary_info p dim {| cf_boundary := Some s |} own = Some k /\
     (k f = Dirichlet <->
      (st_default s = Dirichlet /\ ~ In f (st_neumann s)) \/
      (st_default s = Neumann /\ In f (st_dirichlet s)))) /\
  (p = PEr2007 -> boundary_info p dim {| cf_boundary := Some s |} own =
                  boundary_info p dim none own) /\
  (forall global own', boundary_info p dim global own = boundary_info p dim global own' /\
     sub_boundary_info p dim global own = sub_boundary_info p dim global own').
Proof.
  intros p dim s own f. split; [|split].
  - intros N.
    destruct (boundary_info p dim {| cf_boundary := Some s |} own) as [k|] eqn:E.
    + exists k. split; auto. rewrite (kind_override p dim s own k f N E).
      rewrite <- !(mem_face f).
      destruct (st_default s), (existsb (face_eqb f) (st_neumann s)), (existsb (face_eqb f) (st_dirichlet s));
        intuition (congruence || discriminate).
    + apply info_defined in E. destruct E as (E & _). discriminate.
  - intros ->. reflexivity.
  - intros global own'. apply info_own.
Qed.
Print Assumptions C77_settings_come_from_the_global_configuration.

(** The same sides as in the data of the tabulated problems. *)
Theorem C77_agrees_with_problem_data : forall dim own f, 2 <= dim <= 3 ->
  (forall k, boundary_info PSpe10 dim none own = Some k -> k f = spe_boundary dim f) /\
  (forall k, boundary_info PTarbert dim none own = Some k -> k f = tar_boundary dim f).
Proof. exact agrees_with_tables. Qed.
Print Assumptions C77_agrees_with_problem_data.

Example C77_case :
  let own := {| cf_boundary := Some {| st_default := Neumann; st_dirichlet := []; st_neumann := [] |} |} in
  (exists k, boundary_info PSpe10 3 none own = Some k /\
     map k (faces 3) = [Neumann; Neumann; Neumann; Dirichlet; Neumann; Neumann]) /\
  (exists k, boundary_info PRandom 3 none own = Some k /\
     map k (faces 3) = [Dirichlet; Dirichlet; Neumann; Neumann; Neumann; Neumann]) /\
  boundary_info PTarbert 1 none own = None /\
  (exists k, boundary_info PTarbert 1 own none = Some k /\ map k (faces 1) = [Neumann; Neumann]).
Proof.
  split; [eexists; split; reflexivity|]. split; [eexists; split; reflexivity|].
  split; [reflexivity|]. eexists; split; reflexivity.
Qed.

(** C78. Local problems: nodes with prescribed (zero) values. *)
Theorem C78_local_grids_constrained_all_around : forall p dim global own k ns js,
  (p = PSynthetic \/ p = PRandom \/ p = PEr2007) ->
  sub_boundary_info p dim global own = Some k ->
  (constrained_node k ns js = true <-> on_boundary ns js).
Proof. exact local_all. Qed.
Print Assumptions C78_local_grids_constrained_all_around.

Theorem C78_local_grids_constrained_on_one_side : forall own k ns js, 2 <= length ns <= 3 ->
  (sub_boundary_info PSpe10 (length ns) none own = Some k ->
   (constrained_node k ns js = true <-> on_side ns js 1 true)) /\
  (sub_boundary_info PTarbert (length ns) none own = Some k ->
   (constrained_node k ns js = true <-> on_side ns js 1 (Nat.eqb (length ns) 3))).
Proof. intros. split; intros; [eapply local_spe10|eapply local_tarbert]; eauto. Qed.
Print Assumptions C78_local_grids_constrained_on_one_side.

Theorem C78_boundary_nodes_left_free : forall p own k ns,
  (p = PSpe10 \/ p = PTarbert) -> 2 <= length ns <= 3 ->
  (forall i, i < length ns -> 1 <= nth i ns 0) ->
  sub_boundary_info p (length ns) none own = Some k ->
  exists js, is_node ns js /\ on_boundary ns js /\ constrained_node k ns js = false.
Proof. exact local_free_node. Qed.
Print Assumptions C78_boundary_nodes_left_free.

Example C78_case :
  (exists k, sub_boundary_info PSynthetic 2 none none = Some k /\
     map (constrained_node k [2; 2]) [[0; 1]; [1; 1]; [1; 2]; [2; 0]] = [true; false; true; true]) /\
  (exists k, sub_boundary_info PSpe10 2 none none = Some k /\
     map (constrained_node k [2; 2]) [[0; 1]; [1; 1]; [1; 2]; [2; 0]] = [false; false; true; false]) /\
  (exists k, sub_boundary_info PTarbert 2 none none = Some k /\
     map (constrained_node k [2; 2]) [[0; 1]; [1; 1]; [1; 2]; [2; 0]] = [false; false; false; true]).
Proof. repeat split; eexists; split; reflexivity. Qed.
