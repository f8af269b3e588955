(** Vocabulary for C133: larger data and larger solutions on an interval. *)
From Coq Require Import Reals List Arith Bool.
From Verif Require Import Util RSum LinModel QuadModel CoarseModel SystemModel FemModel PatchSpec SolveSpec LayerSpec LineSpec ConvSpec.
Import ListNotations.
Open Scope R_scope.

(** The same grids, diffusion and stored functions with another source, other
    prescribed fluxes and other boundary values (coarse and fine). *)
Definition with_data (I : interval) (source neumann : list R -> R) (g gf : nat -> R) : interval :=
  {| iv_n := iv_n I; iv_m := iv_m I; iv_N := iv_N I; iv_Nf := iv_Nf I; iv_H := iv_H I;
     iv_num := iv_num I; iv_numf := iv_numf I; iv_diffusion := iv_diffusion I; iv_source := source; iv_neumann := neumann;
     iv_global := iv_global I; iv_a := iv_a I; iv_order := iv_order I; iv_rhs_order := iv_rhs_order I; iv_o := iv_o I; iv_fo := iv_fo I;
     iv_pa := iv_pa I; iv_x := iv_x I; iv_rq := iv_rq I; iv_rqf := iv_rqf I; iv_nl := iv_nl I; iv_nr := iv_nr I;
     iv_left := iv_left I; iv_right := iv_right I; iv_con := iv_con I; iv_g := g; iv_conf := iv_conf I; iv_gf := gf |}.

(** The data at the ends are not smaller in [J]: boundary values at constrained
    ends, fluxes at ends with prescribed flux. *)
Definition ends_le (I J : interval) : Prop :=
  (left_constrained I -> iv_g I (iv_num I [0%nat]) <= iv_g J (iv_num I [0%nat])) /\
  (right_constrained I -> iv_g I (iv_num I [iv_n I]) <= iv_g J (iv_num I [iv_n I])) /\
  (iv_nl I = true -> iv_neumann I (iv_left I) <= iv_neumann J (iv_left I)) /\
  (iv_nr I = true -> iv_neumann I (iv_right I) <= iv_neumann J (iv_right I)).
(** The source is not smaller in [J] at all points; points and weights of the
    rules of the right hand side are ordinary. *)
Definition source_le (I J : interval) : Prop :=
  (forall y, iv_source I y <= iv_source J y) /\ forall g, (g < iv_n I * iv_m I)%nat -> ordinary_rule (iv_rq I g).

(** The diffusion has the same mean on all fine cells of a coarse cell. *)
Definition uniform_cells (I : interval) : Prop :=
  forall c f f', (c < iv_n I)%nat -> (f < iv_m I)%nat -> (f' < iv_m I)%nat -> iv_a I (c * iv_m I + f)%nat = iv_a I (c * iv_m I + f')%nat.

(** Neither source nor prescribed flux. *)
Definition nothing_supplied (I : interval) : Prop :=
  (forall y, iv_source I y = 0) /\ (iv_nl I = true -> iv_neumann I (iv_left I) = 0) /\ (iv_nr I = true -> iv_neumann I (iv_right I) = 0).
(** The boundary values at constrained ends lie between [lo] and [hi]. *)
Definition ends_between (I : interval) (lo hi : R) : Prop :=
  (left_constrained I -> lo <= iv_g I (iv_num I [0%nat]) <= hi) /\ (right_constrained I -> lo <= iv_g I (iv_num I [iv_n I]) <= hi).
