(** Vocabulary for C130. *)
From Coq Require Import ZArith QArith Qround Qabs List Arith Bool.
From Verif Require Import Util LocalGridModel RoundSpec FindModel.
Import ListNotations.
Open Scope Q_scope.

(** Fine and coarse cells of one direction; the coordinates of the domain are
    floating point numbers. *)
Record grid_ok (d : direction) : Prop := {
  go_lo : representable (d_lo d); go_up : representable (d_up d);
  go_order : d_lo d < d_up d; go_n : (1 <= d_n d)%Z; go_m : (1 <= d_m d)%Z }.

(** Width of a coarse cell. *)
Definition coarse_width (d : direction) : Q := (d_up d - d_lo d) / inject_Z (d_n d).

(** How far the domain is away from the origin, in coarse cells: rounding errors
    of coordinates are a few times 2^-52 of it. *)
Definition remoteness (d : direction) (r : Q) : Prop :=
  Qabs (d_lo d) + Qabs (d_up d) <= r * coarse_width d.

(** Rounding does not depend on the exponent (as for the usual modes). *)
Definition scaling (rnd : Q -> Q) : Prop := forall x e, rnd (x * two e) == rnd x * two e.

(** The coarse cell of fine cell [f]. *)
Definition home (ds : list direction) (f : list Z) : list Z :=
  map (fun p => (snd p / d_m (fst p))%Z) (combine ds f).
Definition fine_cell (ds : list direction) (f : list Z) : Prop :=
  Forall2 (fun d k => 0 <= k < d_n d * d_m d)%Z ds f.
Definition coarse_cell (ds : list direction) (c : list Z) : Prop :=
  Forall2 (fun d i => 0 <= i < d_n d)%Z ds c.

(** Not absurdly many cells (with 2^52 there would be no digits left). *)
Definition moderate (d : direction) : Prop := exists r, remoteness d r /\ r * inject_Z (d_m d) <= two 42.
(** At most five cells of the coarse width between the origin and the ends. *)
Definition few (d : direction) : Prop := remoteness d 5.
(** Fine cells in a coarse cell: a power of two. *)
Definition power (d : direction) : Prop := exists k, (0 <= k)%Z /\ d_m d = (2 ^ k)%Z.
