(** Vocabulary for C104: tensor product grids, the L2 product of piecewise
    multilinear functions, and general products assembled cell by cell. *)
From Coq Require Import List Arith ZArith QArith.
From Verif Require Import ProjectionModel MeshModel.
Import ListNotations.

(** At least one cell per direction. *)
Definition cells_ok (ns : list nat) : Prop := Forall (fun n => 1 <= n)%nat ns.
(** Indices of a node; of a node inside the domain. *)
Definition node (ns ks : list nat) : Prop := Forall2 (fun n k => k <= n)%nat ns ks.
Definition inside (ns ks : list nat) : Prop := Forall2 (fun n k => 0 < k < n)%nat ns ks.

(** Number of cells around a node of a tensor product grid. *)
Definition sides (n k : nat) : nat := if (Nat.eqb k 0 || Nat.eqb k n)%bool then 1 else 2.
Fixpoint around (ns ks : list nat) : nat :=
  match ns, ks with n :: r, k :: l => sides n k * around r l | _, _ => 1 end%nat.

(** Sums and powers. *)
Fixpoint qsum {A} (f : A -> Q) (l : list A) : Q :=
  match l with [] => 0 | a :: r => f a + qsum f r end%Q.
Fixpoint qpow (x : Q) (n : nat) : Q := match n with O => 1 | S m => x * qpow x m end%Q.
Definition qprod (l : list Q) : Q := fold_right Qmult 1%Q l.

(** L2 product on one cell with edge lengths [hs] of the multilinear functions
    with corner values [a], [b]; corner numbers in the order of [mesh].  In one
    direction: h (a0 b0 / 3 + a0 b1 / 6 + a1 b0 / 6 + a1 b1 / 3). *)
Fixpoint mass (hs : list Q) (a b : nat -> Q) : Q :=
  match hs with
  | [] => a 0%nat * b 0%nat
  | h :: r =>
    let m := (2 ^ length r)%nat in
    let a' c := a (m + c)%nat in let b' c := b (m + c)%nat in
    h * ((mass r a b + mass r a' b') / 3 + (mass r a b' + mass r a' b) / 6)
  end%Q.
(** Edge lengths of a grid of the unit cube. *)
Definition edges (ns : list nat) : list Q := map (fun n => 1 / inject_Z (Z.of_nat n))%Q ns.
(** Values of a nodal function at the corners of an element. *)
Definition at_corners (v : nat -> Q) (e : list nat) : nat -> Q := fun c => v (nth c e 0%nat).
(** Square of the L2 norm over the unit cube. *)
Definition norm_square (ns : list nat) (v : nat -> Q) : Q :=
  qsum (fun e => mass (edges ns) (at_corners v e) (at_corners v e)) (mesh ns).

(** What is left of the square of the L2 norm of the constant one, per direction:
    all of it with one cell, 1/4 + 2/(3n) with n cells. *)
Definition factor (n : nat) : Q :=
  if Nat.eqb n 1 then 1%Q else ((1 # 4) + 2 / (3 * inject_Z (Z.of_nat n)))%Q.

(** The elements that do not touch the boundary. *)
Definition inner (ns : list nat) (e : list nat) : Prop :=
  forall j, In j e -> exists ks, inside ns ks /\ j = number ns ks.

(** Products of functions on a set [X] of points, assembled cell by cell, and an
    interpolation of nodal values: the L2 product and the H1 semi product with
    finite element functions, and also with other functions (the exact
    solution). *)
Record product (X : Type) := {
  p_cell : list nat -> X -> Prop;
  p_interp : (nat -> Q) -> X -> Q;
  p_form : list nat -> (X -> Q) -> (X -> Q) -> Q
}.
Arguments p_cell {X}. Arguments p_interp {X}. Arguments p_form {X}.
Open Scope Q_scope.
(** On the elements [es]: local, bilinear, symmetric, not negative; the
    interpolation is local and homogeneous. *)
Record lawful {X} (P : product X) (es : list (list nat)) : Prop := {
  l_local : forall e f f', In e es -> (forall x, p_cell P e x -> f x == f' x) ->
              forall g, p_form P e f g == p_form P e f' g;
  l_add : forall e f f' g, In e es ->
              p_form P e (fun x => f x + f' x) g == p_form P e f g + p_form P e f' g;
  l_scale : forall e c f g, In e es -> p_form P e (fun x => c * f x) g == c * p_form P e f g;
  l_sym : forall e f g, In e es -> p_form P e f g == p_form P e g f;
  l_pos : forall e f, In e es -> 0 <= p_form P e f f;
  l_interp : forall e c v w, In e es -> (forall j, In j e -> v j == c * w j) ->
              forall x, p_cell P e x -> p_interp P v x == c * p_interp P w x
}.
(** Square of the reported distance between a finite element function with nodal
    values [v] and [u], restricted to the elements [es]. *)
Definition distance_square {X} (P : product X) (es : list (list nat)) (v : nat -> Q) (u : X -> Q) : Q :=
  qsum (fun e => p_form P e (fun x => p_interp P v x - u x) (fun x => p_interp P v x - u x)) es.
Definition size_square {X} (P : product X) (es : list (list nat)) (u : X -> Q) : Q :=
  qsum (fun e => p_form P e u u) es.

(** The L2 product of nodal functions as such a product. *)
Definition l2_product (ns : list nat) : product nat :=
  {| p_cell := fun e x => In x e;
     p_interp := fun v => v;
     p_form := fun e f g => mass (edges ns) (at_corners f e) (at_corners g e) |}.
