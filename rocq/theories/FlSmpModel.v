(** Assembly of the coarse system by several threads, with rounding.

    /repo/dune/multiscale/msfem/coarse_scale_operator.cc:54-78,
    coarse_scale_assembler.cc:87-108, 127-180,
    coarse_rhs_functional.cc:83-109, 120-164.
    As SmpModel.v, with floating point numbers: rational numbers, [rnd] rounds
    the exact result of every addition.  Simplified: no overflow, no underflow,
    no infinities; what is added at a quadrature point is given (its computation
    depends on the cell only); add_to_entry is locked; the assertions on the
    number of local solutions (C124) hold; Neumann functional and Dirichlet
    projection, which belong to the same walk, are left out. *)
From Coq Require Import ZArith QArith List Arith Bool.
From Verif Require Import Util SmpModel.
Import ListNotations.
Open Scope Q_scope.

(** A matrix and a vector of doubles (coarse_scale_operator.cc:42-46), or the
    storage of a thread (coarse_scale_assembler.cc:152, coarse_rhs_functional.cc:146). *)
Definition store : Type := entry -> Q.

(** A local element: whether it is covered (coarse_scale_assembler.cc:149,
    coarse_rhs_functional.cc:142), what is added to row i, column j of the element
    matrix at each quadrature point (coarse_scale_assembler.cc:105), and what is
    added to the element vector (two numbers for each quadrature point, the second
    one subtracted, coarse_rhs_functional.cc:106-107). *)
Record local : Type := { l_covered : bool; l_mat : list (nat -> nat -> Q); l_vec : list (nat -> Q) }.
(** A coarse cell: number of basis functions, their numbers in the space, local
    elements (coarse_scale_assembler.cc:147, 164-168). *)
Record cell : Type := { c_n : nat; c_index : nat -> nat; c_locals : list local }.

(** Steps of a thread. *)
Inductive op : Type :=
| ClearM                               (* coarse_scale_assembler.cc:153 *)
| ClearV                               (* coarse_rhs_functional.cc:147 *)
| ApplyM (ts : list (nat -> nat -> Q)) (* coarse_scale_assembler.cc:156-161 *)
| ApplyV (ts : list (nat -> Q))        (* coarse_rhs_functional.cc:150-155 *)
| AddTo (from to : entry).             (* coarse_scale_assembler.cc:176, coarse_rhs_functional.cc:161 *)

(** As SmpModel.state (coarse_scale_operator.cc:72-78). *)
Record machine : Type := { m_mem : store; m_tmp : nat -> store; m_rest : nat -> list op }.

(** Writing one entry (coarse_scale_assembler.cc:176). *)
Definition write (m : store) (e : entry) (x : Q) : store := fun a => if same a e then x else m a.

Section Code.
Variable rnd : Q -> Q.
(** Result of an operation (coarse_scale_assembler.cc:105, 176); of the many
    fractions for one number the reduced one. *)
Definition fl (x : Q) : Q := Qred (rnd x).

(** localMatrix *= 0.0 (coarse_scale_assembler.cc:153). *)
Definition clear_m (w : store) : store := fun e => match e with Mat _ _ => fl (w e * 0) | Vec _ => w e end.
(** localVector *= 0.0 (coarse_rhs_functional.cc:147). *)
Definition clear_v (w : store) : store := fun e => match e with Mat _ _ => w e | Vec _ => fl (w e * 0) end.
(** ret[jj][ii] += … (coarse_scale_assembler.cc:105), for all entries. *)
Definition add_m (w : store) (t : nat -> nat -> Q) : store :=
  fun e => match e with Mat i j => fl (w e + t i j) | Vec _ => w e end.
(** retRow += …, retRow -= … (coarse_rhs_functional.cc:106-107), for all rows. *)
Definition add_v (w : store) (t : nat -> Q) : store :=
  fun e => match e with Mat _ _ => w e | Vec i => fl (w e + t i) end.

Variable slot : nat -> nat.
(** One step of thread [t] (coarse_scale_assembler.cc:153-176,
    coarse_rhs_functional.cc:147-161). *)
Definition advance (t : nat) (s : machine) : machine :=
  match m_rest s t with
  | [] => s
  | i :: r =>
    let w := m_tmp s (slot t) in
    let storage w' := {| m_mem := m_mem s; m_tmp := upon (m_tmp s) (slot t) w'; m_rest := upon (m_rest s) t r |} in
    match i with
    | ClearM => storage (clear_m w)
    | ClearV => storage (clear_v w)
    | ApplyM ts => storage (fold_left add_m ts w)
    | ApplyV ts => storage (fold_left add_v ts w)
    | AddTo f g => {| m_mem := write (m_mem s) g (fl (m_mem s g + w f)); m_tmp := m_tmp s;
                      m_rest := upon (m_rest s) t r |}
    end
  end.

(** A schedule (coarse_scale_operator.cc:78). *)
Definition execute (sched : list nat) (s : machine) : machine := fold_left (fun s t => advance t s) sched s.
End Code.

(** Body of the loop over the local elements, coarse_scale_assembler.cc:152-178. *)
Definition m_steps (c : cell) (l : local) : list op :=
  ClearM :: ApplyM (l_mat l) ::
  flat_map (fun i => map (fun j => AddTo (Mat i j) (Mat (c_index c i) (c_index c j))) (seq 0 (c_n c))) (seq 0 (c_n c)).
(** coarse_rhs_functional.cc:146-162. *)
Definition v_steps (c : cell) (l : local) : list op :=
  ClearV :: ApplyV (l_vec l) :: map (fun i => AddTo (Vec i) (Vec (c_index c i))) (seq 0 (c_n c)).
(** One coarse cell: both assemblers of the walk, coarse_scale_operator.cc:72-73;
    coarse_scale_assembler.cc:147-150, coarse_rhs_functional.cc:140-143. *)
Definition c_steps (c : cell) : list op :=
  flat_map (m_steps c) (filter l_covered (c_locals c)) ++ flat_map (v_steps c) (filter l_covered (c_locals c)).
(** The walk: thread [t] handles the cells [nth t cells []]; matrix and right
    hand side start from zero, the storages with anything
    (coarse_scale_operator.cc:53-57, 78). *)
Definition begin (tmp : nat -> store) (cells : list (list cell)) : machine :=
  {| m_mem := fun _ => 0; m_tmp := tmp; m_rest := fun t => flat_map c_steps (nth t cells []) |}.
