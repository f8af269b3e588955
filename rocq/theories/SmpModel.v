(** Assembly of the coarse system by several threads.

    /repo/dune/multiscale/msfem/coarse_scale_operator.cc:54-78 (cells in
    partitions, one walk for matrix and right hand side),
    coarse_scale_assembler.cc:127-180, coarse_rhs_functional.cc:120-164.
    A thread is a list of small steps; a schedule says which thread makes the
    next step.  Simplified: exact real numbers; the element matrices and vectors
    are computed in one step; the storage handed in as tmpLocalMatricesContainer
    and tmpLocalVectorContainer is chosen by the external assembler per thread
    ([slot]); add_to_entry is external and modelled both as one step (locked)
    and as reading followed by writing (not locked); Neumann functional and
    Dirichlet projection, which belong to the same walk, are left out. *)
From Coq Require Import Reals List Arith Bool.
From Verif Require Import Util RSum CoarseModel.
Import ListNotations.
Open Scope R_scope.

(** Entry of a matrix or of a vector, coarse_scale_assembler.cc:176,
    coarse_rhs_functional.cc:161. *)
Inductive entry : Type := Mat (i j : nat) | Vec (i : nat).
(** Equality of entries, needed to write one (coarse_scale_assembler.cc:176). *)
Definition same (a b : entry) : bool :=
  match a, b with
  | Mat i j, Mat k l => Nat.eqb i k && Nat.eqb j l
  | Vec i, Vec k => Nat.eqb i k
  | _, _ => false
  end.
(** A matrix and a vector: global_matrix_ and msfem_rhs_
    (coarse_scale_operator.cc:42-46), or the storage of a thread. *)
Definition memory : Type := entry -> R.
(** Writing one entry (coarse_scale_assembler.cc:176). *)
Definition put (m : memory) (e : entry) (x : R) : memory := fun a => if same a e then x else m a.

(** Steps of a thread. *)
Inductive instr : Type :=
| ClearMat                    (* localMatrix *= 0.0, coarse_scale_assembler.cc:153 *)
| ClearVec                    (* localVector *= 0.0, coarse_rhs_functional.cc:147 *)
| Apply (L : memory)          (* apply adds to its result, coarse_scale_assembler.cc:105,156, coarse_rhs_functional.cc:150 *)
| Add (from to : entry)       (* add_to_entry, locked *)
| Fetch (to : entry)           (* add_to_entry, not locked: reads the entry *)
| Store (from to : entry)     (* … and writes the sum *)
| Stop.                       (* assertions coarse_scale_assembler.cc:91, coarse_rhs_functional.cc:90 *)

(** coarse_scale_operator.cc:72-78: the global system, the storages, the value
    a thread has read, and what the threads still have to do. *)
Record state : Type := {
  s_mem : memory;
  s_tmp : nat -> memory;
  s_reg : nat -> R;
  s_rest : nat -> list instr }.

(** Replaces the value for one thread or storage (coarse_scale_assembler.cc:152). *)
Definition upon {A : Type} (f : nat -> A) (t : nat) (x : A) : nat -> A := fun u => if Nat.eqb u t then x else f u.

(** localMatrix *= 0.0, coarse_scale_assembler.cc:153. *)
Definition clear_mat (m : memory) : memory := fun e => match e with Mat _ _ => m e * 0 | Vec _ => m e end.
(** localVector *= 0.0, coarse_rhs_functional.cc:147. *)
Definition clear_vec (m : memory) : memory := fun e => match e with Mat _ _ => m e | Vec _ => m e * 0 end.

Section Steps.
Variable slot : nat -> nat.

(** One step of thread [t]; None: assertion (coarse_scale_assembler.cc:91,
    153-176, coarse_rhs_functional.cc:90,147-161). *)
Definition step (t : nat) (s : state) : option state :=
  match s_rest s t with
  | [] => Some s
  | i :: r =>
    let w := s_tmp s (slot t) in
    let next mem tmp reg := Some {| s_mem := mem; s_tmp := tmp; s_reg := reg; s_rest := upon (s_rest s) t r |} in
    match i with
    | ClearMat => next (s_mem s) (upon (s_tmp s) (slot t) (clear_mat w)) (s_reg s)
    | ClearVec => next (s_mem s) (upon (s_tmp s) (slot t) (clear_vec w)) (s_reg s)
    | Apply L => next (s_mem s) (upon (s_tmp s) (slot t) (fun e => w e + L e)) (s_reg s)
    | Add f g => next (put (s_mem s) g (s_mem s g + w f)) (s_tmp s) (s_reg s)
    | Fetch g => next (s_mem s) (s_tmp s) (upon (s_reg s) t (s_mem s g))
    | Store f g => next (put (s_mem s) g (s_reg s t + w f)) (s_tmp s) (s_reg s)
    | Stop => None
    end
  end.

(** A schedule (coarse_scale_operator.cc:78). *)
Fixpoint run (sched : list nat) (s : state) : option state :=
  match sched with
  | [] => Some s
  | t :: r => match step t s with None => None | Some s' => run r s' end
  end.
End Steps.

Section Programs.
Variable d : nat.
Variable P : Type.
Variable diffusion : P -> nat -> nat -> R.
Variable source : P -> R.
Variable locked : bool.

(** add_to_entry, coarse_scale_assembler.cc:176, coarse_rhs_functional.cc:161. *)
Definition addition (from to : entry) : list instr := if locked then [Add from to] else [Fetch to; Store from to].

(** Body of the loop over the local elements, coarse_scale_assembler.cc:152-178. *)
Definition matrix_steps (c : coarse_cell P) (l : local_cell P) : list instr :=
  ClearMat ::
  Apply (fun e => match e with Mat i j => element_matrix d P diffusion c l i j | Vec _ => 0 end) ::
  flat_map (fun ii => flat_map (fun jj => addition (Mat ii jj) (Mat (cc_index P c ii) (cc_index P c jj)))
                               (seq 0 (cc_n P c))) (seq 0 (cc_n P c)).
(** coarse_rhs_functional.cc:146-162. *)
Definition vector_steps (c : coarse_cell P) (l : local_cell P) : list instr :=
  ClearVec ::
  Apply (fun e => match e with Mat _ _ => 0 | Vec i => element_vector d P diffusion source c l i end) ::
  flat_map (fun ii => addition (Vec ii) (Vec (cc_index P c ii))) (seq 0 (cc_n P c)).

(** One coarse cell: both assemblers of the walk, coarse_scale_operator.cc:72-73;
    coarse_scale_assembler.cc:147-150, coarse_rhs_functional.cc:140-143. *)
Definition cell_steps (c : coarse_cell P) : list instr :=
  (if Nat.eqb (cc_slots P c - 2) (cc_n P c)
   then flat_map (matrix_steps c) (filter (lc_covered P) (cc_locals P c)) else [Stop]) ++
  (if Nat.eqb (cc_slots P c) (cc_n P c + 2)
   then flat_map (vector_steps c) (filter (lc_covered P) (cc_locals P c)) else [Stop]).

(** The walk: thread [t] handles the cells [nth t cells []]; matrix and right
    hand side start from zero, the storages with anything
    (coarse_scale_operator.cc:53-57, 78). *)
Definition start (tmp : nat -> memory) (reg : nat -> R) (cells : list (list (coarse_cell P))) : state :=
  {| s_mem := fun _ => 0; s_tmp := tmp; s_reg := reg;
     s_rest := fun t => flat_map cell_steps (nth t cells []) |}.
End Programs.
