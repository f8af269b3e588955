(** Vocabulary for C138: coarse cells divided into two by two parts. *)
From Coq Require Import Reals List Arith Bool.
From Verif Require Import Util RSum LinModel LinSpec QuadModel PatchSpec LayerSpec.
Import ListNotations.
Open Scope R_scope.

(** Diffusion [k f] times the unit matrix in the part [f]. *)
Definition times_unit (k : list nat -> R) (f : list nat) : nat -> nat -> R := fun i j => if Nat.eqb i j then k f else 0.

(** Function with values [v] at the corners of the coarse cell: difference of the
    means of opposite sides, in both directions, and what is left, the part that
    is not linear. *)
Definition side1 (v : list nat -> R) (a b : nat) : R := (v [S a; b] + v [S a; S b] - v [a; b] - v [a; S b]) / 2.
Definition side2 (v : list nat -> R) (a b : nat) : R := (v [a; S b] + v [S a; S b] - v [a; b] - v [S a; b]) / 2.
Definition twist (v : list nat -> R) (a b : nat) : R := v [a; b] + v [S a; S b] - v [S a; b] - v [a; S b].

(** Differences of the diffusions of the four parts. *)
Definition lower_upper1 (k : list nat -> R) : R := k [0; 0]%nat + k [0; 1]%nat - k [1; 0]%nat - k [1; 1]%nat.
Definition lower_upper2 (k : list nat -> R) : R := k [0; 0]%nat - k [0; 1]%nat + k [1; 0]%nat - k [1; 1]%nat.
Definition across (k : list nat -> R) : R := k [0; 1]%nat + k [1; 0]%nat - k [0; 0]%nat - k [1; 1]%nat.
Definition all_parts (k : list nat -> R) : R := k [0; 0]%nat + k [0; 1]%nat + k [1; 0]%nat + k [1; 1]%nat.

(** Energy products of the function of the middle node with the linear part and
    with the rest of the coarse function, and its own energy; edges [h1], [h2]. *)
Definition linear_load (h1 h2 : R) (k v : list nat -> R) (a b : nat) : R :=
  (h2 / h1 * side1 v a b * lower_upper1 k + h1 / h2 * side2 v a b * lower_upper2 k) / 4.
Definition twisted_load (h1 h2 : R) (k v : list nat -> R) (a b : nat) : R :=
  (h2 / h1 + h1 / h2) * twist v a b * across k / 24.
Definition middle_energy (h1 h2 : R) (k : list nat -> R) : R := (h2 / h1 + h1 / h2) * all_parts k / 3.

(** What the correctors add to the energy of one coarse cell. *)
Definition raised (h1 h2 : R) (k v : list nat -> R) (cs : list nat) : R :=
  match cs with
  | [a; b] => let l := linear_load h1 h2 k v a b in let t := twisted_load h1 h2 k v a b in
              (3 * t - l) * (t + l) / middle_energy h1 h2 k
  | _ => 0
  end.

(** Every coarse cell is divided into two by two parts, no oversampling; the
    diffusion is a positive number in every part; exact local solutions. *)
Definition quartered (hs : list R) (p : patch) (diffusion : list R -> nat -> nat -> R) (k : list nat -> R) : Prop :=
  pa_cells p = [2; 2]%nat /\
  (forall f xs i j, In f (cells [2; 2]%nat) -> length xs = 2%nat -> Forall (fun x => 0 < x < 1) xs -> (i < 2)%nat -> (j < 2)%nat ->
     diffusion (pa_global p f xs) i j = times_unit k f i j) /\
  (forall f, In f (cells [2; 2]%nat) -> 0 < k f).
