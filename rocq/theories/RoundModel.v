(** Computations of the code in which floating point numbers are turned into
    cell numbers, now with rounding.

    /repo/dune/multiscale/common/grid_creation.cc:45,
    problems/spe10.cc:161, problems/tarbert.cc:136-137,
    problems/random_permeability.hh:209-221, 330-341,
    msfem/localproblems/localgridlist.cc:59-70.
    Floating point numbers are rational numbers; [rnd] rounds the exact result
    of every operation.  Simplified: no overflow, no underflow, no infinities. *)
From Coq Require Import ZArith QArith Qround List Arith Bool.
From Verif Require Import Util GridModel SpeModel RandModel LocalGridModel.
Import ListNotations.
Open Scope Q_scope.

Section Code.
Variable rnd : Q -> Q.

(** setup, grid_creation.cc:45. *)
Definition overlap_fl (c : config) : option (list Z) :=
  all_some (map (fun m => if Qeq_bool m 0 then None
                          else to_unsigned (inject_Z (Qceiling (rnd (inject_Z (c_layers c) / m)))))
                (c_micro c)).

(** spe10.cc:161, one direction. *)
Definition which_partition_fl (ne : Z) (ll ur c : Q) : option Z :=
  match to_size_t (Qfloor (rnd (inject_Z ne * rnd (rnd (c - ll) / rnd (ur - ll))))) with
  | Some f => Some (Z.min f (ne - 1))
  | None => None
  end.

(** tarbert.cc:109, 136-137; the edge lengths are rounded constants. *)
Definition interval_fl (x : nat -> Q) (dd : nat) : Z := Qfloor (rnd (x dd / rnd (SpeModel.delta dd))).

(** The loop random_permeability.hh:332-340. *)
Fixpoint locate_fl (N : nat) (ranges : list range) (x : list Q) (cell : nat) : option (nat * list Q) :=
  match ranges, x with
  | r :: rs, x0 :: xs =>
      let p := rnd (x0 * inject_Z (Z.of_nat N)) in                       (* 333 *)
      if Qle_bool (inject_Z (Z.of_nat (fst r))) p && Qle_bool p (inject_Z (Z.of_nat (snd r))) then   (* 334 *)
        let p' := rnd (p - inject_Z (Z.of_nat (fst r))) in               (* 336 *)
        let j := Qfloor p' in                                            (* 337 *)
        match locate_fl N rs xs (RandModel.size r * cell + Z.to_nat j)%nat with
        | None => None
        | Some (c, ts) => Some (c, rnd (p' - inject_Z j) :: ts)          (* 338 *)
        end
      else None
  | _, _ => Some (cell, [])
  end.

(** localgridlist.cc:63 *)
Definition delta_fl (a : axis) : Q := rnd (rnd (a_max a - a_min a) / a_micro a).
(** localgridlist.cc:64, 66: [min - (oversampling_layer * delta)]. *)
Definition left_fl (a : axis) : Q := rnd (a_min a - rnd (inject_Z (a_layers a) * delta_fl a)).
(** localgridlist.cc:65, 67. *)
Definition right_fl (a : axis) : Q := rnd (a_max a + rnd (inject_Z (a_layers a) * delta_fl a)).
(** localgridlist.cc:64-69, one direction; the sum of small whole numbers in
    line 69 is exact. *)
Definition local_axis_fl (a : axis) : gaxis :=
  {| g_lo := qmax (left_fl a) (a_gll a);
     g_hi := qmin (right_fl a) (a_gur a);
     g_n := Qfloor (a_micro a + inject_Z ((int_not (Qlt_bool (left_fl a) (a_gll a))
                                           + int_not (Qlt_bool (a_gur a) (right_fl a))) * a_layers a)) |}.
End Code.

(** partition, random_permeability.hh:209-221; [lg]: the result of std::log2. *)
Definition partition_fl (lg : nat -> Q) (dim nProc : nat) : option (list nat) :=
  let h := lg nProc in                                                    (* 211 *)
  let log2P := Z.to_nat (Qfloor h) in                                     (* 212, [h] is not negative *)
  if Qeq_bool (inject_Z (Z.of_nat log2P)) h then                          (* 213-214 *)
    let nAll := (log2P / dim)%nat in                                      (* 215 *)
    let nMore := (log2P - nAll * dim)%nat in                              (* 216 *)
    Some (map (fun i => 2 ^ (nAll + if Nat.ltb i nMore then 1 else 0))%nat (seq 0 dim)) (* 217-218 *)
  else None.
