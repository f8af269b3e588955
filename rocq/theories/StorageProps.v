(** Properties C01-C07: the store of local problem solutions. *)
From Coq Require Import List Arith ZArith Lia Bool.
From Verif Require Import Util StorageModel StorageSpec StorageProofs StorageReplayProofs.
Import ListNotations.

(** Integer scalars, used by the concrete cases below. *)
Definition ZS : Scalar :=
  {| K := Z; k0 := 0%Z; k1 := 1%Z; kadd := Z.add; kmul := Z.mul; ksub := Z.sub;
     kopp := Z.opp; k_ring := InitialRing.Zth |}.

(** Concrete history: cell 3 and cell 7 get a handle each, write, and cell 7
    saves. *)
Definition ex_ops : list (op ZS) :=
  [New ZS 3 2 2; New ZS 7 2 3; Write ZS 0 0 [5; 6]%Z; Write ZS 1 0 [1; 2; 3]%Z;
   Write ZS 1 1 [4; 0; -1]%Z; Save ZS 1].
Definition ex_state (n : nat) : state ZS :=
  match run ZS (init ZS) (firstn n ex_ops) with Some s => s | None => init ZS end.

Lemma ex_reachable : forall n, n <= 6 -> reachable ZS (ex_state n).
Proof.
  intros n H. exists (firstn n ex_ops).
  do 7 (destruct n as [|n]; [reflexivity|]). lia.
Qed.

(** C01. *)
Theorem C01_saved_solutions_come_back : forall F s0 m k,
  reachable F s0 -> live_for F s0 m k -> stored F s0 k = [] ->
  exists s1, step F s0 (Save F m) = Ok F s1 /\
  forall l s2, leaves_alone F k s1 l -> run_acts F s1 l = Some s2 ->
  forall len, fresh_read F s2 k (length (view F s0 m)) len = Some (view F s0 m).
Proof. exact roundtrip. Qed.
Print Assumptions C01_saved_solutions_come_back.

Example C01_case :
  reachable ZS (ex_state 5) /\ live_for ZS (ex_state 5) 1 7 /\ stored ZS (ex_state 5) 7 = [] /\
  view ZS (ex_state 5) 1 = [[1; 2; 3]; [4; 0; -1]]%Z /\
  let l := [Other ZS (Scale ZS 0 0 2%Z); ReadFresh ZS 7 2 3; Other ZS (Save ZS 0);
            ReadFresh ZS 7 5 3; ReadFresh ZS 3 1 2] in
  leaves_alone ZS 7 (ex_state 6) l /\
  exists s2, run_acts ZS (ex_state 6) l = Some s2 /\
    fresh_read ZS s2 7 2 3 = Some [[1; 2; 3]; [4; 0; -1]]%Z.
Proof.
  split; [apply ex_reachable; lia|].
  split; [eexists; repeat split|].
  split; [reflexivity|]. split; [reflexivity|]. cbv zeta. split.
  - vm_compute. repeat split; discriminate.
  - eexists. split; [vm_compute; reflexivity|]. vm_compute. reflexivity.
Qed.

(** C02. *)
Theorem C02_cells_do_not_interfere : forall F s o s' k',
  reachable F s -> after F s o = Some s' -> o <> Clear F -> op_cell F s o <> Some k' ->
  stored F s' k' = stored F s k' /\
  (forall m, handle_cell F s m = Some k' -> view F s' m = view F s m).
Proof. exact isolation. Qed.
Print Assumptions C02_cells_do_not_interfere.

Example C02_case :
  let s := ex_state 6 in
  reachable ZS s /\ handle_cell ZS s 1 = Some 7 /\
  op_cell ZS s (Load ZS 0) = Some 3 /\ Load ZS 0 <> Clear ZS /\
  exists s', after ZS s (Load ZS 0) = Some s' /\ view ZS s 0 <> view ZS s' 0 /\
             view ZS s' 1 = [[1; 2; 3]; [4; 0; -1]]%Z.
Proof.
  cbv zeta. split; [apply ex_reachable; lia|]. repeat split; try discriminate.
  eexists. split; [vm_compute; reflexivity|]. split; [vm_compute; discriminate|reflexivity].
Qed.

(** C03. *)
Theorem C03_fresh_reads_are_harmless : forall F l s,
  reachable F s ->
  exists s', run_acts F s (map (fun t => ReadFresh F (fst (fst t)) (snd (fst t)) (snd t)) l) = Some s' /\
   reachable F s' /\
  (forall k, stored F s' k = stored F s k) /\
  (forall m, m < handles F s -> view F s' m = view F s m).
Proof. exact read_cycles. Qed.
Print Assumptions C03_fresh_reads_are_harmless.

Theorem C03_fresh_read_returns_stored : forall F s k num len,
  reachable F s ->
  fresh_read F s k num len =
  (if Nat.leb num (length (stored F s k)) then Some (firstn num (stored F s k)) else None).
Proof. exact fresh_read_spec. Qed.
Print Assumptions C03_fresh_read_returns_stored.

Example C03_case :
  reachable ZS (ex_state 6) /\
  stored ZS (ex_state 6) 7 = [[1; 2; 3]; [4; 0; -1]]%Z /\
  exists s', run_acts ZS (ex_state 6) [ReadFresh ZS 7 2 3; ReadFresh ZS 7 2 3; ReadFresh ZS 9 1 1] = Some s' /\
   stored ZS s' 7 = [[1; 2; 3]; [4; 0; -1]]%Z.
Proof.
  split; [apply ex_reachable; lia|]. split; [reflexivity|].
  eexists. split; vm_compute; reflexivity.
Qed.

(** C04.  The third hypothesis says that the handle's functions were not
    given back (Drop). *)
Theorem C04_load_reports_missing_functions : forall F s m k,
  reachable F s -> live_for F s m k -> length (view F s m) >= handle_num F s m ->
  ((exists s', step F s (Load F m) = Throw F s') <-> length (stored F s k) < handle_num F s m) /\
  ((exists s', step F s (Load F m) = Ok F s') <-> handle_num F s m <= length (stored F s k)).
Proof. exact load_throw_iff. Qed.
Print Assumptions C04_load_reports_missing_functions.

Theorem C04_load_shows_own_cell : forall F s m k s1,
  reachable F s -> live_for F s m k -> length (view F s m) = handle_num F s m ->
  step F s (Load F m) = Ok F s1 ->
  view F s1 m = firstn (handle_num F s m) (stored F s1 k).
Proof. exact load_ok_view. Qed.
Print Assumptions C04_load_shows_own_cell.

Example C04_case :
  reachable ZS (ex_state 6) /\
  live_for ZS (ex_state 6) 0 3 /\ length (stored ZS (ex_state 6) 3) = 0 /\
  handle_num ZS (ex_state 6) 0 = 2 /\ length (view ZS (ex_state 6) 0) = 2 /\
  live_for ZS (ex_state 6) 1 7 /\ length (stored ZS (ex_state 6) 7) = 2 /\
  handle_num ZS (ex_state 6) 1 = 2 /\
  (exists s', step ZS (ex_state 6) (Load ZS 0) = Throw ZS s') /\
  (exists s', step ZS (ex_state 6) (Load ZS 1) = Ok ZS s').
Proof.
  split; [apply ex_reachable; lia|].
  repeat split; try (eexists; repeat split).
Qed.

(** C05. *)
Theorem C05_repeated_load_destroys : forall F n s m k s1,
  reachable F s -> live_for F s m k -> length (view F s m) = handle_num F s m ->
  step F s (Load F m) = Ok F s1 ->
  view F s1 m = firstn (handle_num F s1 m) (stored F s1 k) /\
  exists s2, run_block F s1 (repeat (Load F m) (S n)) = Ok F s2 /\
    view F s2 m = map (zeroed F) (view F s1 m) /\
    forall len, fresh_read F s2 k (handle_num F s1 m) len = Some (map (zeroed F) (view F s1 m)).
Proof. exact repeated_load_destroys. Qed.
Print Assumptions C05_repeated_load_destroys.

Theorem C05_load_after_own_save_destroys : forall F n s m k s1,
  reachable F s -> live_for F s m k -> stored F s k = [] ->
  length (view F s m) = handle_num F s m ->
  step F s (Save F m) = Ok F s1 ->
  exists s2, run_block F s1 (repeat (Load F m) (S n)) = Ok F s2 /\
    view F s2 m = map (zeroed F) (view F s m) /\
    forall len, fresh_read F s2 k (handle_num F s m) len = Some (map (zeroed F) (view F s m)).
Proof. exact load_after_save_destroys. Qed.
Print Assumptions C05_load_after_own_save_destroys.

(** The loss is observable: a fresh reader gets the data after one load
    through some handle and zeros after the second. *)
Example C05_case :
  exists s1 s2 s3,
    step ZS (ex_state 6) (New ZS 7 2 3) = Ok ZS s1 /\
    step ZS s1 (Load ZS 2) = Ok ZS s2 /\
    step ZS s2 (Load ZS 2) = Ok ZS s3 /\
    fresh_read ZS s2 7 2 3 = Some [[1; 2; 3]; [4; 0; -1]]%Z /\
    fresh_read ZS s3 7 2 3 = Some [[0; 0; 0]; [0; 0; 0]]%Z.
Proof.
  eexists; eexists; eexists.
  split; [vm_compute; reflexivity|]. split; [vm_compute; reflexivity|].
  split; [vm_compute; reflexivity|]. split; vm_compute; reflexivity.
Qed.

(** C06. *)
Theorem C06_only_first_save_is_read : forall F ms s k n,
  reachable F s -> (forall m, In m ms -> live_for F s m k) -> n <= length (stored F s k) ->
  exists s1, run_block F s (map (Save F) ms) = Ok F s1 /\
    forall len, fresh_read F s1 k n len = Some (firstn n (stored F s k)).
Proof. exact many_saves_ignored. Qed.
Print Assumptions C06_only_first_save_is_read.

Example C06_case :
  exists s, run ZS (ex_state 6) [New ZS 7 2 3; Write ZS 2 0 [9; 9; 9]%Z] = Some s /\
    live_for ZS s 2 7 /\ length (stored ZS s 7) = 2 /\
    exists s1, run_block ZS s [Save ZS 2; Save ZS 2] = Ok ZS s1 /\
      length (stored ZS s1 7) = 6 /\
      fresh_read ZS s1 7 2 3 = Some [[1; 2; 3]; [4; 0; -1]]%Z.
Proof.
  eexists. split; [vm_compute; reflexivity|].
  split; [eexists; repeat split|]. split; [reflexivity|].
  eexists. split; [vm_compute; reflexivity|]. split; vm_compute; reflexivity.
Qed.

(** C07. *)
Theorem C07_run_leaves_store_empty : forall F s body s',
  reachable F s -> (guarded F s body = Ok F s' \/ guarded F s body = Throw F s') ->
  reachable F s' /\ (forall k, stored F s' k = []) /\ (forall m k, ~ live_for F s' m k) /\
  (forall k n len, fresh_read F s' k (S n) len = None).
Proof. exact guarded_clean. Qed.
Print Assumptions C07_run_leaves_store_empty.

Theorem C07_next_run_behaves_as_first : forall F s body s' ops,
  (guarded F s body = Ok F s' \/ guarded F s body = Throw F s') ->
  same_for_client F (handles F s') (guarded F (init F) ops)
     (guarded F s' (map (shift_op F (handles F s')) ops)) /\
  same_for_client F (handles F s') (run_block F (init F) ops)
     (run_block F s' (map (shift_op F (handles F s')) ops)).
Proof.
  exact (fun F s body s' ops H =>
           conj (replay_guarded F s body s' ops H) (replay_block F s body s' ops H)).
Qed.
Print Assumptions C07_next_run_behaves_as_first.

(** A run that crashes after the save, and one that finishes. *)
Example C07_case :
  (exists s', guarded ZS (init ZS) (ex_ops ++ [Fail ZS; Save ZS 1]) = Throw ZS s' /\
              stored ZS s' 7 = [] /\ handles ZS s' = 2) /\
  (exists s', guarded ZS (init ZS) ex_ops = Ok ZS s' /\ stored ZS s' 7 = []) /\
  (exists s', run_block ZS (init ZS) (ex_ops ++ [Fail ZS; Save ZS 1]) = Throw ZS s' /\
              stored ZS s' 7 = [[1; 2; 3]; [4; 0; -1]]%Z).
Proof.
  split; [|split]; eexists; (split; [vm_compute; reflexivity|]); vm_compute; auto.
Qed.
