(** Properties C07 (old handles), C75 and C76: handles of the store over time. *)
From Coq Require Import List Arith Lia Bool ZArith.
From Verif Require Import Util StorageModel StorageSpec StorageProofs StorageMoreProofs StorageProps.
Import ListNotations.

(** ** C07: handles from before the store was cleared are unusable for ever. *)
Theorem C07_old_handles_stay_unusable : forall F s m ops s',
  reachable F s -> m < handles F s -> run F s (Clear F :: ops) = Some s' ->
  step F s' (Save F m) = UB F /\ step F s' (Load F m) = UB F.
Proof. intros F s m ops s' R L H. exact (old_handles F s m ops s' R L H). Qed.
Print Assumptions C07_old_handles_stay_unusable.

(** Handle 1 stays unusable although its cell is in use again. *)
Example C07_old_handle :
  exists s', run ZS (ex_state 6) [Clear ZS; New ZS 7 2 3; Save ZS 2] = Some s' /\
    length (stored ZS s' 7) = 2 /\ step ZS s' (Save ZS 1) = UB ZS /\
    exists s'', step ZS s' (Save ZS 2) = Ok ZS s''.
Proof. eexists. split; [vm_compute; reflexivity|]. repeat split. eexists. vm_compute. reflexivity. Qed.

(** ** C75: what a new handle shows. *)
(** A new handle shows the requested number of zero functions, all on the same
    space; the first handle of a cell decides the space. *)
Theorem C75_new_handle_shows_zero_functions : forall F s key num len,
  reachable F s ->
  exists s' n, step F s (New F key num len) = Ok F s' /\
    view F s' (handles F s) = repeat (repeat (k0 F) n) num /\
    ((forall m, handle_cell F s m <> Some key) -> n = len).
Proof.
  intros F s key num len R. destruct (reachable_inv F s R) as (own & bown & I).
  destruct (do_new_spec F s own bown key num len I) as (s' & _ & _ & _ & H & _).
  destruct (view_new F _ _ _ _ s' _ _ I H) as (b & bk & _ & _ & V & N & _).
  exists s', (b_len bk). split; auto. split; auto. intros M. apply N.
  destruct (assoc key (reg F s)) as [b0|] eqn:A; auto. exfalso.
  destruct (registered_has_handle F s key b0 R A) as (m & E). exact (M m E).
Qed.
Print Assumptions C75_new_handle_shows_zero_functions.

Theorem C75_handles_of_a_cell_use_one_space : forall F s key num len s1 ops s2 num' len' s3,
  reachable F s -> step F s (New F key num len) = Ok F s1 ->
  run F s1 ops = Some s2 -> ~ In (Clear F) ops ->
  step F s2 (New F key num' len') = Ok F s3 ->
  exists n, view F s1 (handles F s) = repeat (repeat (k0 F) n) num /\
            view F s3 (handles F s2) = repeat (repeat (k0 F) n) num'.
Proof. exact later_handle. Qed.
Print Assumptions C75_handles_of_a_cell_use_one_space.

Example C75_case :
  exists s1 s2, run ZS (init ZS) [New ZS 7 2 3] = Some s1 /\ view ZS s1 0 = [[0; 0; 0]; [0; 0; 0]]%Z /\
    run ZS s1 [Write ZS 0 0 [1; 2; 3]%Z; Save ZS 0; New ZS 7 1 5] = Some s2 /\ view ZS s2 1 = [[0; 0; 0]]%Z.
Proof. eexists _, _. split; [vm_compute; reflexivity|]. split; [reflexivity|]. split; vm_compute; reflexivity. Qed.

(** ** C76: saving stores the functions themselves, not copies. *)
Theorem C76_stored_functions_are_those_of_the_handle : forall F s m k s1 ops s2,
  reachable F s -> live_for F s m k -> stored F s k = [] ->
  step F s (Save F m) = Ok F s1 -> undisturbed F k m s1 ops -> run F s1 ops = Some s2 ->
  stored F s2 k = view F s2 m.
Proof.
  intros F s m k s1 ops s2 R L E H U RUN. apply shares_stored.
  eapply shares_run; [|eapply save_shares; eauto|exact U|exact RUN]. eapply reachable_step; eauto.
Qed.
Print Assumptions C76_stored_functions_are_those_of_the_handle.

Theorem C76_later_writes_reach_readers : forall F s m k s1 ops s2 i v s3,
  reachable F s -> live_for F s m k -> stored F s k = [] ->
  step F s (Save F m) = Ok F s1 -> undisturbed F k m s1 ops -> run F s1 ops = Some s2 ->
  step F s2 (Write F m i v) = Ok F s3 ->
  nth_error (stored F s3 k) i = Some v.
Proof.
  intros F s m k s1 ops s2 i v s3 R L E H U RUN W.
  assert (R1 : reachable F s1) by (eapply reachable_step; eauto).
  exact (proj2 (write_seen F s2 m k i v s3 (run_reachable F ops s1 s2 R1 RUN)
    (shares_run F ops k m s1 s2 R1 (save_shares F s m k s1 R L E H) U RUN) W)).
Qed.
Print Assumptions C76_later_writes_reach_readers.

(** Dropping a handle's functions takes nothing away from the store or from
    other handles. *)
Theorem C76_drop_keeps_stored_functions : forall F s m s', step F s (Drop F m) = Ok F s' ->
  (forall k, stored F s' k = stored F s k) /\ view F s' m = [] /\
  (forall m', m' <> m -> view F s' m' = view F s m').
Proof. exact drop_keeps. Qed.
Print Assumptions C76_drop_keeps_stored_functions.

(** Handle 1 saved in [ex_state 6]; a later write changes what a new reader
    gets, a dropped handle does not. *)
Example C76_case :
  live_for ZS (ex_state 5) 1 7 /\ stored ZS (ex_state 5) 7 = [] /\
  step ZS (ex_state 5) (Save ZS 1) = Ok ZS (ex_state 6) /\
  undisturbed ZS 7 1 (ex_state 6) [New ZS 3 2 2; Write ZS 1 0 [9; 9; 9]%Z] /\
  (exists s, run ZS (ex_state 6) [New ZS 3 2 2; Write ZS 1 0 [9; 9; 9]%Z] = Some s /\
     fresh_read ZS s 7 2 3 = Some [[9; 9; 9]; [4; 0; -1]]%Z) /\
  (exists s, step ZS (ex_state 6) (Drop ZS 1) = Ok ZS s /\
     fresh_read ZS s 7 2 3 = Some [[1; 2; 3]; [4; 0; -1]]%Z).
Proof.
  split; [eexists; repeat split|]. split; [reflexivity|]. split; [reflexivity|].
  split; [cbn; repeat split; try discriminate; intros; discriminate|].
  split; (eexists; split; [vm_compute; reflexivity|vm_compute; reflexivity]).
Qed.
