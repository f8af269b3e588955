(** Theorems about concurrent evaluations of the Tarbert diffusion: C53. *)
From Coq Require Import ZArith QArith List Arith Bool Lia.
From Verif Require Import Util SpeModel SpeSpec SpeProofs TarModel TarSpec TarProofs.
Import ListNotations.
Open Scope nat_scope.

(** The table entry read for diagonal entry [k] at an offset. *)
Definition tar_entry (t : table) (k : nat) (o : Z) : option (option Q) := access t (o + block k).
Definition tar_run (dim : nat) (t : table) :=
  run (nat -> Q) (option (option Q)) dim SpeModel.interval SpeModel.stride (tar_entry t).
Definition tar_start := start (nat -> Q) (option (option Q)).

(** [permeability] is what the single evaluation of C52 stores in the diagonal. *)
Lemma permeability_is_evaluate : forall dim t x m y',
  (dim = 2 \/ dim = 3) -> tar_evaluate dim (Some t) x m = Value y' ->
  permeability _ _ dim SpeModel.interval SpeModel.stride (tar_entry t) x =
  map (fun k => Some (y' k k)) (seq 0 dim).
Proof.
  intros dim t x m y' [->| ->] E; unfold tar_evaluate in E; unfold permeability, tar_entry;
    cbn [seq map offset SpeModel.stride block nth].
  - replace (0 + SpeModel.interval x 0 * 1 + SpeModel.interval x 1 * 60 + 0)%Z
      with (SpeModel.interval x 0 + SpeModel.interval x 1 * 60)%Z by ring.
    replace (0 + SpeModel.interval x 0 * 1 + SpeModel.interval x 1 * 60 + 1122000)%Z
      with (SpeModel.interval x 0 + SpeModel.interval x 1 * 60 + 1122000)%Z by ring.
    destruct (access t _) as [a|]; [|discriminate]. destruct (access t _) as [b|]; [|discriminate].
    injection E as <-. reflexivity.
  - replace (0 + SpeModel.interval x 0 * 1 + SpeModel.interval x 1 * 60 + SpeModel.interval x 2 * (220 * 60) + 0)%Z
      with (SpeModel.interval x 0 + SpeModel.interval x 1 * 60 + SpeModel.interval x 2 * 220 * 60)%Z by ring.
    replace (0 + SpeModel.interval x 0 * 1 + SpeModel.interval x 1 * 60 + SpeModel.interval x 2 * (220 * 60) + 1122000)%Z
      with (SpeModel.interval x 0 + SpeModel.interval x 1 * 60 + SpeModel.interval x 2 * 220 * 60 + 1122000)%Z by ring.
    replace (0 + SpeModel.interval x 0 * 1 + SpeModel.interval x 1 * 60 + SpeModel.interval x 2 * (220 * 60) + 2244000)%Z
      with (SpeModel.interval x 0 + SpeModel.interval x 1 * 60 + SpeModel.interval x 2 * 220 * 60 + 2244000)%Z by ring.
    destruct (access t _) as [a|]; [|discriminate]. destruct (access t _) as [b|]; [|discriminate].
    destruct (access t _) as [c|]; [|discriminate].
    injection E as <-. reflexivity.
Qed.

(** Evaluations that do not overlap return the permeability of their own point. *)
Theorem C53_evaluations_that_do_not_overlap_are_correct :
  forall dim t programs sh order th x y m y',
  (dim = 2 \/ dim = 3) ->
  In th (snd (tar_run dim t (blocks dim order) (sh, tar_start programs))) -> In (x, y) (done _ _ th) ->
  tar_evaluate dim (Some t) x m = Value y' -> y = map (fun k => Some (y' k k)) (seq 0 dim).
Proof.
  intros dim t programs sh order th x y m y' Hd I D E.
  rewrite <- (permeability_is_evaluate dim t x m y' Hd E).
  eapply (sequential_correct (nat -> Q) (option (option Q)) dim); eauto. destruct Hd; lia.
Qed.
Print Assumptions C53_evaluations_that_do_not_overlap_are_correct.

(** A single thread finishes every program, in order. *)
Theorem C53_single_thread_completes : forall dim t p sh,
  0 < dim ->
  map (done _ _) (snd (tar_run dim t (repeat 0 (length p * one_evaluation dim)) (sh, tar_start [p]))) =
  [map (fun x => (x, permeability _ _ dim SpeModel.interval SpeModel.stride (tar_entry t) x)) p].
Proof.
  intros dim t p sh Hd. unfold tar_run, tar_start, start. cbn [map].
  erewrite run_repeat by reflexivity.
  destruct (program_alone (nat -> Q) (option (option Q)) dim Hd SpeModel.interval SpeModel.stride (tar_entry t) p sh [])
    as (sh' & E).
  rewrite E. reflexivity.
Qed.
Print Assumptions C53_single_thread_completes.

(** Under every interleaving each returned entry comes from a cell put together
    from coordinates of evaluated points; if these lie in the closed domain no
    table access leaves the table. *)
Theorem C53_every_interleaving_mixes_cells : forall dim t programs sh schedule th x y,
  (dim = 2 \/ dim = 3) ->
  In th (snd (tar_run dim t schedule (sh, tar_start programs))) -> In (x, y) (done _ _ th) ->
  In x (concat programs) /\ length y = dim /\
  forall k v, nth_error y k = Some v ->
    exists p : nat -> nat -> Q, (forall d, d < dim -> In (p d) (concat programs)) /\
      (forall x' : nat -> Q, (forall d, d < dim -> x' d = p d d) ->
        forall m y', tar_evaluate dim (Some t) x' m = Value y' -> v = Some (y' k k)) /\
      (length t = tar_size ->
       (forall q d, In q (concat programs) -> d < dim -> (0 <= q d)%Q /\ (q d <= tar_ur d)%Q) -> v <> None).
Proof.
  intros dim t programs sh schedule th x y Hd I D.
  assert (Hp : 0 < dim) by (destruct Hd; lia).
  destruct (every_result_mixed (nat -> Q) (option (option Q)) dim Hp SpeModel.interval SpeModel.stride
              (tar_entry t) programs sh schedule th x y I D) as (X & L & M).
  split; auto. split; auto. intros k v E. destruct (M k v E) as (p & P & V).
  exists p. split; auto.
  assert (K : k < dim) by (rewrite <- L; eapply nth_error_lt; eauto).
  assert (G : forall x' : nat -> Q, (forall d, d < dim -> x' d = p d d) ->
        forall m y', tar_evaluate dim (Some t) x' m = Value y' -> v = Some (y' k k)).
  { intros x' H m y' EV. pose proof (permeability_is_evaluate dim t x' m y' Hd EV) as W.
    apply (f_equal (fun l => nth_error l k)) in W. unfold permeability in W.
    rewrite !nth_error_map in W. assert (S : nth_error (seq 0 dim) k = Some k).
    { rewrite (nth_error_nth' _ 0) by (now rewrite seq_length). now rewrite seq_nth. }
    rewrite S in W. cbn [option_map] in W. injection W as W. rewrite V, <- W. f_equal.
    apply off_ext. intros d Ld. unfold SpeModel.interval. now rewrite (H d Ld). }
  split; auto.
  intros Lt B C. destruct (tar_lookup dim t (fun d => p d d) (fun _ _ => None) Hd Lt) as (y' & EV & _).
  { intros d Ld. apply B; auto. }
  rewrite (G (fun d => p d d) (fun _ _ => eq_refl) _ _ EV) in C. discriminate.
Qed.
Print Assumptions C53_every_interleaving_mixes_cells.

(** There are interleavings of two threads returning the other point's
    permeability: thread 0 fills the matrix, thread 1 evaluates completely,
    thread 0 copies the matrix. *)
Theorem C53_interleaving_returns_the_other_point : forall dim t x0 x1 sh,
  0 < dim ->
  let perm := permeability _ _ dim SpeModel.interval SpeModel.stride (tar_entry t) in
  map (done _ _) (snd (tar_run dim t (repeat 0 (1 + 3 * dim) ++ repeat 1 (one_evaluation dim) ++ repeat 0 dim)
                       (sh, tar_start [[x0]; [x1]]))) = [[(x0, perm x1)]; [(x1, perm x1)]].
Proof.
  intros dim t x0 x1 sh Hd perm.
  unfold tar_run, tar_start, start. cbn [map].
  rewrite !run_app.
  rewrite (run_repeat _ _ dim _ _ _ (1 + 3 * dim) 0 sh _ {| todo := [x0]; at_ := Idle _ _; done := [] |}) by reflexivity.
  destruct (phase_write (nat -> Q) (option (option Q)) dim Hd SpeModel.interval SpeModel.stride (tar_entry t)
     dim x0 0 [] [] sh ltac:(lia) Hd ltac:(intros; lia)) as (s1 & E1 & H1).
  destruct (phase_fill (nat -> Q) (option (option Q)) dim Hd SpeModel.interval SpeModel.stride (tar_entry t)
     dim x0 0 [] [] s1 (offset SpeModel.stride dim (SpeModel.interval x0)) ltac:(lia) Hd ltac:(intros; lia)) as (s2 & E2 & H2).
  assert (A : iter (nat -> Q) (option (option Q)) dim SpeModel.interval SpeModel.stride (tar_entry t) (1 + 3 * dim)
      (sh, {| todo := [x0]; at_ := Idle _ _; done := [] |}) =
      (s2, {| todo := []; at_ := Copy _ _ x0 0 []; done := [] |})).
  { replace (1 + 3 * dim) with (1 + (dim + (dim + dim))) by lia.
    rewrite iter_add. cbn [iter fst snd]. unfold tstep. cbn [at_ todo done].
    rewrite iter_add, E1.
    rewrite iter_add, (phase_sum _ _ dim Hd _ _ _ dim x0 0 [] [] s1 0%Z ltac:(lia) Hd H1 eq_refl).
    exact E2. }
  rewrite A. cbn [fst snd upd].
  rewrite (run_repeat _ _ dim _ _ _ (one_evaluation dim) 1 s2 _ {| todo := [x1]; at_ := Idle _ _; done := [] |}) by reflexivity.
  (* thread 1 *)
  destruct (phase_write (nat -> Q) (option (option Q)) dim Hd SpeModel.interval SpeModel.stride (tar_entry t)
     dim x1 0 [] [] s2 ltac:(lia) Hd ltac:(intros; lia)) as (s3 & E3 & H3).
  destruct (phase_fill (nat -> Q) (option (option Q)) dim Hd SpeModel.interval SpeModel.stride (tar_entry t)
     dim x1 0 [] [] s3 (offset SpeModel.stride dim (SpeModel.interval x1)) ltac:(lia) Hd ltac:(intros; lia)) as (s4 & E4 & H4).
  assert (B : iter (nat -> Q) (option (option Q)) dim SpeModel.interval SpeModel.stride (tar_entry t) (one_evaluation dim)
      (s2, {| todo := [x1]; at_ := Idle _ _; done := [] |}) =
      (s4, {| todo := []; at_ := Idle _ _; done := [(x1, perm x1)] |})).
  { unfold one_evaluation. replace (1 + 4 * dim) with (1 + (dim + (dim + (dim + dim)))) by lia.
    rewrite iter_add. cbn [iter fst snd]. unfold tstep. cbn [at_ todo done].
    rewrite iter_add, E3.
    rewrite iter_add, (phase_sum _ _ dim Hd _ _ _ dim x1 0 [] [] s3 0%Z ltac:(lia) Hd H3 eq_refl).
    rewrite iter_add, E4.
    rewrite (phase_copy _ _ dim Hd _ _ _ dim x1 0 [] [] s4 _ [] ltac:(lia) Hd H4 eq_refl). reflexivity. }
  rewrite B. cbn [fst snd upd].
  rewrite (run_repeat _ _ dim _ _ _ dim 0 s4 _ {| todo := []; at_ := Copy _ _ x0 0 []; done := [] |}) by reflexivity.
  rewrite (phase_copy _ _ dim Hd _ _ _ dim x0 0 [] [] s4 _ [] ltac:(lia) Hd H4 eq_refl).
  reflexivity.
Qed.
Print Assumptions C53_interleaving_returns_the_other_point.

(** A table and two points for which the interleaving gives thread 0 the wrong
    permeability (table entries are their positions). *)
Definition race_table : table := map (fun i => Some (inject_Z (Z.of_nat i))) (seq 0 100).
Definition race_x0 : nat -> Q := fun _ => 0%Q.
Definition race_x1 : nat -> Q := fun d => match d with 0 => 10 # 1 | _ => 0%Q end.
Example C53_wrong_value :
  let perm := permeability _ _ 2 SpeModel.interval SpeModel.stride (tar_entry race_table) in
  nth_error (perm race_x0) 0 = Some (Some (Some 0%Q)) /\ nth_error (perm race_x1) 0 = Some (Some (Some 1%Q)) /\
  perm race_x0 <> perm race_x1.
Proof.
  assert (A : access race_table 0 = Some (Some 0%Q)) by reflexivity.
  assert (B : access race_table 1 = Some (Some 1%Q)) by reflexivity.
  assert (P0 : nth_error (permeability _ _ 2 SpeModel.interval SpeModel.stride (tar_entry race_table) race_x0) 0 = Some (access race_table 0)).
  { unfold permeability. cbn [seq map nth_error]. reflexivity. }
  assert (P1 : nth_error (permeability _ _ 2 SpeModel.interval SpeModel.stride (tar_entry race_table) race_x1) 0 = Some (access race_table 1)).
  { unfold permeability. cbn [seq map nth_error]. reflexivity. }
  cbv zeta. rewrite P0, P1, A, B. split; auto. split; auto.
  intros C. rewrite C, P1, A, B in P0. discriminate.
Qed.
(** Two threads evaluating one after the other are a schedule of blocks. *)
Example C53_blocks : blocks 2 [1; 0] = repeat 1 9 ++ repeat 0 9.
Proof. reflexivity. Qed.
