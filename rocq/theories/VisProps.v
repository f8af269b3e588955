(** Theorems about the pictures of thread_vis: C86. *)
From Coq Require Import List Arith ZArith QArith Lia Bool.
From Verif Require Import Util GridModel VisModel VisSpec VisProofs.
Import ListNotations.
Open Scope Z_scope.

Theorem C86_outcomes : forall size cs fines,
  (subgrid_vis size cs fines = Mismatch <-> (size < length cs)%nat) /\
  (subgrid_vis size cs fines = NullAccess <-> (length cs < size)%nat) /\
  ((exists os fs, subgrid_vis size cs fines = Shown os fs) <-> size = length cs).
Proof.
  intros size cs fines. unfold subgrid_vis.
  destruct (lt_eq_lt_dec size (length cs)) as [[L|E]|G].
  - rewrite loop_short by auto. split; [|split]; split; try discriminate; try lia; auto.
    intros (os & fs & H). discriminate.
  - rewrite loop_enough by lia. subst size. rewrite Nat.sub_diag. simpl. rewrite !app_nil_r.
    rewrite (output_some (fun c => mark c fines)), (output_some (fun _ _ => 0)).
    split; [|split]; split; try discriminate; try lia; eauto.
  - rewrite loop_enough by lia.
    rewrite (output_null (fun c => mark c fines)) by lia.
    split; [|split]; split; try discriminate; try lia; auto. intros (os & fs & H). discriminate.
Qed.
Print Assumptions C86_outcomes.

(** The picture of a coarse cell marks exactly the fine cells it consists of,
    with the lower 32 bits of its id; layers never appear, and the pictures of
    the second series are empty. *)
Theorem C86_pictures_show_exactly_the_coarse_cells : forall ds size cells fines os fs,
  Forall direction_ok ds ->
  subgrid_vis size (coarse_walk ds cells) (fine_walk ds fines) = Shown os fs ->
  length os = length cells /\ length fs = length cells /\
  forall k id cs f g i js, nth_error cells k = Some (id, cs) ->
    nth_error os k = Some f -> nth_error fs k = Some g -> nth_error fines i = Some js ->
    multi_index ds cs -> multi_index ds js ->
    (parent ds js = cs -> f i = id mod 4294967296) /\ (parent ds js <> cs -> f i = 0) /\ g i = 0.
Proof.
  intros ds size cells fines os fs F H.
  assert (E : size = length (coarse_walk ds cells)) by (apply (C86_outcomes size _ (fine_walk ds fines)); eauto).
  unfold subgrid_vis in H. rewrite loop_enough in H by lia. rewrite E, Nat.sub_diag in H. simpl in H.
  rewrite !app_nil_r in H.
  rewrite (output_some (fun c => mark c (fine_walk ds fines))), (output_some (fun _ _ => 0)) in H.
  injection H as <- <-. unfold coarse_walk. rewrite !map_length. split; [auto|]. split; [auto|].
  intros k id cs f g i js Hk Hf Hg Hi C J. rewrite !map_map in Hf, Hg.
  rewrite (map_nth_error _ _ _ Hk) in Hf. rewrite (map_nth_error _ _ _ Hk) in Hg.
  injection Hf as <-. injection Hg as <-. cbn [fst snd].
  destruct (mark_value ds id cs fines i js F C J Hi) as (A & B). repeat split; auto.
Qed.
Print Assumptions C86_pictures_show_exactly_the_coarse_cells.

(** No fine cell is marked in two pictures, and it is marked in the picture of
    its coarse cell unless the lower 32 bits of that cell's id are zero. *)
Theorem C86_every_fine_cell_in_one_picture : forall ds size cells fines os fs i js,
  Forall direction_ok ds -> NoDup (map snd cells) ->
  (forall c, In c cells -> multi_index ds (snd c)) -> multi_index ds js ->
  subgrid_vis size (coarse_walk ds cells) (fine_walk ds fines) = Shown os fs ->
  nth_error fines i = Some js ->
  (forall k k' f f', nth_error os k = Some f -> nth_error os k' = Some f' -> f i <> 0 -> f' i <> 0 -> k = k') /\
  (forall k id, nth_error cells k = Some (id, parent ds js) ->
     exists f, nth_error os k = Some f /\ (f i = 0 <-> (4294967296 | id))).
Proof.
  intros ds size cells fines os fs i js F ND M J H Hi.
  destruct (C86_pictures_show_exactly_the_coarse_cells ds size cells fines os fs F H) as (L1 & L2 & V).
  assert (Sel : forall k f, nth_error os k = Some f -> f i <> 0 ->
            exists id, nth_error cells k = Some (id, parent ds js)).
  { intros k f Hf N. assert (Lk : (k < length cells)%nat)
      by (rewrite <- L1; apply nth_error_Some; congruence).
    destruct (nth_error cells k) as [(id, cs)|] eqn:Ek; [|apply nth_error_None in Ek; lia].
    destruct (nth_error fs k) as [g|] eqn:Eg; [|apply nth_error_None in Eg; lia].
    destruct (V k id cs f g i js Ek Hf Eg Hi (M _ (nth_error_In _ _ Ek)) J) as (_ & B & _).
    destruct (list_eq_dec Z.eq_dec (parent ds js) cs) as [<-|X]; [eauto|]. destruct (N (B X)). }
  split.
  - intros k k' f f' Hf Hf' N N'. destruct (Sel k f Hf N) as (id & A). destruct (Sel k' f' Hf' N') as (id' & A').
    apply (map_nth_error snd) in A. apply (map_nth_error snd) in A'. simpl in A, A'.
    rewrite NoDup_nth_error in ND. apply ND; [|congruence]. apply nth_error_Some. congruence.
  - intros k id Ek. assert (Lk : (k < length cells)%nat) by (apply nth_error_Some; congruence).
    destruct (nth_error os k) as [f|] eqn:Ef; [|apply nth_error_None in Ef; lia].
    destruct (nth_error fs k) as [g|] eqn:Eg; [|apply nth_error_None in Eg; lia].
    exists f. split; auto.
    destruct (V k id _ f g i js Ek Ef Eg Hi (M _ (nth_error_In _ _ Ek)) J) as (A & _).
    rewrite (A eq_refl). apply Z.mod_divide. lia.
Qed.
Print Assumptions C86_every_fine_cell_in_one_picture.

(** Two by one coarse cells, each divided into 2 by 1 fine cells; the first
    coarse cell has the id 0. *)
Definition ex_dirs : list direction :=
  [{| d_lo := 0; d_hi := 1; d_n := 2; d_m := 2 |}; {| d_lo := 0; d_hi := 3; d_n := 1; d_m := 1 |}].
Definition ex_cells : list (Z * list Z) := [(0, [0; 0]); (7, [1; 0])].
Definition ex_fines : list (list Z) := [[0; 0]; [1; 0]; [2; 0]; [3; 0]].
Example C86_case :
  Forall direction_ok ex_dirs /\ NoDup (map snd ex_cells) /\
  exists a b fs, subgrid_vis 2 (coarse_walk ex_dirs ex_cells) (fine_walk ex_dirs ex_fines) = Shown [a; b] fs /\
    map a [0; 1; 2; 3]%nat = [0; 0; 0; 0] /\ map b [0; 1; 2; 3]%nat = [0; 0; 7; 7].
Proof.
  split; [repeat constructor|]. split.
  - repeat constructor; simpl; intuition discriminate.
  - eexists. eexists. eexists. split; [reflexivity|]. split; vm_compute; reflexivity.
Qed.
