(** C134: the coarse system assembled by several threads in floating point
    arithmetic.  Statements and concrete cases; proofs in FlSmpProofs.v. *)
From Coq Require Import ZArith QArith Qabs List Arith Bool Lia Lqa Permutation.
From Verif Require Import Util SmpModel SmpSpec RoundSpec RoundProofs FlSmpModel FlSmpSpec FlSmpProofs.
Import ListNotations.
Open Scope Q_scope.

(** Any number of threads, any distribution of the cells, any order of the steps:
    every entry is the exact sum up to rounding errors of the size of the number
    of additions. *)
Theorem C134_accuracy :
  forall rnd slot tmp (cells : list (list cell)) sched e q,
  rounding rnd -> private (length cells) slot ->
  (forall p, In p (parts e (concat cells)) -> (length p <= q)%nat) ->
  let s := execute rnd slot sched (begin tmp cells) in done s ->
  let ps := parts e (concat cells) in
  Qabs (m_mem s e - total (map total ps)) <= (grown (length ps + q) - 1) * total (map size_of ps) /\
  ((Z.of_nat (length ps + q) <= 2 ^ 51)%Z ->
   Qabs (m_mem s e - total (map total ps)) <=
     two (-51) * inject_Z (Z.of_nat (length ps + q)) * total (map size_of ps)).
Proof.
  intros rnd slot tmp cells sched e q Rd Own B s F ps.
  assert (E : Qabs (m_mem s e - total (map total ps)) <= (grown (length ps + q) - 1) * total (map size_of ps)).
  { destruct (finished_value rnd Rd slot tmp cells Own sched F e) as (l & P & V).
    fold s in V. rewrite V. now apply order_error. }
  split; [exact E|]. intros L. apply Qle_trans with (1 := E).
  apply Qmult_le_compat_r; [now apply grown_linear|]. clear. induction ps as [|p ps IH]; [unfold total; cbn; lra|].
  cbn [map]. rewrite total_cons. pose proof (size_nonneg p). lra.
Qed.
Print Assumptions C134_accuracy.

(** Two runs with the same cells, with different numbers of threads, say, differ
    by rounding errors at most. *)
Theorem C134_runs_differ_by_rounding :
  forall rnd slot slot' tmp tmp' (cells cells' : list (list cell)) sched sched' e q,
  rounding rnd -> private (length cells) slot -> private (length cells') slot' ->
  Permutation (concat cells) (concat cells') ->
  (forall p, In p (parts e (concat cells)) -> (length p <= q)%nat) ->
  let s := execute rnd slot sched (begin tmp cells) in
  let s' := execute rnd slot' sched' (begin tmp' cells') in done s -> done s' ->
  let ps := parts e (concat cells) in
  Qabs (m_mem s e - m_mem s' e) <= 2 * (grown (length ps + q) - 1) * total (map size_of ps).
Proof.
  intros rnd slot slot' tmp tmp' cells cells' sched sched' e q Rd Own Own' Pm B s s' F F' ps.
  assert (Pp := parts_perm e _ _ Pm).
  destruct (C134_accuracy rnd slot tmp cells sched e q Rd Own B F) as (E & _).
  destruct (C134_accuracy rnd slot' tmp' cells' sched' e q Rd Own') as (E' & _); [|exact F'|].
  { intros p I. apply B. now apply (Permutation_in _ (Permutation_sym Pp)). }
  fold s ps in E. fold s' in E'.
  rewrite <- (Permutation_length Pp), <- (total_perm _ _ (Permutation_map total Pp)),
          <- (total_perm _ _ (Permutation_map size_of Pp)) in E'. fold ps in E'.
  pose proof (Qabs_triangle (m_mem s e - total (map total ps)) (- (m_mem s' e - total (map total ps)))) as T.
  rewrite Qabs_opp in T.
  setoid_replace (m_mem s e - total (map total ps) + - (m_mem s' e - total (map total ps)))
    with (m_mem s e - m_mem s' e) in T by ring.
  lra.
Qed.
Print Assumptions C134_runs_differ_by_rounding.

(** Bit by bit the same: entries to which a single thread adds in both runs, if
    it meets the cells that add to the entry in the same order.  In particular
    everything, if there is one thread. *)
Theorem C134_reproducible_entries :
  forall rnd slot slot' tmp tmp' (cells cells' : list (list cell)) sched sched' e t t',
  rounding rnd -> private (length cells) slot -> private (length cells') slot' ->
  (forall u c, In c (nth u cells []) -> u <> t -> untouched e c) ->
  (forall u c, In c (nth u cells' []) -> u <> t' -> untouched e c) ->
  parts e (nth t cells []) = parts e (nth t' cells' []) ->
  let s := execute rnd slot sched (begin tmp cells) in
  let s' := execute rnd slot' sched' (begin tmp' cells') in done s -> done s' ->
  m_mem s e = m_mem s' e.
Proof.
  intros rnd slot slot' tmp tmp' cells cells' sched sched' e t t' Rd Own Own' U U' E s s' F F'.
  unfold s, s'. rewrite (finished_one rnd Rd slot tmp cells Own sched F e t U).
  rewrite (finished_one rnd Rd slot' tmp' cells' Own' sched' F' e t' U'). now rewrite E.
Qed.
Print Assumptions C134_reproducible_entries.

Theorem C134_one_thread_is_reproducible :
  forall rnd slot slot' tmp tmp' (cs : list cell) sched sched', rounding rnd ->
  let s := execute rnd slot sched (begin tmp [cs]) in
  let s' := execute rnd slot' sched' (begin tmp' [cs]) in done s -> done s' ->
  forall e, m_mem s e = m_mem s' e.
Proof.
  intros rnd slot slot' tmp tmp' cs sched sched' Rd s s' F F' e.
  assert (Own : forall sl, private (length [cs]) sl) by (intros sl a b La Lb _; cbn in La, Lb; lia).
  apply (C134_reproducible_entries rnd slot slot' tmp tmp' [cs] [cs] sched sched' e 0 0 Rd (Own _) (Own _));
    try assumption; try reflexivity; intros u c I N; destruct u as [|[|u]]; cbn in I; contradiction.
Qed.
Print Assumptions C134_one_thread_is_reproducible.

(** No rounding at all: numbers that are whole multiples of a power of two, not
    too large. *)
Theorem C134_exact :
  forall rnd slot tmp (cells : list (list cell)) sched e k,
  rounding rnd -> private (length cells) slot ->
  let s := execute rnd slot sched (begin tmp cells) in done s ->
  let ps := parts e (concat cells) in
  (forall p x, In p ps -> In x p -> multiple k x) ->
  total (map size_of ps) <= inject_Z (2 ^ 53) * two k ->
  m_mem s e == total (map total ps).
Proof.
  intros rnd slot tmp cells sched e k Rd Own s F ps M B.
  destruct (finished_value rnd Rd slot tmp cells Own sched F e) as (l & P & V).
  fold s in V. rewrite V. now apply (order_exact rnd Rd k).
Qed.
Print Assumptions C134_exact.

(** ** Concrete cases *)
Definition plain (v : Q) : cell :=
  {| c_n := 1; c_index := fun _ => 0%nat;
     c_locals := [{| l_covered := true; l_mat := [fun _ _ => v]; l_vec := [fun _ => v] |}] |}.
Definition tiny : Q := two (-60).
Definition work : list (list cell) := [[plain 1; plain (-1)]; [plain tiny]].
Definition first_thread_first : list nat := repeat 0%nat 12 ++ repeat 1%nat 6.
Definition second_thread_between : list nat := repeat 0%nat 6 ++ repeat 1%nat 6 ++ repeat 0%nat 6.
Definition own (t : nat) : nat := t.
Lemma own_private n : private n own. Proof. intros t u _ _ E. exact E. Qed.
Lemma both_done rnd tmp : done (execute rnd own first_thread_first (begin tmp work)) /\
  done (execute rnd own second_thread_between (begin tmp work)).
Proof. split; intros [|[|t]]; try reflexivity; cbn; destruct t; reflexivity. Qed.

(** One cell of one thread. *)
Lemma next rnd t s i q : m_rest s t = i :: q -> exists s', advance rnd own t s = s' /\ m_rest s' t = q /\
  (forall u, u <> t -> m_rest s' u = m_rest s u) /\
  m_tmp s' t = match i with
               | ClearM => clear_m rnd (m_tmp s t) | ClearV => clear_v rnd (m_tmp s t)
               | ApplyM ts => fold_left (add_m rnd) ts (m_tmp s t) | ApplyV ts => fold_left (add_v rnd) ts (m_tmp s t)
               | AddTo _ _ => m_tmp s t end /\
  m_mem s' = match i with AddTo f g => write (m_mem s) g (fl rnd (m_mem s g + m_tmp s t f)) | _ => m_mem s end.
Proof.
  intros R. eexists. split; [reflexivity|]. unfold advance. rewrite R. unfold own.
  destruct i; cbn [m_rest m_tmp m_mem]; unfold upon; rewrite !Nat.eqb_refl;
    (split; [reflexivity|]; split; [intros u N; now destruct (Nat.eqb_spec u t)|]; split; reflexivity).
Qed.
Lemma one_cell rnd t v r s : m_rest s t = c_steps (plain v) ++ r ->
  exists s', execute rnd own (repeat t 6) s = s' /\ m_rest s' t = r /\ (forall u, u <> t -> m_rest s' u = m_rest s u) /\
  forall e, e = Mat 0 0 \/ e = Vec 0 -> exists x, m_mem s' e = fl rnd (m_mem s e + fl rnd (fl rnd (x * 0) + v)).
Proof.
  intros R. change (c_steps (plain v) ++ r) with
    (ClearM :: ApplyM [fun _ _ => v] :: AddTo (Mat 0 0) (Mat 0 0) :: ClearV :: ApplyV [fun _ => v] :: AddTo (Vec 0) (Vec 0) :: r) in R.
  unfold execute. cbn [repeat fold_left].
  destruct (next rnd t s _ _ R) as (s1 & -> & R1 & N1 & W1 & M1).
  destruct (next rnd t s1 _ _ R1) as (s2 & -> & R2 & N2 & W2 & M2).
  destruct (next rnd t s2 _ _ R2) as (s3 & -> & R3 & N3 & W3 & M3).
  destruct (next rnd t s3 _ _ R3) as (s4 & -> & R4 & N4 & W4 & M4).
  destruct (next rnd t s4 _ _ R4) as (s5 & -> & R5 & N5 & W5 & M5).
  destruct (next rnd t s5 _ _ R5) as (s6 & -> & R6 & N6 & W6 & M6).
  exists s6. split; [reflexivity|]. split; [exact R6|]. split.
  { intros u N. now rewrite N6, N5, N4, N3, N2, N1. }
  assert (E1 : m_mem s2 = m_mem s) by congruence. assert (E2 : m_mem s5 = m_mem s3) by congruence.
  intros e [-> | ->].
  - exists (m_tmp s t (Mat 0 0)). rewrite M6, E2, M3, E1, W2, W1. reflexivity.
  - exists (m_tmp s3 t (Vec 0)). rewrite M6, E2, M3, E1, W5, W4. reflexivity.
Qed.

Lemma not_a_double : ~ representable (1 + tiny).
Proof.
  intros (m & e & B & E). destruct (Z_le_gt_dec (e + 60) 0) as [L|L].
  - assert (X : inject_Z m * 1 == inject_Z (2 ^ 60 + 1) * two (- (e + 60))).
    { setoid_replace (inject_Z (2 ^ 60 + 1)) with ((1 + tiny) * two 60) by reflexivity.
      rewrite E. setoid_replace (inject_Z m * two e * two 60 * two (- (e + 60)))
        with (inject_Z m * ((two e * two 60) * two (- (e + 60)))) by ring.
      rewrite <- !two_add. replace (e + 60 + - (e + 60))%Z with 0%Z by ring. rewrite two_0. reflexivity. }
    rewrite (two_Z (- (e + 60))) in X by lia. rewrite <- inj_mul in X.
    setoid_replace (inject_Z m * 1) with (inject_Z m) in X by ring.
    assert (Y : m = ((2 ^ 60 + 1) * 2 ^ (- (e + 60)))%Z).
    { apply Z.le_antisymm; apply inj_le_inv; rewrite X; lra. }
    assert (P : (1 <= 2 ^ (- (e + 60)))%Z) by (apply (Z.pow_le_mono_r 2 0); lia).
    change (2 ^ 60)%Z with 1152921504606846976%Z in Y. change (2 ^ 53)%Z with 9007199254740992%Z in B. nia.
  - assert (X : inject_Z (2 ^ 60 + 1) == inject_Z (m * 2 ^ (e + 60))).
    { rewrite inj_mul, <- two_Z by lia. setoid_replace (inject_Z (2 ^ 60 + 1)) with ((1 + tiny) * two 60) by reflexivity.
      rewrite E, two_add. ring. }
    assert (Y : (2 ^ 60 + 1 = m * 2 ^ (e + 60))%Z) by (apply Z.le_antisymm; apply inj_le_inv; rewrite X; lra).
    replace (e + 60)%Z with (Z.succ (e + 59)) in Y by ring. rewrite Z.pow_succ_r in Y by lia.
    change (2 ^ 60)%Z with (2 * 576460752303423488)%Z in Y. lia.
Qed.

Section Three.
Variable rnd : Q -> Q.
Hypothesis Rd : rounding rnd.
Lemma keep x : representable x -> fl rnd x == x.
Proof. intros R. rewrite fl_rnd. now apply (r_keep rnd Rd). Qed.
Lemma rep_1 : representable 1. Proof. apply (representable_Z 1). lia. Qed.
Lemma rep_m1 : representable (-1). Proof. apply (representable_Z (-1)). lia. Qed.
Lemma rep_tiny : representable tiny. Proof. exists 1%Z, (-60)%Z. split; [lia|]. unfold tiny. ring. Qed.
Lemma alone x y : representable y -> fl rnd (fl rnd (x * 0) + y) == y.
Proof. intros R. rewrite (cleared rnd Rd). rewrite (fl_comp rnd Rd (0 + y) y) by ring. now apply keep. Qed.
Lemma cancel_first x y z :
  fl rnd (fl rnd (fl rnd (0 + fl rnd (fl rnd (x * 0) + 1)) + fl rnd (fl rnd (y * 0) + -1)) + fl rnd (fl rnd (z * 0) + tiny)) == tiny.
Proof.
  rewrite (fl_comp rnd Rd (0 + fl rnd (fl rnd (x * 0) + 1)) 1) by (rewrite (alone x 1 rep_1); ring).
  rewrite (fl_comp rnd Rd (fl rnd 1 + fl rnd (fl rnd (y * 0) + -1)) 0) by (rewrite (alone y _ rep_m1), (keep 1 rep_1); ring).
  rewrite (fl_comp rnd Rd (fl rnd 0 + fl rnd (fl rnd (z * 0) + tiny)) tiny) by (rewrite (alone z _ rep_tiny), (fl_0 rnd Rd); ring).
  apply keep, rep_tiny.
Qed.
Lemma cancel_last x y z :
  ~ fl rnd (fl rnd (fl rnd (0 + fl rnd (fl rnd (x * 0) + 1)) + fl rnd (fl rnd (y * 0) + tiny)) + fl rnd (fl rnd (z * 0) + -1)) == tiny.
Proof.
  rewrite (fl_comp rnd Rd (0 + fl rnd (fl rnd (x * 0) + 1)) 1) by (rewrite (alone x 1 rep_1); ring).
  rewrite (fl_comp rnd Rd (fl rnd 1 + fl rnd (fl rnd (y * 0) + tiny)) (1 + tiny)) by (rewrite (alone y _ rep_tiny), (keep 1 rep_1); ring).
  pose proof (two_pos (-60)) as P. fold tiny in P.
  assert (T1 : tiny <= 1) by (rewrite <- two_0; apply two_le; lia).
  set (r := fl rnd (1 + tiny)).
  assert (Rr : representable r) by (apply (representable_comp (rnd (1 + tiny))); [symmetry; apply fl_rnd|apply (r_rep rnd Rd)]).
  assert (L1 : inject_Z 1 <= r).
  { unfold r. rewrite fl_rnd. apply (rnd_ge rnd Rd); [apply rep_1|]. unfold inject_Z. lra. }
  assert (L2 : r <= inject_Z (2 ^ 53)).
  { unfold r. rewrite fl_rnd. apply (rnd_le rnd Rd); [apply representable_Z; lia|].
    apply Qle_trans with (inject_Z 2); [unfold inject_Z; lra|]. apply inj_le. lia. }
  rewrite (fl_comp rnd Rd (r + fl rnd (fl rnd (z * 0) + -1)) (r - inject_Z 1)) by (rewrite (alone z _ rep_m1); unfold inject_Z; ring).
  rewrite fl_rnd. intros E. apply not_a_double.
  destruct (exact_sub rnd r 1 Rd Rr ltac:(lia) L1 L2) as (_ & X). rewrite X in E.
  apply (representable_comp r); [|exact Rr]. rewrite <- E. unfold inject_Z. ring.
Qed.
Lemma execute_app a a' b : execute rnd own (a ++ a') b = execute rnd own a' (execute rnd own a b).
Proof. apply fold_left_app. Qed.
Lemma two_orders b : m_rest b 0%nat = c_steps (plain 1) ++ c_steps (plain (-1)) ++ [] ->
  m_rest b 1%nat = c_steps (plain tiny) ++ [] -> m_mem b = (fun _ => 0) ->
  forall e, e = Mat 0 0 \/ e = Vec 0 ->
  m_mem (execute rnd own first_thread_first b) e == tiny /\ ~ m_mem (execute rnd own second_thread_between b) e == tiny.
Proof.
  intros W0 W1 Z.
  unfold first_thread_first, second_thread_between. rewrite (repeat_app 0%nat 6 6 : repeat 0%nat 12 = _).
  rewrite !execute_app.
  destruct (one_cell rnd 0 1 _ b W0) as (s1 & E1 & Q1 & O1 & M1).
  destruct (one_cell rnd 0 (-1) _ s1 Q1) as (s2 & E2 & Q2 & O2 & M2).
  rewrite <- (O1 1%nat) in W1 by discriminate. assert (W2 := W1). rewrite <- (O2 1%nat) in W2 by discriminate.
  destruct (one_cell rnd 1 tiny _ s2 W2) as (s3 & E3 & Q3 & O3 & M3).
  destruct (one_cell rnd 1 tiny _ s1 W1) as (s4 & E4 & Q4 & O4 & M4).
  rewrite <- (O4 0%nat) in Q1 by discriminate.
  destruct (one_cell rnd 0 (-1) _ s4 Q1) as (s5 & E5 & Q5 & O5 & M5).
  rewrite E1, E2, E3, E4, E5.
  intros e He. destruct (M1 e He) as (x1 & X1), (M2 e He) as (x2 & X2), (M3 e He) as (x3 & X3),
    (M4 e He) as (x4 & X4), (M5 e He) as (x5 & X5).
  rewrite X3, X2, X5, X4, X1, Z. split; [apply cancel_first|apply cancel_last].
Qed.
End Three.

(** Whatever the rounding: the order of the additions can change the result, here
    an entry is 2^-60, the exact sum, or something else. *)
Theorem C134_order_matters : forall rnd tmp, rounding rnd ->
  let s := execute rnd own first_thread_first (begin tmp work) in
  let s' := execute rnd own second_thread_between (begin tmp work) in
  done s /\ done s' /\ private (length work) own /\
  forall e, e = Mat 0 0 \/ e = Vec 0 ->
  m_mem s e == tiny /\ ~ m_mem s' e == tiny /\ total (map total (parts e (concat work))) == tiny.
Proof.
  intros rnd tmp Rd s s'. destruct (both_done rnd tmp) as (F & F'). split; [exact F|]. split; [exact F'|].
  split; [apply own_private|]. intros e He.
  destruct (two_orders rnd Rd (begin tmp work) eq_refl eq_refl eq_refl e He) as (A & B).
  split; [exact A|]. split; [exact B|]. destruct He as [-> | ->]; vm_compute; reflexivity.
Qed.
Print Assumptions C134_order_matters.

(** With doubles: zero instead of 2^-60; the bound of C134_runs_differ_by_rounding
    is not zero (three additions of one number each, sizes 1, 1 and 2^-60). *)
Definition some_tmp (_ : nat) : store := fun _ => 7.
Example C134_order_case :
  m_mem (execute binary64 own second_thread_between (begin some_tmp work)) (Mat 0 0) == 0 /\
  m_mem (execute binary64 own first_thread_first (begin some_tmp work)) (Mat 0 0) == tiny /\
  parts (Mat 0 0) (concat work) = [[1]; [-1]; [tiny]] /\
  (forall p, In p (parts (Mat 0 0) (concat work)) -> (length p <= 1)%nat) /\
  untouched (Mat 0 1) (plain 1).
Proof.
  split; [vm_compute; reflexivity|]. split; [vm_compute; reflexivity|]. split; [reflexivity|]. split; [|reflexivity].
  intros p [<-|[<-|[<-|[]]]]; cbn; lia.
Qed.

(** Two cells with a common function, two quadrature points each: three threads,
    two threads and one thread; sixteenths are added exactly. *)
Definition quad (i0 i1 : nat) (v w : Q) : cell :=
  {| c_n := 2; c_index := fun i => match i with O => i0 | _ => i1 end;
     c_locals := [{| l_covered := true;
                     l_mat := [fun i j => if Nat.eqb i j then v else - v; fun i j => if Nat.eqb i j then w else - w];
                     l_vec := [fun _ => v; fun _ => - w] |};
                  {| l_covered := false; l_mat := [fun _ _ => 1000]; l_vec := [fun _ => 1000] |}] |}.
Definition exact_work : list (list cell) := [[quad 0 1 (3 # 16) (1 # 2)]; [quad 1 2 (5 # 16) (1 # 4)]].
Definition turns : list nat := concat (repeat [1; 0] 12)%nat.
Example C134_exact_case :
  done (execute binary64 own turns (begin some_tmp exact_work)) /\
  parts (Mat 1 1) (concat exact_work) = [[3 # 16; 1 # 2]; [5 # 16; 1 # 4]] /\
  (forall p x, In p (parts (Mat 1 1) (concat exact_work)) -> In x p -> multiple (-4) x) /\
  total (map size_of (parts (Mat 1 1) (concat exact_work))) <= inject_Z (2 ^ 53) * two (-4) /\
  m_mem (execute binary64 own turns (begin some_tmp exact_work)) (Mat 1 1) == 5 # 4 /\
  m_mem (execute binary64 own turns (begin some_tmp exact_work)) (Vec 1) == - (1 # 4) /\
  (forall u c, In c (nth u exact_work []) -> u <> 0%nat -> untouched (Mat 0 1) c).
Proof.
  split. { intros [|[|[|t]]]; vm_compute; reflexivity. }
  split; [reflexivity|]. split.
  { intros p x [<-|[<-|[]]] [<-|[<-|[]]]; [exists 3%Z|exists 8%Z|exists 5%Z|exists 4%Z]; reflexivity. }
  split; [vm_compute; discriminate|]. split; [vm_compute; reflexivity|]. split; [vm_compute; reflexivity|].
  intros [|[|u]] c I N; [contradiction| |destruct u; destruct I].
  destruct I as [<-|[]]. reflexivity.
Qed.

Definition in_one_thread : list (list cell) := [concat exact_work].
Example C134_one_thread_case :
  done (execute binary64 own (repeat 0%nat 24) (begin some_tmp in_one_thread)) /\
  Permutation (concat in_one_thread) (concat exact_work) /\
  m_mem (execute binary64 own (repeat 0%nat 24) (begin some_tmp in_one_thread)) (Mat 1 2) == - (9 # 16).
Proof.
  split; [intros [|[|t]]; vm_compute; reflexivity|]. split; [apply Permutation_refl|]. vm_compute. reflexivity.
Qed.
