(** Proofs for C134. *)
From Coq Require Import ZArith QArith Qabs List Arith Bool Lia Lqa Permutation.
From Verif Require Import Util SmpModel SmpSpec SmpProofs RoundSpec RoundProofs FlSmpModel FlSmpSpec.
Import ListNotations.
Open Scope Q_scope.

(** ** Sums with rounding *)
Section Sums.
Variable rnd : Q -> Q.
Hypothesis Rd : rounding rnd.
Notation fl := (fl rnd).

Lemma fl_comp x y : x == y -> fl x = fl y.
Proof. intros E. apply Qred_complete. now apply (rnd_comp rnd Rd). Qed.
Lemma fl_rnd x : fl x == rnd x. Proof. apply Qred_correct. Qed.
Lemma fl_near x : Qabs (fl x - x) <= two (-52) * Qabs x.
Proof. rewrite fl_rnd. exact (rnd_near rnd Rd x). Qed.
Lemma fl_0 : fl 0 = 0.
Proof. change 0 with (Qred 0) at 2. apply Qred_complete. exact (rnd_0 rnd Rd). Qed.

Definition sum_from (acc : Q) (l : list Q) : Q := fold_left (fun a x => fl (a + x)) l acc.
Definition fl_sum (l : list Q) : Q := sum_from 0 l.

Lemma ulp_pos : 0 < two (-52). Proof. apply two_pos. Qed.
Lemma grown_ge n : 1 <= grown n.
Proof. pose proof ulp_pos. induction n as [|n IH]; cbn [grown]; [lra|]. nra. Qed.
Lemma grown_add m n : grown (m + n) == grown m * grown n.
Proof. induction m as [|m IH]; cbn [Nat.add grown]; [ring|]. rewrite IH. ring. Qed.
Lemma grown_mono m n : (m <= n)%nat -> grown m <= grown n.
Proof.
  intros L. replace n with (m + (n - m))%nat by lia. rewrite grown_add.
  pose proof (grown_ge m). pose proof (grown_ge (n - m)). nra.
Qed.
Lemma size_nonneg l : 0 <= size_of l.
Proof. induction l as [|x l IH]; [unfold size_of; cbn; lra|]. unfold size_of in *. cbn [map total fold_right] in *.
  pose proof (Qabs_nonneg x). unfold total in IH. lra. Qed.
Lemma size_cons x l : size_of (x :: l) = Qabs x + size_of l. Proof. reflexivity. Qed.
Lemma total_cons x l : total (x :: l) = x + total l. Proof. reflexivity. Qed.
Lemma total_le l : Qabs (total l) <= size_of l.
Proof.
  induction l as [|x l IH]; [unfold total, size_of; cbn; lra|]. rewrite total_cons, size_cons.
  pose proof (Qabs_triangle x (total l)). lra.
Qed.

Lemma sum_error l : forall acc,
  Qabs (sum_from acc l - (acc + total l)) <= (grown (length l) - 1) * (Qabs acc + size_of l).
Proof.
  induction l as [|x l IH]; intros acc.
  - unfold sum_from, total, size_of. cbn [fold_left length grown map fold_right].
    setoid_replace (acc - (acc + 0)) with 0 by ring. setoid_replace ((1 - 1) * (Qabs acc + 0)) with 0 by ring.
    cbn. lra.
  - change (sum_from acc (x :: l)) with (sum_from (fl (acc + x)) l). rewrite total_cons, size_cons.
    cbn [length grown]. specialize (IH (fl (acc + x))). pose proof (fl_near (acc + x)) as N.
    set (y := fl (acc + x)) in *. set (r := sum_from y l) in *.
    pose proof (Qabs_triangle (r - (y + total l)) (y - (acc + x))) as T.
    setoid_replace (r - (acc + (x + total l))) with (r - (y + total l) + (y - (acc + x))) by ring.
    pose proof (Qabs_triangle acc x) as T2. pose proof (Qabs_triangle (y - (acc + x)) (acc + x)) as T3.
    setoid_replace (y - (acc + x) + (acc + x)) with y in T3 by ring.
    pose proof ulp_pos as U. pose proof (grown_ge (length l)) as G. pose proof (size_nonneg l) as Sl.
    pose proof (Qabs_nonneg acc). pose proof (Qabs_nonneg x).
    set (g := grown (length l)) in *. set (u := two (-52)) in *.
    set (A := Qabs acc) in *. set (X := Qabs x) in *. set (S := size_of l) in *.
    set (Y := Qabs y) in *. set (Z := Qabs (acc + x)) in *. set (W := Qabs (y - (acc + x))) in *.
    assert (E0 : 0 <= u * (A + X - Z)) by (apply Qmult_le_0_compat; lra).
    assert (E1 : W <= u * (A + X)) by lra.
    assert (E2 : Y <= (1 + u) * (A + X)) by lra.
    assert (E3 : 0 <= (g - 1) * ((1 + u) * (A + X) - Y)) by (apply Qmult_le_0_compat; lra).
    assert (E4 : 0 <= u * (g * S)) by (apply Qmult_le_0_compat; [lra|apply Qmult_le_0_compat; lra]).
    lra.
Qed.

Lemma fl_sum_error l : Qabs (fl_sum l - total l) <= (grown (length l) - 1) * size_of l.
Proof.
  pose proof (sum_error l 0) as H. unfold fl_sum.
  setoid_replace (sum_from 0 l - (0 + total l)) with (sum_from 0 l - total l) in H by ring.
  setoid_replace (Qabs 0 + size_of l) with (size_of l) in H by (cbn; ring). exact H.
Qed.

(** Sums of sums. *)
Lemma nested_error q ps : (forall p, In p ps -> (length p <= q)%nat) ->
  Qabs (total (map fl_sum ps) - total (map total ps)) <= (grown q - 1) * total (map size_of ps) /\
  size_of (map fl_sum ps) <= grown q * total (map size_of ps).
Proof.
  induction ps as [|p ps IH]; intros B.
  - unfold total, size_of. cbn. setoid_replace ((grown q - 1) * 0) with 0 by ring.
    setoid_replace (grown q * 0) with 0 by ring. split; cbn; lra.
  - destruct IH as (I1 & I2); [intros p' I; apply B; now right|].
    cbn [map]. rewrite !total_cons, size_cons.
    pose proof (fl_sum_error p) as E. pose proof (grown_mono (length p) q (B p (or_introl eq_refl))) as G.
    pose proof (size_nonneg p) as Sp. pose proof (grown_ge (length p)) as G1.
    assert (E' : Qabs (fl_sum p - total p) <= (grown q - 1) * size_of p) by nra.
    split.
    + setoid_replace (fl_sum p + total (map fl_sum ps) - (total p + total (map total ps)))
        with (fl_sum p - total p + (total (map fl_sum ps) - total (map total ps))) by ring.
      pose proof (Qabs_triangle (fl_sum p - total p) (total (map fl_sum ps) - total (map total ps))). lra.
    + pose proof (Qabs_triangle (fl_sum p - total p) (total p)) as T.
      setoid_replace (fl_sum p - total p + total p) with (fl_sum p) in T by ring.
      pose proof (total_le p). lra.
Qed.

Lemma total_perm l l' : Permutation l l' -> total l == total l'.
Proof.
  induction 1; [reflexivity| | |etransitivity; eassumption]; rewrite ?total_cons.
  - now rewrite IHPermutation.
  - ring.
Qed.
Lemma size_perm l l' : Permutation l l' -> size_of l == size_of l'.
Proof. intros P. apply total_perm. now apply Permutation_map. Qed.

(** Any order of the sums. *)
Lemma order_error q ps l : Permutation l (map fl_sum ps) -> (forall p, In p ps -> (length p <= q)%nat) ->
  Qabs (fl_sum l - total (map total ps)) <= (grown (length ps + q) - 1) * total (map size_of ps).
Proof.
  intros P B. destruct (nested_error q ps B) as (E1 & E2). pose proof (fl_sum_error l) as E.
  rewrite (total_perm _ _ P), (size_perm _ _ P), (Permutation_length P), map_length in E.
  rewrite grown_add. pose proof (grown_ge (length ps)). pose proof (grown_ge q).
  setoid_replace (fl_sum l - total (map total ps))
    with (fl_sum l - total (map fl_sum ps) + (total (map fl_sum ps) - total (map total ps))) by ring.
  pose proof (Qabs_triangle (fl_sum l - total (map fl_sum ps)) (total (map fl_sum ps) - total (map total ps))) as T.
  set (g := grown (length ps)) in *. set (k := grown q) in *. set (S := total (map size_of ps)) in *.
  set (Z := size_of (map fl_sum ps)) in *.
  assert (F : (g - 1) * Z <= (g - 1) * (k * S)) by nra. nra.
Qed.

Lemma grown_linear n : (Z.of_nat n <= 2 ^ 51)%Z -> grown n - 1 <= two (-51) * inject_Z (Z.of_nat n).
Proof.
  assert (E51 : two (-51) == 2 * two (-52)) by reflexivity. rewrite E51. clear E51.
  induction n as [|n IH]; intros B.
  - cbn [grown]. setoid_replace (inject_Z (Z.of_nat 0)) with 0 by reflexivity. lra.
  - cbn [grown]. specialize (IH ltac:(lia)). rewrite Nat2Z.inj_succ. unfold Z.succ. rewrite inj_add.
    setoid_replace (inject_Z 1) with 1 by reflexivity.
    assert (L : inject_Z (Z.of_nat n) * (2 * two (-52)) <= 1).
    { apply Qle_trans with (inject_Z (2 ^ 51) * (2 * two (-52))); [|vm_compute; discriminate].
      pose proof (inj_le (Z.of_nat n) (2 ^ 51) ltac:(lia)). pose proof ulp_pos. nra. }
    assert (0 <= inject_Z (Z.of_nat n)) by (apply (inj_le 0); lia).
    pose proof ulp_pos. set (u := two (-52)) in *. set (N := inject_Z (Z.of_nat n)) in *.
    assert (E : u * (2 * u * N) <= u * 1) by nra. nra.
Qed.

(** ** Sums without rounding errors *)
Lemma multiple_add k x y : multiple k x -> multiple k y -> multiple k (x + y).
Proof. intros (m & Em) (n & En). exists (m + n)%Z. rewrite inj_add, Em, En. ring. Qed.
Lemma multiple_0 k : multiple k 0. Proof. exists 0%Z. setoid_replace (inject_Z 0) with 0 by reflexivity. ring. Qed.
Lemma multiple_rep k x : multiple k x -> Qabs x <= inject_Z (2 ^ 53) * two k -> representable x.
Proof.
  intros (m & Em) B. exists m, k. split; [|exact Em].
  rewrite Em, Qabs_Qmult, (Qabs_pos (two k)) in B by (apply Qlt_le_weak, two_pos).
  apply le_cancel in B; [|apply two_pos]. apply inj_le_inv. exact B.
Qed.
Lemma sum_exact k l : forall acc, multiple k acc -> (forall x, In x l -> multiple k x) ->
  Qabs acc + size_of l <= inject_Z (2 ^ 53) * two k -> sum_from acc l == acc + total l.
Proof.
  induction l as [|x l IH]; intros acc Ma Ml B.
  - unfold sum_from, total. cbn. ring.
  - change (sum_from acc (x :: l)) with (sum_from (fl (acc + x)) l). rewrite size_cons in B.
    pose proof (Qabs_triangle acc x) as T. pose proof (size_nonneg l) as Sl.
    assert (Mx : multiple k (acc + x)) by (apply multiple_add; [exact Ma|apply Ml; now left]).
    assert (E : fl (acc + x) == acc + x).
    { rewrite fl_rnd. apply (r_keep rnd Rd). apply (multiple_rep k); [exact Mx|lra]. }
    rewrite IH.
    + rewrite E, total_cons. ring.
    + destruct Mx as (m & Em). exists m. now rewrite E.
    + intros y I. apply Ml. now right.
    + rewrite E. lra.
Qed.
Lemma fl_sum_exact k l : (forall x, In x l -> multiple k x) ->
  size_of l <= inject_Z (2 ^ 53) * two k -> fl_sum l == total l.
Proof.
  intros M B. unfold fl_sum. rewrite (sum_exact k); [ring|apply multiple_0|exact M|].
  setoid_replace (Qabs 0) with 0 by reflexivity. lra.
Qed.
Lemma multiple_total k l : (forall x, In x l -> multiple k x) -> multiple k (total l).
Proof.
  induction l as [|x l IH]; intros M; [apply multiple_0|]. rewrite total_cons.
  apply multiple_add; [apply M; now left|apply IH; intros y I; apply M; now right].
Qed.
Lemma size_in p ps : In p ps -> size_of p <= total (map size_of ps).
Proof.
  induction ps as [|r ps IH]; intros I; [destruct I|]. cbn [map]. rewrite total_cons.
  assert (0 <= total (map size_of ps)).
  { clear. induction ps as [|r ps IH]; [unfold total; cbn; lra|]. cbn [map]. rewrite total_cons. pose proof (size_nonneg r). lra. }
  pose proof (size_nonneg r). destruct I as [->|I]; [lra|]. specialize (IH I). lra.
Qed.
Lemma order_exact k ps l : Permutation l (map fl_sum ps) -> (forall p x, In p ps -> In x p -> multiple k x) ->
  total (map size_of ps) <= inject_Z (2 ^ 53) * two k -> fl_sum l == total (map total ps).
Proof.
  intros P M B.
  assert (X : forall p, In p ps -> fl_sum p == total p).
  { intros p I. apply (fl_sum_exact k); [intros x; now apply M|]. pose proof (size_in p ps I). lra. }
  rewrite (fl_sum_exact k).
  - rewrite (total_perm _ _ P). clear P M B. induction ps as [|p ps IH]; [reflexivity|]. cbn [map].
    rewrite !total_cons, (X p (or_introl eq_refl)), IH; [reflexivity|]. intros r I. apply X. now right.
  - intros x I. apply (Permutation_in _ P) in I. apply in_map_iff in I. destruct I as (p & <- & I).
    destruct (multiple_total k p) as (m & Em); [intros x; now apply M|]. exists m. rewrite (X p I). exact Em.
  - rewrite (size_perm _ _ P). apply Qle_trans with (total (map size_of ps)); [|exact B].
    clear P M B l. induction ps as [|p ps IH]; [unfold size_of, total; cbn; lra|]. cbn [map]. rewrite size_cons, total_cons.
    rewrite (X p (or_introl eq_refl)). pose proof (total_le p). specialize (IH (fun r I => X r (or_intror I))). lra.
Qed.

(** ** What a thread still adds *)
Fixpoint pend (w : store) (prog : list op) : list (entry * Q) :=
  match prog with
  | [] => []
  | ClearM :: r => pend (clear_m rnd w) r
  | ClearV :: r => pend (clear_v rnd w) r
  | ApplyM ts :: r => pend (fold_left (add_m rnd) ts w) r
  | ApplyV ts :: r => pend (fold_left (add_v rnd) ts w) r
  | AddTo f g :: r => (g, w f) :: pend w r
  end.

Section Run.
Variable slot : nat -> nat.
Variable n : nat.
Hypothesis Own : private n slot.
Definition left_for (s : machine) (u : nat) : list (entry * Q) := pend (m_tmp s (slot u)) (m_rest s u).
Definition label (u : nat) (p : nat * (entry * Q)) : bool := Nat.eqb (fst p) u.
Definition values (e : entry) (l : list (entry * Q)) : list Q := map snd (filter (fun p => same e (fst p)) l).

Lemma storage_other s t w r u : (t < n)%nat -> (u < n)%nat -> u <> t ->
  left_for {| m_mem := m_mem s; m_tmp := upon (m_tmp s) (slot t) w; m_rest := upon (m_rest s) t r |} u = left_for s u.
Proof.
  intros Lt Lu N. unfold left_for. cbn [m_tmp m_rest]. unfold upon.
  destruct (Nat.eqb_spec (slot u) (slot t)) as [E|_]; [now apply Own in E|].
  now destruct (Nat.eqb_spec u t) as [E|_].
Qed.

Lemma advance_left t s : (forall u, (n <= u)%nat -> m_rest s u = []) ->
  let s' := advance rnd slot t s in
  (forall u, (n <= u)%nat -> m_rest s' u = []) /\
  ((m_mem s' = m_mem s /\ forall u, (u < n)%nat -> left_for s' u = left_for s u) \/
   (exists e x, (t < n)%nat /\ left_for s t = (e, x) :: left_for s' t /\ (forall u, (u < n)%nat -> u <> t -> left_for s' u = left_for s u) /\
                m_mem s' = write (m_mem s) e (fl (m_mem s e + x)))).
Proof.
  intros Z. cbn zeta. unfold advance. destruct (m_rest s t) as [|i r] eqn:R.
  - split; [exact Z|]. left. now split.
  - assert (Lt : (t < n)%nat).
    { destruct (Nat.lt_ge_cases t n) as [L|L]; [exact L|]. specialize (Z t L). congruence. }
    assert (Z' : forall u, (n <= u)%nat -> upon (m_rest s) t r u = []).
    { intros u L. unfold upon. destruct (Nat.eqb_spec u t) as [E|_]; [lia|now apply Z]. }
    assert (St : forall w, pend (m_tmp s (slot t)) (i :: r) = pend w r ->
      (forall u, (n <= u)%nat -> upon (m_rest s) t r u = []) /\
      ((m_mem s = m_mem s /\ forall u, (u < n)%nat ->
         left_for {| m_mem := m_mem s; m_tmp := upon (m_tmp s) (slot t) w; m_rest := upon (m_rest s) t r |} u = left_for s u))).
    { intros w E. split; [exact Z'|]. split; [reflexivity|]. intros u Lu.
      destruct (Nat.eq_dec u t) as [->|N]; [|now apply storage_other].
      unfold left_for. cbn [m_tmp m_rest]. unfold upon. rewrite !Nat.eqb_refl, R. now symmetry. }
    destruct i as [| |ts|ts|f g]; cbn [m_rest m_mem].
    + destruct (St (clear_m rnd (m_tmp s (slot t))) eq_refl) as (A & B). split; [exact A|left; exact B].
    + destruct (St (clear_v rnd (m_tmp s (slot t))) eq_refl) as (A & B). split; [exact A|left; exact B].
    + destruct (St (fold_left (add_m rnd) ts (m_tmp s (slot t))) eq_refl) as (A & B). split; [exact A|left; exact B].
    + destruct (St (fold_left (add_v rnd) ts (m_tmp s (slot t))) eq_refl) as (A & B). split; [exact A|left; exact B].
    + split; [exact Z'|]. right. exists g, (m_tmp s (slot t) f). split; [exact Lt|].
      unfold left_for. cbn [m_tmp m_rest]. split; [|split; [|reflexivity]].
      * unfold upon. now rewrite Nat.eqb_refl, R.
      * intros u Lu N. unfold upon. now destruct (Nat.eqb_spec u t) as [E|_].
Qed.

Lemma same_refl e : same e e = true.
Proof. destruct e; cbn; rewrite ?Nat.eqb_refl; reflexivity. Qed.
Lemma same_eq a b : same a b = true -> a = b.
Proof.
  destruct a, b; cbn; try discriminate; intros H.
  - apply andb_true_iff in H. destruct H as (A & B). apply Nat.eqb_eq in A, B. congruence.
  - apply Nat.eqb_eq in H. congruence.
Qed.

Lemma execute_trace sched : forall s, (forall u, (n <= u)%nat -> m_rest s u = []) ->
  let s' := execute rnd slot sched s in
  exists trace : list (nat * (entry * Q)),
    (forall p, In p trace -> (fst p < n)%nat) /\
    (forall u, (u < n)%nat -> left_for s u = map snd (filter (label u) trace) ++ left_for s' u) /\
    (forall e, m_mem s' e = sum_from (m_mem s e) (values e (map snd trace))).
Proof.
  induction sched as [|t sched IH]; intros s Z; cbn zeta.
  - exists []. split; [intros p []|]. now split.
  - cbn [execute fold_left]. destruct (advance_left t s Z) as (Z' & C). cbn zeta in *.
    set (s1 := advance rnd slot t s) in *. destruct (IH s1 Z') as (tr & B & L & M). cbn zeta in *.
    change (fold_left (fun s0 t0 => advance rnd slot t0 s0) sched s1) with (execute rnd slot sched s1) in *.
    destruct C as [(Em & El)|(e & x & Lt & E1 & E2 & Em)].
    + exists tr. split; [exact B|]. split; [intros u Lu; now rewrite <- El, L|]. intros e. now rewrite M, Em.
    + exists ((t, (e, x)) :: tr). split; [intros p [<-|I]; [exact Lt|now apply B]|]. split.
      * intros u Lu. cbn [filter]. unfold label at 1. cbn [fst].
        destruct (Nat.eqb_spec t u) as [<-|N].
        -- cbn [map snd app]. now rewrite E1, L.
        -- rewrite <- (E2 u Lu) by congruence. now apply L.
      * intros a. rewrite M, Em. unfold values. cbn [map snd filter fst]. unfold write.
        destruct (same a e) eqn:S; [|reflexivity]. apply same_eq in S. subst a. reflexivity.
Qed.

Lemma flat_map_same {A B} (f g : A -> list B) l : (forall x, In x l -> f x = g x) -> flat_map f l = flat_map g l.
Proof.
  induction l as [|x l IH]; intros E; [reflexivity|]. cbn [flat_map].
  rewrite (E x (or_introl eq_refl)), IH; [reflexivity|]. intros y I. apply E. now right.
Qed.
Lemma insert_one {A} (x : A) (f : nat -> list A) v l : NoDup l -> In v l ->
  Permutation (flat_map (fun u => if Nat.eqb v u then x :: f u else f u) l) (x :: flat_map f l).
Proof.
  induction l as [|u l IH]; intros N I; [destruct I|]. inversion N as [|? ? N1 N2]; subst. cbn [flat_map].
  destruct (Nat.eqb_spec v u) as [->|E].
  - cbn [app]. apply perm_skip. apply Permutation_app_head.
    replace (flat_map (fun u0 => if Nat.eqb u u0 then x :: f u0 else f u0) l) with (flat_map f l); [reflexivity|].
    apply flat_map_same. intros w Iw. destruct (Nat.eqb_spec u w) as [->|_]; [contradiction|reflexivity].
  - destruct I as [->|I]; [contradiction|]. rewrite (IH N2 I). apply Permutation_sym, Permutation_middle.
Qed.
Lemma split_labels (trace : list (nat * (entry * Q))) : (forall p, In p trace -> (fst p < n)%nat) ->
  Permutation (map snd trace) (flat_map (fun u => map snd (filter (label u) trace)) (seq 0 n)).
Proof.
  induction trace as [|(v, q) tr IH]; intros B.
  - cbn. replace (flat_map (fun _ : nat => []) (seq 0 n)) with (@nil (entry * Q)); [constructor|].
    induction (seq 0 n) as [|a l I]; [reflexivity|exact I].
  - cbn [map snd filter]. rewrite IH by (intros p I; apply B; now right).
    rewrite <- (insert_one q (fun u => map snd (filter (label u) tr)) v).
    + erewrite flat_map_same; [reflexivity|]. intros u _. cbv beta. change (label u (v, q)) with (Nat.eqb v u).
      now destruct (Nat.eqb v u).
    + apply seq_NoDup.
    + apply in_seq. specialize (B _ (or_introl eq_refl)). cbn in B. lia.
Qed.
End Run.

(** ** What the cells add *)
Definition added_m (c : cell) (l : local) : list (entry * Q) :=
  map (fun ij => (Mat (c_index c (fst ij)) (c_index c (snd ij)), fl_sum (map (fun t => t (fst ij) (snd ij)) (l_mat l))))
      (list_prod (seq 0 (c_n c)) (seq 0 (c_n c))).
Definition added_v (c : cell) (l : local) : list (entry * Q) :=
  map (fun i => (Vec (c_index c i), fl_sum (map (fun t => t i) (l_vec l)))) (seq 0 (c_n c)).
Definition added (c : cell) : list (entry * Q) :=
  flat_map (added_m c) (filter l_covered (c_locals c)) ++ flat_map (added_v c) (filter l_covered (c_locals c)).

Lemma apply_m ts : forall w i j,
  fold_left (add_m rnd) ts w (Mat i j) = sum_from (w (Mat i j)) (map (fun t => t i j) ts).
Proof. induction ts as [|t ts IH]; intros w i j; [reflexivity|]. cbn [fold_left map]. now rewrite IH. Qed.
Lemma apply_v ts : forall w i,
  fold_left (add_v rnd) ts w (Vec i) = sum_from (w (Vec i)) (map (fun t => t i) ts).
Proof. induction ts as [|t ts IH]; intros w i; [reflexivity|]. cbn [fold_left map]. now rewrite IH. Qed.
Lemma cleared x : fl (x * 0) = 0.
Proof. rewrite (fl_comp (x * 0) 0) by ring. apply fl_0. Qed.

Lemma pend_adds {A} (f g : A -> entry) w r l :
  pend w (map (fun x => AddTo (f x) (g x)) l ++ r) = map (fun x => (g x, w (f x))) l ++ pend w r.
Proof. induction l as [|x l IH]; [reflexivity|]. cbn [map app pend]. now rewrite IH. Qed.
Lemma as_pairs {A} (f : nat -> nat -> A) l l' :
  flat_map (fun i => map (fun j => f i j) l') l = map (fun ij => f (fst ij) (snd ij)) (list_prod l l').
Proof. induction l as [|i l IH]; [reflexivity|]. cbn [flat_map list_prod]. now rewrite IH, map_app, map_map. Qed.

Lemma pend_m c l r w : exists w', pend w (m_steps c l ++ r) = added_m c l ++ pend w' r.
Proof.
  unfold m_steps. cbn [app pend]. set (w' := fold_left (add_m rnd) (l_mat l) (clear_m rnd w)). exists w'.
  rewrite as_pairs, pend_adds. f_equal. apply map_ext. intros (i, j). cbn [fst snd]. f_equal.
  unfold w'. rewrite apply_m. cbn [clear_m]. now rewrite cleared.
Qed.
Lemma pend_v c l r w : exists w', pend w (v_steps c l ++ r) = added_v c l ++ pend w' r.
Proof.
  unfold v_steps. cbn [app pend]. set (w' := fold_left (add_v rnd) (l_vec l) (clear_v rnd w)). exists w'.
  rewrite pend_adds. f_equal. apply map_ext. intros i. f_equal.
  unfold w'. rewrite apply_v. cbn [clear_v]. now rewrite cleared.
Qed.
Lemma pend_all {A} (f : A -> list op) (g : A -> list (entry * Q)) :
  (forall x r w, exists w', pend w (f x ++ r) = g x ++ pend w' r) ->
  forall l r w, exists w', pend w (flat_map f l ++ r) = flat_map g l ++ pend w' r.
Proof.
  intros E l. induction l as [|x l IH]; intros r w; [now exists w|]. cbn [flat_map]. rewrite <- app_assoc.
  destruct (E x (flat_map f l ++ r) w) as (w1 & E1). destruct (IH r w1) as (w2 & E2).
  exists w2. now rewrite E1, E2, app_assoc.
Qed.
Lemma pend_cell c r w : exists w', pend w (c_steps c ++ r) = added c ++ pend w' r.
Proof.
  unfold c_steps, added. rewrite <- app_assoc.
  destruct (pend_all _ _ (pend_m c) (filter l_covered (c_locals c)) (flat_map (v_steps c) (filter l_covered (c_locals c)) ++ r) w) as (w1 & E1).
  destruct (pend_all _ _ (pend_v c) (filter l_covered (c_locals c)) r w1) as (w2 & E2).
  exists w2. now rewrite E1, E2, app_assoc.
Qed.
Lemma pend_cells cs w : pend w (flat_map c_steps cs) = flat_map added cs.
Proof.
  destruct (pend_all _ _ pend_cell cs [] w) as (w' & E). rewrite app_nil_r in E. rewrite E. cbn. now rewrite app_nil_r.
Qed.

Lemma values_app e l l' : values e (l ++ l') = values e l ++ values e l'.
Proof. unfold values. now rewrite filter_app, map_app. Qed.
Lemma values_flat {A} e (f : A -> list (entry * Q)) l : values e (flat_map f l) = flat_map (fun x => values e (f x)) l.
Proof. induction l as [|x l IH]; [reflexivity|]. cbn [flat_map]. now rewrite values_app, IH. Qed.
Lemma values_map {A} e (f : A -> entry) (v : A -> Q) l :
  values e (map (fun x => (f x, v x)) l) = map v (filter (fun x => same e (f x)) l).
Proof.
  unfold values. induction l as [|x l IH]; [reflexivity|]. cbn [map filter fst]. destruct (same e (f x)); cbn [map snd]; now rewrite IH.
Qed.
Lemma flat_nil {A B} (l : list A) : flat_map (fun _ => @nil B) l = [].
Proof. induction l as [|x l IH]; [reflexivity|exact IH]. Qed.
Lemma filter_none {A} (l : list A) : filter (fun _ => false) l = [].
Proof. induction l as [|x l IH]; [reflexivity|exact IH]. Qed.
Lemma map_flat {A B C} (f : B -> C) (g : A -> list B) l : map f (flat_map g l) = flat_map (fun x => map f (g x)) l.
Proof. induction l as [|x l IH]; [reflexivity|]. cbn [flat_map]. now rewrite map_app, IH. Qed.

Lemma values_cell e c : values e (added c) = map fl_sum (parts_of e c).
Proof.
  unfold added, parts_of. rewrite values_app, !values_flat, map_flat.
  set (ls := filter l_covered (c_locals c)). destruct e as [a b|a].
  - rewrite (flat_map_same (fun x => values (Mat a b) (added_v c x)) (fun _ => []) ls).
    + rewrite flat_nil, app_nil_r. apply flat_map_same. intros l _. unfold added_m. rewrite values_map, map_map. reflexivity.
    + intros l _. unfold added_v. rewrite values_map. cbn [same]. now rewrite filter_none.
  - rewrite (flat_map_same (fun x => values (Vec a) (added_m c x)) (fun _ => []) ls).
    + rewrite flat_nil. apply flat_map_same. intros l _. unfold added_v. rewrite values_map, map_map. reflexivity.
    + intros l _. unfold added_m. rewrite values_map. cbn [same]. now rewrite filter_none.
Qed.
Lemma values_cells e cs : values e (flat_map added cs) = map fl_sum (parts e cs).
Proof. unfold parts. rewrite values_flat, map_flat. apply flat_map_same. intros c _. apply values_cell. Qed.

Lemma parts_app e l l' : parts e (l ++ l') = parts e l ++ parts e l'.
Proof. unfold parts. apply flat_map_app. Qed.
Lemma parts_perm e l l' : Permutation l l' -> Permutation (parts e l) (parts e l').
Proof. intros P. unfold parts. now apply Permutation_flat_map. Qed.
Lemma values_perm e l l' : Permutation l l' -> Permutation (values e l) (values e l').
Proof.
  intros P. unfold values. apply Permutation_map. induction P.
  - constructor.
  - cbn [filter]. destruct (same e (fst x)); [now apply perm_skip|assumption].
  - cbn [filter]. destruct (same e (fst y)), (same e (fst x)); try reflexivity. apply perm_swap.
  - etransitivity; eassumption.
Qed.

Lemma nth_seq {A} (cells : list (list A)) : flat_map (fun u => nth u cells []) (seq 0 (length cells)) = concat cells.
Proof.
  rewrite <- (map_id cells) at 2. rewrite <- flat_map_concat_map.
  induction cells as [|c cells IH] using rev_ind; [reflexivity|].
  rewrite app_length, seq_app, !flat_map_app. cbn [length seq flat_map Nat.add].
  rewrite app_nth2 by lia. rewrite Nat.sub_diag. cbn [nth]. f_equal. rewrite <- IH.
  apply flat_map_same. intros u I. apply in_seq in I. now rewrite app_nth1 by lia.
Qed.

Section Finished.
Variable slot : nat -> nat.
Variable tmp : nat -> store.
Variable cells : list (list cell).
Hypothesis Own : private (length cells) slot.
Variable sched : list nat.
Let s := execute rnd slot sched (begin tmp cells).
Hypothesis Fin : done s.

Lemma finished_trace : exists trace : list (nat * (entry * Q)),
  (forall p, In p trace -> (fst p < length cells)%nat) /\
  (forall u, (u < length cells)%nat -> map snd (filter (label u) trace) = flat_map added (nth u cells [])) /\
  (forall e, m_mem s e = fl_sum (values e (map snd trace))).
Proof.
  destruct (execute_trace slot (length cells) Own sched (begin tmp cells)) as (tr & B & L & M).
  { intros u Lu. cbn [m_rest begin]. rewrite nth_overflow by exact Lu. reflexivity. }
  exists tr. split; [exact B|]. split; [|exact M].
  intros u Lu. specialize (L u Lu). fold s in L. unfold left_for in L. rewrite (Fin u) in L. cbn [pend] in L.
  rewrite app_nil_r in L. rewrite <- L. cbn [begin m_rest]. apply pend_cells.
Qed.

Lemma finished_value e : exists l, Permutation l (map fl_sum (parts e (concat cells))) /\ m_mem s e = fl_sum l.
Proof.
  destruct finished_trace as (tr & B & L & M). exists (values e (map snd tr)). split; [|apply M].
  rewrite <- values_cells. apply values_perm. rewrite (split_labels _ tr B).
  rewrite (flat_map_same _ (fun u => flat_map added (nth u cells []))).
  - rewrite <- nth_seq. clear. induction (seq 0 (length cells)) as [|u l IH]; [reflexivity|].
    cbn [flat_map]. rewrite flat_map_app. now apply Permutation_app_head.
  - intros u I. apply L. apply in_seq in I. lia.
Qed.

Lemma filter_values e u (tr : list (nat * (entry * Q))) :
  (forall p, In p tr -> same e (fst (snd p)) = true -> fst p = u) ->
  values e (map snd tr) = values e (map snd (filter (label u) tr)).
Proof.
  induction tr as [|(v, (a, x)) tr IH]; intros E; [reflexivity|].
  assert (IH' := IH (fun p I => E p (or_intror I))). specialize (E _ (or_introl eq_refl)). cbn [fst snd] in E.
  cbn [map filter]. unfold label at 1. cbn [fst snd]. unfold values in *. cbn [filter fst].
  destruct (same e a) eqn:S.
  - rewrite (E eq_refl), Nat.eqb_refl. cbn [map filter snd fst]. rewrite S. cbn [map snd]. now rewrite IH'.
  - destruct (Nat.eqb v u); cbn [map filter snd fst]; rewrite ?S; exact IH'.
Qed.

Lemma finished_one e t : (forall u c, In c (nth u cells []) -> u <> t -> untouched e c) ->
  m_mem s e = fl_sum (map fl_sum (parts e (nth t cells []))).
Proof.
  intros U. destruct finished_trace as (tr & B & L & M). rewrite M. f_equal.
  rewrite (filter_values e t).
  - destruct (Nat.lt_ge_cases t (length cells)) as [Lt|Lt].
    + now rewrite (L t Lt), values_cells.
    + rewrite (nth_overflow cells) by exact Lt. cbn [parts flat_map map].
      destruct (filter (label t) tr) as [|p l] eqn:F; [reflexivity|].
      assert (I : In p (filter (label t) tr)) by (rewrite F; now left). apply filter_In in I. destruct I as (I & E).
      apply Nat.eqb_eq in E. specialize (B p I). lia.
  - intros p I S. destruct (Nat.eq_dec (fst p) t) as [E|N]; [exact E|]. exfalso.
    assert (Lp := B p I). assert (V : In (snd (snd p)) (values e (map snd (filter (label (fst p)) tr)))).
    { unfold values. apply in_map_iff. exists (snd p). split; [reflexivity|]. apply filter_In. split; [|exact S].
      apply in_map_iff. exists p. split; [reflexivity|]. apply filter_In. split; [exact I|]. apply Nat.eqb_refl. }
    rewrite (L _ Lp), values_cells in V. apply in_map_iff in V. destruct V as (q & _ & Iq).
    unfold parts in Iq. apply in_flat_map in Iq. destruct Iq as (c & Ic & Iq).
    rewrite (U (fst p) c Ic N) in Iq. destruct Iq.
Qed.
End Finished.
End Sums.
