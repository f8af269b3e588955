(** Proofs for C24-C28. *)
From Coq Require Import List Arith Lia Bool.
From Verif Require Import Util SearchModel SearchSpec.
Import ListNotations.

Section Lists.
Variable ent : Type.
Implicit Types l : list (option ent).

Lemma null_count_repeat : forall n, null_count (repeat (@None ent) n) = n.
Proof. unfold null_count. induction n; simpl; auto. Qed.

Lemma null_count_some : forall es : list ent, null_count (map Some es) = 0.
Proof. unfold null_count. induction es; simpl; auto. Qed.

Lemma find_null_repeat : forall n, find_null (repeat (@None ent) n) = 0.
Proof. destruct n; reflexivity. Qed.

Lemma upd_here : forall A (p : list A) x y q, upd (p ++ x :: q) (length p) y = p ++ y :: q.
Proof. induction p; simpl; intros; auto. now rewrite IHp. Qed.

Lemma move_if_fill : forall (es : list ent) (p : list (option ent)) q,
  length es <= length q ->
  move_if (map Some es) (length p) (p ++ q) = Some (p ++ map Some es ++ skipn (length es) q).
Proof.
  induction es as [|e es IH]; intros p q L; simpl; auto.
  destruct q as [|x q]; simpl in L; [lia|].
  rewrite app_length. simpl.
  destruct (Nat.ltb_spec (length p) (length p + S (length q))); [|lia].
  rewrite upd_here.
  replace (S (length p)) with (length (p ++ [Some e])) by (rewrite app_length; simpl; lia).
  replace (p ++ Some e :: q) with ((p ++ [Some e]) ++ q) by (rewrite <- app_assoc; reflexivity).
  rewrite IH by lia. rewrite <- app_assoc. reflexivity.
Qed.

Lemma move_if_full : forall (es : list ent) n, length es = n ->
  move_if (map Some es) 0 (repeat None n) = Some (map Some es).
Proof.
  intros es n E. pose proof (move_if_fill es [] (repeat None n)) as H. simpl in H.
  rewrite H by (rewrite repeat_length; lia).
  f_equal. rewrite skipn_all2 by (rewrite repeat_length; lia). apply app_nil_r.
Qed.

Lemma move_if_ok : forall (src : list (option ent)) dst ret,
  dst + length src <= length ret ->
  exists ret', move_if src dst ret = Some ret' /\ length ret' = length ret.
Proof.
  induction src as [|o src IH]; simpl; intros dst ret L; [eauto|].
  destruct (is_null o).
  - apply IH. lia.
  - destruct (Nat.ltb_spec dst (length ret)); [|lia].
    destruct (IH (S dst) (upd ret dst o)) as (r & A & B); [rewrite upd_length; lia|].
    exists r. rewrite upd_length in B. auto.
Qed.
End Lists.

Lemma least : forall (P : nat -> bool) n, P n = true ->
  exists k, k <= n /\ P k = true /\ forall k', k' < k -> P k' = false.
Proof.
  intros P n. induction n as [n IH] using lt_wf_ind. intros H.
  destruct (existsb P (seq 0 n)) eqn:E.
  - apply existsb_exists in E. destruct E as (m & M & Q). apply in_seq in M.
    destruct (IH m) as (k & A & B & C); auto; [lia|]. exists k. repeat split; auto; lia.
  - exists n. repeat split; auto. intros k' L. destruct (P k') eqn:Q; auto.
    exfalso. assert (existsb P (seq 0 n) = true); [|congruence].
    apply existsb_exists. exists k'. split; auto. apply in_seq. lia.
Qed.

Section Proofs.
Variables cell point ent : Type.
Variable inside : cell -> point -> bool.
Variable lookup : nat -> cell -> list point -> list (option ent).
Variable cells : list cell.
Variable wsize : nat.

Notation loop := (loop cell point ent inside lookup cells wsize).
Notation search := (search cell point ent inside lookup cells wsize).
Notation searches := (searches cell point ent inside lookup cells wsize).
Notation contains := (contains cell point inside).
Notation covers_all := (covers_all cell point inside).
Notation complete := (complete cell point ent inside lookup cells).
Notation in_range := (in_range cell cells).
Notation cyc := (cyc cell cells).
Notation start := (start cell).
Notation N := (length cells).

Lemma covers_contains : forall c ps, covers_all c ps = true <-> contains c ps.
Proof. intros c ps. unfold SearchModel.covers_all, SearchSpec.contains. apply forallb_forall. Qed.

Lemma covers_not : forall c ps, covers_all c ps = false <-> ~ contains c ps.
Proof.
  intros c ps. rewrite <- covers_contains. destruct (covers_all c ps); intuition congruence.
Qed.

(** C24: the remembered cell contains the points. *)
Lemma loop_sound : forall fuel ps i cur calls steps ret v ret' st' v',
  null_count ret <> 0 ->
  loop fuel ps i cur calls steps ret v = Found ret' st' v' ->
  exists c, s_cur st' = Some c /\ In c cells /\ contains c ps.
Proof.
  induction fuel as [|f IH]; intros ps i cur calls steps ret v ret' st' v' NN R; cbn [SearchModel.loop] in R;
    (destruct (Nat.eqb_spec (null_count ret) 0); [congruence|]); [discriminate|].
  destruct (nth_error cells i) as [c|] eqn:E; [|discriminate].
  destruct (covers_all c ps) eqn:C.
  - destruct (move_if (lookup calls c ps) (find_null ret) ret) as [r|]; [|discriminate].
    assert (Z : forall i' steps', loop f ps i' (Some c) (S calls) steps' r (S v) = Found ret' st' v' ->
      exists c, s_cur st' = Some c /\ In c cells /\ contains c ps).
    { intros i' steps' R'. destruct (Nat.eq_dec (null_count r) 0) as [Z|Z].
      - destruct f; simpl in R'; rewrite Z in R'; simpl in R'; injection R' as <- <- <-; simpl;
          exists c; (split; [reflexivity|]); (split; [eapply nth_error_In; eauto|now apply covers_contains]).
      - eapply IH; eauto. }
    destruct (Nat.eqb (S i) N); [|eauto].
    destruct (Nat.ltb (S steps) wsize); [eauto|discriminate].
  - destruct (Nat.eqb (S i) N); [|eauto].
    destruct (Nat.ltb (S steps) wsize); [eauto|discriminate].
Qed.

(** C24: the results are those of the remembered cell. *)
Lemma loop_results : complete -> forall fuel ps i cur calls steps v ret' st' v',
  ps <> [] ->
  loop fuel ps i cur calls steps (repeat None (length ps)) v = Found ret' st' v' ->
  exists c n, s_cur st' = Some c /\ In c cells /\ contains c ps /\ ret' = lookup n c ps.
Proof.
  intros CP. induction fuel as [|f IH]; intros ps i cur calls steps v ret' st' v' NE R; cbn [SearchModel.loop] in R;
    rewrite null_count_repeat in R;
    (destruct (Nat.eqb_spec (length ps) 0) as [Z|Z]; [destruct ps; simpl in Z; congruence|]); [discriminate|].
  destruct (nth_error cells i) as [c|] eqn:E; [|discriminate].
  destruct (covers_all c ps) eqn:C.
  - apply covers_contains in C. assert (IN : In c cells) by (eapply nth_error_In; eauto).
    destruct (CP calls c ps IN C) as (es & LE & LL).
    rewrite find_null_repeat, LE, move_if_full in R by auto.
    assert (ZZ : forall i' steps', loop f ps i' (Some c) (S calls) steps' (map Some es) (S v) = Found ret' st' v' ->
      exists c n, s_cur st' = Some c /\ In c cells /\ contains c ps /\ ret' = lookup n c ps).
    { intros i' steps' R'. destruct f; simpl in R'; rewrite null_count_some in R'; simpl in R';
        injection R' as <- <- <-; simpl; exists c, calls; auto. }
    destruct (Nat.eqb (S i) N); [|eauto].
    destruct (Nat.ltb (S steps) wsize); [eauto|discriminate].
  - destruct (Nat.eqb (S i) N); [|eauto].
    destruct (Nat.ltb (S steps) wsize); [eauto|discriminate].
Qed.

(** Termination for arbitrary per-grid searches. *)
Lemma loop_terminates : forall fuel ps i cur calls steps ret v,
  (wsize - steps) * N + N <= fuel + i -> i < N ->
  loop fuel ps i cur calls steps ret v <> OutOfFuel.
Proof.
  induction fuel as [|f IH]; intros ps i cur calls steps ret v L I; [nia|]. cbn [SearchModel.loop].
  destruct (Nat.eqb (null_count ret) 0); [discriminate|].
  destruct (nth_error cells i) as [c|]; [|discriminate].
  assert (K : forall calls' ret',
    (if Nat.eqb (S i) N
     then if Nat.ltb (S steps) wsize
          then loop f ps 0 (Some c) calls' (S steps) ret' (S v)
          else Throws {| s_it := Some (S i); s_cur := Some c; s_calls := calls' |} (S v)
     else loop f ps (S i) (Some c) calls' steps ret' (S v)) <> OutOfFuel).
  { intros calls' ret'. destruct (Nat.eqb_spec (S i) N) as [E|E].
    - destruct (Nat.ltb_spec (S steps) wsize) as [W|W]; [|discriminate].
      apply IH; [|lia].
      replace (wsize - steps) with (S (wsize - S steps)) in L by lia. simpl in L. lia.
    - apply IH; lia. }
  destruct (covers_all c ps).
  - destruct (move_if (lookup calls c ps) (find_null ret) ret); [apply K|discriminate].
  - apply K.
Qed.

Lemma search_terminates : forall st ps, search st ps <> OutOfFuel.
Proof.
  intros st ps. unfold SearchModel.search, fuel_for. fold (start st).
  destruct (le_lt_dec N (start st)) as [L|L].
  - simpl. destruct (Nat.eqb _ 0); [discriminate|].
    rewrite (proj2 (nth_error_None _ _)) by auto. discriminate.
  - apply loop_terminates; auto. nia.
Qed.

Lemma one_more : forall i, i < N -> cyc i 1 = if Nat.eqb (S i) N then 0 else S i.
Proof.
  intros i L. unfold SearchSpec.cyc. destruct (Nat.eqb_spec (S i) N) as [E|E].
  - replace (i + 1) with N by lia. apply Nat.mod_same. lia.
  - rewrite Nat.mod_small; lia.
Qed.

(** Walking over [k] cells that do not contain the points. *)
Lemma walk : forall k f ps i cur calls steps ret v,
  i < N -> null_count ret <> 0 ->
  (forall k' c', k' < k -> nth_error cells (cyc i k') = Some c' -> ~ contains c' ps) ->
  steps + (i + k) / N < wsize ->
  exists cur', loop (k + f) ps i cur calls steps ret v =
               loop f ps (cyc i k) cur' calls (steps + (i + k) / N) ret (v + k).
Proof.
  induction k as [|k IH]; intros f ps i cur calls steps ret v I NN H W.
  - exists cur. simpl. rewrite Nat.add_0_r in *. unfold SearchSpec.cyc. rewrite Nat.add_0_r.
    rewrite Nat.mod_small, Nat.div_small by lia. now rewrite !Nat.add_0_r.
  - destruct (nth_error cells i) as [c|] eqn:E.
    2:{ apply nth_error_None in E. lia. }
    assert (C : covers_all c ps = false).
    { apply covers_not. apply (H 0 c); [lia|]. unfold SearchSpec.cyc. rewrite Nat.add_0_r, Nat.mod_small; auto. }
    cbn [Nat.add SearchModel.loop].
    destruct (Nat.eqb_spec (null_count ret) 0); [congruence|]. rewrite E, C.
    assert (SH : forall i', (i' = if Nat.eqb (S i) N then 0 else S i) ->
              forall k', cyc i' k' = cyc i (S k')).
    { intros i' -> k'. rewrite <- one_more by auto. unfold SearchSpec.cyc.
      rewrite Nat.add_mod_idemp_l by lia. f_equal. lia. }
    destruct (Nat.eqb_spec (S i) N) as [EN|EN].
    + assert (D : (i + S k) / N = S (k / N)).
      { replace (i + S k) with (k + 1 * N) by lia. rewrite Nat.div_add by lia. lia. }
      destruct (Nat.ltb_spec (S steps) wsize) as [L|L]; [|exfalso; rewrite D in W; lia].
      destruct (IH f ps 0 (Some c) calls (S steps) ret (S v)) as (cur' & R); auto; try lia.
      * intros k' c' L' E'. apply (H (S k') c'); [lia|]. rewrite <- (SH 0 eq_refl). auto.
      * rewrite Nat.add_0_l. rewrite D in W. lia.
      * exists cur'. rewrite R. rewrite (SH 0 eq_refl). rewrite D, Nat.add_0_l.
        f_equal; lia.
    + destruct (IH f ps (S i) (Some c) calls steps ret (S v)) as (cur' & R); auto; try lia.
      * intros k' c' L' E'. apply (H (S k') c'); [lia|]. rewrite <- (SH (S i) eq_refl). auto.
      * replace (S i + k) with (i + S k) by lia. auto.
      * exists cur'. rewrite R. rewrite (SH (S i) eq_refl).
        replace (S i + k) with (i + S k) by lia. f_equal; lia.
Qed.

Lemma range_start : forall st, in_range st -> start st < N.
Proof.
  intros st H. unfold SearchSpec.in_range, SearchSpec.start in *. destruct (s_it st); auto.
  destruct cells; [congruence|simpl; lia].
Qed.

(** C25 *)
Lemma search_finds : complete -> 2 <= wsize -> forall st ps k c,
  ps <> [] -> in_range st ->
  first_containing cell point inside cells st ps k c ->
  exists ret st', search st ps = Found ret st' (S k) /\ s_cur st' = Some c /\
    s_it st' = Some (cyc (start st) (S k)) /\ in_range st' /\
    ret = lookup (s_calls st) c ps.
Proof.
  intros CP W st ps k c NE IR (LK & EC & CC & FI).
  pose proof (range_start st IR) as I.
  unfold SearchModel.search, fuel_for. fold (start st).
  set (i := start st) in *.
  assert (LP : 0 < length ps) by (destruct ps; [congruence|simpl; lia]).
  assert (ST : (i + k) / N <= 1).
  { assert ((i + k) / N < 2); [|lia]. apply Nat.div_lt_upper_bound; lia. }
  replace (S N * S wsize) with (k + S (S N * S wsize - S k)) by nia.
  destruct (walk k (S (S N * S wsize - S k)) ps i (s_cur st) (s_calls st) 0
              (repeat None (length ps)) 0) as (cur' & ->); auto.
  - rewrite null_count_repeat. lia.
  - simpl. lia.
  - cbn [SearchModel.loop]. rewrite null_count_repeat.
    destruct (Nat.eqb_spec (length ps) 0); [lia|]. rewrite EC.
    rewrite (proj2 (covers_contains c ps) CC).
    destruct (CP (s_calls st) c ps) as (es & LE & LL); [eapply nth_error_In; eauto|auto|].
    rewrite find_null_repeat, LE, move_if_full by auto.
    assert (FD : forall f i' steps' v', loop f ps i' (Some c) (S (s_calls st)) steps' (map Some es) v' =
      Found (map Some es) {| s_it := Some i'; s_cur := Some c; s_calls := S (s_calls st) |} v').
    { intros f i' steps' v'. destruct f; simpl; rewrite null_count_some; reflexivity. }
    assert (CI : cyc i k < N) by (apply Nat.mod_upper_bound; lia).
    assert (NX : cyc i (S k) = if Nat.eqb (S (cyc i k)) N then 0 else S (cyc i k)).
    { rewrite <- one_more by auto. unfold SearchSpec.cyc.
      rewrite Nat.add_mod_idemp_l by lia. f_equal. lia. }
    assert (CI' : cyc i (S k) < N) by (apply Nat.mod_upper_bound; lia).
    destruct (Nat.eqb_spec (S (cyc i k)) N) as [EN|EN].
    + assert (Z : (i + k) / N = 0).
      { destruct (Nat.eq_dec ((i + k) / N) 0) as [|NZ]; auto. exfalso.
        unfold SearchSpec.cyc in EN.
        pose proof (Nat.div_mod (i + k) N) as DM. nia. }
      rewrite Z. cbn [Nat.add]. destruct (Nat.ltb_spec 1 wsize); [|lia].
      rewrite FD. eexists; eexists. split; [reflexivity|].
      simpl. rewrite NX. repeat split; auto. unfold SearchSpec.in_range. simpl. lia.
    + rewrite FD. eexists; eexists. split; [reflexivity|].
      simpl. rewrite NX. repeat split; auto. unfold SearchSpec.in_range. simpl. lia.
Qed.

Lemma first_exists : forall st ps c, in_range st -> In c cells -> contains c ps ->
  exists k c', first_containing cell point inside cells st ps k c'.
Proof.
  intros st ps c IR IN CC. pose proof (range_start st IR) as I.
  set (P := fun k => match nth_error cells (cyc (start st) k) with
                     | Some c => covers_all c ps | None => false end).
  destruct (In_nth_error _ _ IN) as (j & J).
  assert (JN : j < N) by (apply nth_error_Some; congruence).
  assert (PJ : P ((j + N - start st) mod N) = true).
  { unfold P, SearchSpec.cyc. rewrite Nat.add_mod_idemp_r by lia.
    replace (start st + (j + N - start st)) with (j + 1 * N) by lia.
    rewrite Nat.mod_add by lia. rewrite Nat.mod_small by auto. rewrite J.
    now apply covers_contains. }
  destruct (least P _ PJ) as (k & LK & PK & FI).
  assert ((j + N - start st) mod N < N) by (apply Nat.mod_upper_bound; lia).
  unfold P in PK. destruct (nth_error cells (cyc (start st) k)) as [c'|] eqn:E; [|discriminate].
  exists k, c'. repeat split; auto; try lia.
  - now apply covers_contains.
  - intros k' c1 L E1. specialize (FI k' L). unfold P in FI. rewrite E1 in FI. now apply covers_not.
Qed.

(** C26 *)
Lemma search_fails : 1 <= wsize -> forall st ps,
  ps <> [] -> in_range st -> (forall c, In c cells -> ~ contains c ps) ->
  exists st', search st ps = Throws st' (wsize * N - start st) /\ s_it st' = Some N.
Proof.
  intros W st ps NE IR NC. pose proof (range_start st IR) as I.
  unfold SearchModel.search, fuel_for. fold (start st). set (i := start st) in *.
  assert (LP : 0 < length ps) by (destruct ps; [congruence|simpl; lia]).
  set (k := wsize * N - i - 1).
  assert (K : i + k = (N - 1) + (wsize - 1) * N) by (unfold k; nia).
  assert (D : (i + k) / N = wsize - 1).
  { rewrite K, Nat.div_add, Nat.div_small by lia. lia. }
  assert (C : cyc i k = N - 1).
  { unfold SearchSpec.cyc. rewrite K, Nat.mod_add, Nat.mod_small by lia. auto. }
  replace (S N * S wsize) with (k + S (S N * S wsize - S k)) by nia.
  destruct (walk k (S (S N * S wsize - S k)) ps i (s_cur st) (s_calls st) 0
              (repeat None (length ps)) 0) as (cur' & ->); auto.
  - rewrite null_count_repeat. lia.
  - intros k' c' _ E. apply NC. eapply nth_error_In; eauto.
  - lia.
  - cbn [SearchModel.loop]. rewrite null_count_repeat.
    destruct (Nat.eqb_spec (length ps) 0); [lia|]. rewrite C, D.
    destruct (nth_error cells (N - 1)) as [c|] eqn:E.
    2:{ apply nth_error_None in E. lia. }
    rewrite (proj2 (covers_not c ps)) by (apply NC; eapply nth_error_In; eauto).
    replace (S (N - 1)) with N by lia. rewrite Nat.eqb_refl.
    destruct (Nat.ltb_spec (S (0 + (wsize - 1))) wsize); [lia|].
    eexists. split; [f_equal|].
    + unfold k. nia.
    + reflexivity.
Qed.

Lemma search_after_failure : forall st ps, ps <> [] -> s_it st = Some N -> search st ps = Bad.
Proof.
  intros st ps NE E. unfold SearchModel.search, fuel_for. rewrite E. simpl.
  rewrite null_count_repeat. destruct ps as [|p ps]; [congruence|]. simpl.
  now rewrite (proj2 (nth_error_None _ _)).
Qed.

(** Positions left behind. *)
Lemma loop_position : forall fuel ps i cur calls steps ret v,
  i < N ->
  match loop fuel ps i cur calls steps ret v with
  | Found _ st' _ => exists i', s_it st' = Some i' /\ i' < N
  | Throws st' _ => s_it st' = Some N
  | _ => True
  end.
Proof.
  induction fuel as [|f IH]; intros ps i cur calls steps ret v I; cbn [SearchModel.loop];
    (destruct (Nat.eqb (null_count ret) 0); [simpl; eauto|]); auto.
  destruct (nth_error cells i) as [c|]; auto.
  assert (K : forall calls' ret', match (if Nat.eqb (S i) N
     then if Nat.ltb (S steps) wsize
          then loop f ps 0 (Some c) calls' (S steps) ret' (S v)
          else Throws {| s_it := Some (S i); s_cur := Some c; s_calls := calls' |} (S v)
     else loop f ps (S i) (Some c) calls' steps ret' (S v)) with
     | Found _ st' _ => exists i', s_it st' = Some i' /\ i' < N
     | Throws st' _ => s_it st' = Some N
     | _ => True end).
  { intros calls' ret'. destruct (Nat.eqb_spec (S i) N) as [E|E].
    - destruct (Nat.ltb (S steps) wsize); [apply IH; lia|]. simpl. now rewrite E.
    - apply IH. lia. }
  destruct (covers_all c ps).
  - destruct (move_if (lookup calls c ps) (find_null ret) ret); auto. apply K.
  - apply K.
Qed.

Lemma search_position : forall st ps, in_range st ->
  match search st ps with
  | Found _ st' _ => in_range st'
  | Throws st' _ => s_it st' = Some N
  | _ => True
  end.
Proof.
  intros st ps IR. pose proof (range_start st IR) as I.
  pose proof (loop_position (fuel_for cell cells wsize) ps (start st) (s_cur st) (s_calls st) 0
                (repeat None (length ps)) 0 I) as P.
  unfold SearchModel.search. fold (start st).
  destruct (loop _ ps (start st) _ _ 0 _ 0); auto.
  destruct P as (i' & A & B). unfold SearchSpec.in_range. now rewrite A.
Qed.

Lemma searches_range : forall qs st st', in_range st -> searches st qs = Some st' -> in_range st'.
Proof.
  induction qs as [|q qs IH]; simpl; intros st st' I R; [congruence|].
  pose proof (search_position st q I) as P. destruct (search st q); try discriminate. eauto.
Qed.

(** C27 *)
Lemma single_cell : sized cell point ent lookup -> N = 1 -> wsize = 1 -> forall st ps,
  ps <> [] -> in_range st -> exists st', search st ps = Throws st' 1.
Proof.
  intros SZ N1 W st ps NE IR. pose proof (range_start st IR) as I.
  unfold SearchModel.search, fuel_for. fold (start st).
  replace (start st) with 0 by lia.
  replace (S N * S wsize) with (S (N * S wsize + wsize)) by lia.
  cbn [SearchModel.loop]. rewrite null_count_repeat.
  destruct (Nat.eqb_spec (length ps) 0) as [Z|Z]; [destruct ps; simpl in Z; congruence|].
  destruct (nth_error cells 0) as [c|] eqn:E.
  2:{ apply nth_error_None in E. lia. }
  rewrite N1, W. cbn [Nat.eqb Nat.ltb Nat.leb].
  destruct (covers_all c ps); [|eauto].
  destruct (move_if_ok ent (lookup (s_calls st) c ps) (find_null (repeat (@None ent) (length ps))) (repeat None (length ps)))
      as (r & -> & _); [|eauto].
  rewrite SZ, find_null_repeat, repeat_length. lia.
Qed.

(** C28 *)
Lemma nonempty_nulls : forall ps : list point, ps <> [] ->
  null_count (repeat (@None ent) (length ps)) <> 0.
Proof. intros [|p ps] H; [congruence|]. rewrite null_count_repeat. discriminate. Qed.

Lemma unique_answer : forall st ps c,
  (forall c', In c' cells -> contains c' ps -> c' = c) ->
  forall ret st' v, ps <> [] -> search st ps = Found ret st' v -> s_cur st' = Some c.
Proof.
  intros st ps c U ret st' v NE R. unfold SearchModel.search in R.
  destruct (loop_sound _ _ _ _ _ _ _ _ _ _ _ (nonempty_nulls ps NE) R)
    as (c' & A & B & C). rewrite A. f_equal. auto.
Qed.

Lemma every_containing_answers : complete -> 2 <= wsize -> forall ps j c,
  ps <> [] -> nth_error cells j = Some c -> contains c ps ->
  forall d st, in_range st -> start st + d = j ->
  exists m st1 ret st2 v, searches st (repeat ps m) = Some st1 /\
    search st1 ps = Found ret st2 v /\ s_cur st2 = Some c.
Proof.
  intros CP W ps j c NE EJ CJ.
  induction d as [d IH] using lt_wf_ind. intros st IR SD.
  assert (JN : j < N) by (apply nth_error_Some; congruence).
  destruct (least (fun k => match nth_error cells (cyc (start st) k) with
                     | Some c => covers_all c ps | None => false end) d) as (k & LK & PK & FI).
  { unfold SearchSpec.cyc. rewrite SD, Nat.mod_small, EJ by auto. now apply covers_contains. }
  destruct (nth_error cells (cyc (start st) k)) as [c'|] eqn:E; [|discriminate].
  assert (FC : first_containing cell point inside cells st ps k c').
  { repeat split; auto; try lia.
    - now apply covers_contains.
    - intros k' c1 L E1. specialize (FI k' L). simpl in FI. rewrite E1 in FI. now apply covers_not. }
  destruct (search_finds CP W st ps k c' NE IR FC) as (ret & st' & R & A & B & C & _).
  destruct (Nat.eq_dec k d) as [->|ND].
  - exists 0, st, ret, st', (S d). simpl. repeat split; auto.
    assert (c' = c); [|congruence].
    unfold SearchSpec.cyc in E. rewrite SD, Nat.mod_small in E by auto. congruence.
  - destruct (IH (d - S k)) with (st := st') as (m & st1 & ret2 & st2 & v & P & Q & T); auto.
    + lia.
    + unfold SearchSpec.start at 1. rewrite B. unfold SearchSpec.cyc.
      rewrite Nat.mod_small by lia. lia.
    + exists (S m), st1, ret2, st2, v. repeat split; auto. simpl. now rewrite R.
Qed.
End Proofs.
