(** Proofs for C87. *)
From Coq Require Import List Arith NArith Lia Bool Ascii String.
From Verif Require Import NamesModel NamesSpec NamesProofs FilesModel FilesSpec.
Import ListNotations.

Lemma padded_digits : forall w n, Forall (fun c => is_digit c = true) (padded w n).
Proof.
  intros w n. unfold padded. apply Forall_app. split.
  - apply Forall_forall. intros c I. apply repeat_spec in I. subst c. reflexivity.
  - apply (numeral_digits _ _ (print_N_numeral n)).
Qed.

Lemma zeros_val : forall k ds, digits_val (repeat (digit 0) k ++ ds) = digits_val ds.
Proof.
  intros k ds. unfold digits_val. rewrite fold_left_app. f_equal.
  induction k as [|k IH]; simpl; auto.
Qed.

Lemma padded_val : forall w n, digits_val (padded w n) = n.
Proof.
  intros w n. unfold padded. rewrite zeros_val. apply (numeral_digits _ _ (print_N_numeral n)).
Qed.

Lemma padded_injective : forall w n m, padded w n = padded w m -> n = m.
Proof. intros w n m E. rewrite <- (padded_val w n), <- (padded_val w m). now rewrite E. Qed.

Lemma digits_split : forall a b x y c,
  Forall (fun c => is_digit c = true) a -> Forall (fun c => is_digit c = true) b ->
  is_digit c = false -> a ++ c :: x = b ++ c :: y -> a = b /\ x = y.
Proof.
  induction a as [|p a IH]; intros b x y c A B C E.
  - destruct b as [|q b]; simpl in E; [injection E as ->; auto|].
    injection E as -> _. inversion B; subst. congruence.
  - destruct b as [|q b]; simpl in E.
    + injection E as -> _. inversion A; subst. congruence.
    + injection E as -> E. inversion A; subst. inversion B; subst.
      destruct (IH b x y c) as (-> & ->); auto.
Qed.

Lemma join_injective : forall d x y, path_join d x = path_join d y -> x = y.
Proof.
  intros d x y E. unfold path_join in E. destruct d as [|c r]; auto.
  destruct (Ascii.eqb _ _); apply app_inv_head in E; auto. now injection E.
Qed.

Lemma part_injective : forall d r i r' i', part_file d r i = part_file d r' i' -> r = r' /\ i = i'.
Proof.
  intros d r i r' i' E. unfold part_file in E. apply join_injective in E.
  change (str "_msfemsolution_parts_") with ("_"%char :: str "msfemsolution_parts_") in E.
  apply app_inv_head in E. rewrite <- !app_comm_cons in E.
  apply digits_split in E; auto using padded_digits. destruct E as (A & B).
  apply app_inv_head in B. split; eapply padded_injective; eauto.
Qed.

Lemma correction_injective : forall d r i r' i',
  correction_file d r i = correction_file d r' i' -> r = r' /\ i = i'.
Proof.
  intros d r i r' i' E. unfold correction_file in E. apply app_inv_head in E. apply app_inv_head in E.
  rewrite <- !app_assoc in E. apply app_inv_head in E.
  change (str "_correction_") with ("_"%char :: str "correction_") in E.
  rewrite <- !app_comm_cons in E. apply digits_split in E; auto using padded_digits.
  destruct E as (A & B). apply app_inv_head in B.
  change (str "_") with ["_"%char] in B. cbn [app] in B.
  apply digits_split in B; auto using padded_digits. destruct B as (B & _).
  split; eapply padded_injective; eauto.
Qed.

Lemma families_differ : forall d r i r' i', part_file d r i <> correction_file d r' i'.
Proof.
  intros d r i r' i' E. unfold part_file, correction_file, path_join in E. destruct d as [|c s].
  - discriminate.
  - destruct (Ascii.eqb _ _); apply app_inv_head in E; discriminate.
Qed.

(** Width of padded numbers. *)
Lemma print_len : forall fuel n w, (n < 10 ^ N.of_nat w)%N -> w <> 0 -> List.length (print_fuel fuel n) <= w.
Proof.
  induction fuel as [|f IH]; intros n w L Z; cbn [print_fuel]; [simpl; lia|].
  destruct (N.ltb_spec n 10); [simpl; lia|]. rewrite app_length. simpl.
  destruct w as [|w]; [lia|]. destruct w as [|w].
  - exfalso. change (10 ^ N.of_nat 1)%N with 10%N in L. lia.
  - assert (List.length (print_fuel f (n / 10)) <= S w); [|lia]. apply IH; [|lia].
    rewrite Nat2N.inj_succ, N.pow_succ_r' in L. apply N.div_lt_upper_bound; lia.
Qed.
Lemma padded_len : forall w n, (n < 10 ^ N.of_nat w)%N -> w <> 0 -> List.length (padded w n) = w.
Proof.
  intros w n L Z. unfold padded. rewrite app_length, repeat_length.
  pose proof (print_len (S (N.size_nat n)) n w L Z). unfold print_N in *. lia.
Qed.
Lemma padded_min : forall w n, w <= List.length (padded w n).
Proof. intros w n. unfold padded. rewrite app_length, repeat_length. lia. Qed.
Lemma padded_numeral : forall w n, numeral (padded w n) n.
Proof.
  intros w n. rewrite <- (padded_val w n) at 2. apply digits_numeral; [|apply padded_digits].
  unfold padded. destruct (numeral_digits _ _ (print_N_numeral n)) as (NE & _). intros E. apply app_eq_nil in E. tauto.
Qed.

(** Order. *)
Lemma before_prefix : forall p a b, listed_before (p ++ a) (p ++ b) <-> listed_before a b.
Proof.
  induction p as [|c p IH]; intros a b; [reflexivity|]. cbn [app]. rewrite <- (IH a b). split; intros H.
  - inversion H; subst; auto. lia.
  - now constructor.
Qed.
Lemma val_cons : forall c ds, digits_val (c :: ds) = (digit_val c * 10 ^ N.of_nat (List.length ds) + digits_val ds)%N.
Proof.
  intros c ds. unfold digits_val. cbn [fold_left].
  assert (K : forall ds a, fold_left (fun a c => (a * 10 + digit_val c)%N) ds a =
    (a * 10 ^ N.of_nat (List.length ds) + fold_left (fun a c => (a * 10 + digit_val c)%N) ds 0)%N).
  { clear. induction ds as [|d ds IH]; intros a; cbn [fold_left List.length].
    - simpl. lia.
    - rewrite IH, (IH (0 * 10 + digit_val d)%N). rewrite Nat2N.inj_succ, N.pow_succ_r'. lia. }
  rewrite K. rewrite N.mul_0_l, N.add_0_l. reflexivity.
Qed.
Lemma val_bound : forall ds, Forall (fun c => is_digit c = true) ds -> (digits_val ds < 10 ^ N.of_nat (List.length ds))%N.
Proof.
  induction 1 as [|c ds D F IH]; [reflexivity|]. rewrite val_cons. cbn [List.length].
  rewrite Nat2N.inj_succ, N.pow_succ_r'. apply is_digit_iff in D. destruct D as (d & L & ->). rewrite digit_value by auto. nia.
Qed.
Lemma digits_order : forall a b x y,
  Forall (fun c => is_digit c = true) a -> Forall (fun c => is_digit c = true) b -> List.length a = List.length b ->
  (listed_before (a ++ x) (b ++ y) <->
   (digits_val a < digits_val b)%N \/ a = b /\ listed_before x y).
Proof.
  induction a as [|c a IH]; intros [|e b] x y A B L; try discriminate.
  - simpl. split; [auto|]. intros [H|H]; [|tauto]. unfold digits_val in H. simpl in H. lia.
  - injection L as L. inversion A as [|? ? DA FA]; subst. inversion B as [|? ? DB FB]; subst.
    rewrite !val_cons, L. pose proof (val_bound a FA) as VA. pose proof (val_bound b FB) as VB. rewrite L in VA.
    set (k := (10 ^ N.of_nat (List.length b))%N) in *.
    apply is_digit_iff in DA, DB. destruct DA as (d & Ld & ->), DB as (f & Lf & ->). rewrite !digit_value by auto.
    cbn [app]. split.
    + intros H. inversion H as [| ? ? ? ? Q | ? ? ? Q]; subst.
      * rewrite !digit_code in Q by auto. left. nia.
      * assert (d = f). { rewrite <- (digit_value d), <- (digit_value f) by auto. congruence. } subst f.
        apply IH in Q; auto. destruct Q as [Q|(-> & Q)]; [left; lia|right; auto].
    + intros [H|(E & H)].
      * destruct (N.lt_trichotomy d f) as [Q|[->|Q]].
        -- apply lb_char. rewrite !digit_code by auto. lia.
        -- apply lb_same. apply IH; auto. left. lia.
        -- exfalso. nia.
      * injection E as E1 ->. rewrite E1. apply lb_same. apply IH; auto.
Qed.
Lemma padded_order : forall w n m x y, w <> 0 -> (n < 10 ^ N.of_nat w)%N -> (m < 10 ^ N.of_nat w)%N ->
  (listed_before (padded w n ++ x) (padded w m ++ y) <-> (n < m)%N \/ n = m /\ listed_before x y).
Proof.
  intros w n m x y Z L M. rewrite digits_order by (auto using padded_digits; rewrite !padded_len; auto).
  rewrite !padded_val. split; (intros [H|(E & H)]; [auto|right; split; auto]).
  - eapply padded_injective; eauto.
  - now subst.
Qed.
Lemma part_order : forall d r i r' i',
  (r < 10 ^ 4)%N -> (r' < 10 ^ 4)%N -> (i < 10 ^ 8)%N -> (i' < 10 ^ 8)%N ->
  (listed_before (part_file d r i) (part_file d r' i') <-> (r < r')%N \/ r = r' /\ (i < i')%N).
Proof.
  intros d r i r' i' R R' I I'. unfold part_file.
  assert (J : forall x y, listed_before (path_join d x) (path_join d y) <-> listed_before x y).
  { intros x y. unfold path_join. destruct d as [|c e]; [reflexivity|].
    destruct (Ascii.eqb _ _); rewrite before_prefix; [reflexivity|].
    apply (before_prefix [slash]). }
  rewrite J, before_prefix. rewrite (padded_order 4) by (auto; discriminate).
  rewrite before_prefix. rewrite <- (app_nil_r (padded 8 i)), <- (app_nil_r (padded 8 i')).
  rewrite (padded_order 8) by (auto; discriminate).
  assert (~ listed_before [] []) by (intros X; inversion X). tauto.
Qed.
Lemma correction_order : forall d r i r' i',
  (r < 10 ^ 4)%N -> (r' < 10 ^ 4)%N -> (i < 10 ^ 3)%N -> (i' < 10 ^ 3)%N ->
  (listed_before (correction_file d r i) (correction_file d r' i') <-> (r < r')%N \/ r = r' /\ (i < i')%N).
Proof.
  intros d r i r' i' R R' I I'. unfold correction_file.
  rewrite before_prefix, before_prefix. rewrite <- !app_assoc. rewrite before_prefix.
  rewrite (padded_order 4) by (auto; discriminate). rewrite before_prefix.
  rewrite (padded_order 3) by (auto; discriminate).
  assert (X : forall t, ~ listed_before t t). { induction t; intros X; inversion X; subst; auto. lia. }
  pose proof (X (str "_" ++ str "_" ++ str "correction")). tauto.
Qed.
Lemma digits_no_slash : forall ds, Forall (fun c => is_digit c = true) ds -> ~ In "/"%char ds.
Proof. intros ds F I. rewrite Forall_forall in F. specialize (F _ I). discriminate. Qed.
Lemma join_in : forall d b, ~ In "/"%char b -> file_in d b (path_join d b).
Proof.
  intros d b N. split; auto. unfold path_join. destruct d as [|c r].
  - split; [left; reflexivity|congruence].
  - destruct (Ascii.eqb_spec (last (c :: r) "a"%char) slash) as [E|E].
    + split; [left; reflexivity|]. intros _. exists (removelast (c :: r)).
      transitivity ((removelast (c :: r) ++ [last (c :: r) "a"%char]) ++ b).
      * f_equal. apply app_removelast_last. discriminate.
      * rewrite E, <- app_assoc. reflexivity.
    + split; [right; reflexivity|]. intros _. exists (c :: r). reflexivity.
Qed.
