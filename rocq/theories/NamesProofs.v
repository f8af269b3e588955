(** Proofs for C11, C12. *)
From Coq Require Import List Arith NArith Lia Bool Ascii String.
From Verif Require Import NamesModel NamesSpec.
Import ListNotations.

Lemma digit_code : forall d, (d < 10)%N -> N_of_ascii (digit d) = (48 + d)%N.
Proof. intros. unfold digit. apply N_ascii_embedding. lia. Qed.

Lemma digit_is : forall d, (d < 10)%N -> is_digit (digit d) = true.
Proof.
  intros. unfold is_digit. rewrite digit_code by auto.
  apply andb_true_intro; split; apply N.leb_le; lia.
Qed.

Lemma digit_value : forall d, (d < 10)%N -> digit_val (digit d) = d.
Proof. intros. unfold digit_val. rewrite digit_code by auto. lia. Qed.

Lemma is_digit_iff : forall c, is_digit c = true <-> exists d, (d < 10)%N /\ c = digit d.
Proof.
  intros c. unfold is_digit. split.
  - intros H. apply andb_prop in H. destruct H as (A & B).
    apply N.leb_le in A, B. exists (N_of_ascii c - 48)%N. split; [lia|].
    unfold digit. replace (48 + (N_of_ascii c - 48))%N with (N_of_ascii c) by lia.
    symmetry. apply ascii_N_embedding.
  - intros (d & L & ->). now apply digit_is.
Qed.

Lemma digit_not : forall c d, is_digit c = false -> (d < 10)%N -> c <> digit d.
Proof. intros c d H L ->. rewrite digit_is in H; auto; discriminate. Qed.

Lemma decimal_digit : forall d, (d < 10)%N -> decimal d = digit d.
Proof.
  intros d L.
  assert (H : In d [0; 1; 2; 3; 4; 5; 6; 7; 8; 9]%N) by (simpl; lia).
  simpl in H. repeat (destruct H as [<-|H]; [reflexivity|]). destruct H.
Qed.

Lemma is_space_white : forall c, is_space c = true <-> white c.
Proof.
  intros c. unfold is_space. split.
  - intros H. rewrite <- (ascii_N_embedding c). set (n := N_of_ascii c) in *. clearbody n.
    assert (X : n = 32%N \/ n = 9%N \/ n = 10%N \/ n = 11%N \/ n = 12%N \/ n = 13%N).
    { apply orb_prop in H. destruct H as [H|H]; [apply N.eqb_eq in H; lia|].
      apply andb_prop in H. destruct H as (A & B). apply N.leb_le in A, B. lia. }
    unfold white. simpl. repeat (destruct X as [->|X]; [tauto|]). subst n. tauto.
  - intros H. unfold white in H. simpl in H.
    repeat (destruct H as [<-|H]; [reflexivity|]). destruct H.
Qed.

Lemma white_space : forall ws, Forall white ws <-> Forall (fun c => is_space c = true) ws.
Proof. intros ws. split; apply Forall_impl; intros c H; now apply is_space_white. Qed.

Lemma numeral_digits : forall ds v, numeral ds v ->
  ds <> [] /\ Forall (fun c => is_digit c = true) ds /\ digits_val ds = v.
Proof.
  induction 1 as [d L|ds v d N IH L]; rewrite decimal_digit by auto.
  - split; [discriminate|]. split; [constructor; auto using digit_is|].
    unfold digits_val. simpl. now apply digit_value.
  - destruct IH as (A & B & C). split; [destruct ds; discriminate|].
    split; [apply Forall_app; split; auto; constructor; auto using digit_is|].
    unfold digits_val in *. rewrite fold_left_app, C. cbn [fold_left].
    rewrite digit_value by auto. rewrite N.mul_comm. reflexivity.
Qed.

Lemma digits_numeral : forall ds, ds <> [] -> Forall (fun c => is_digit c = true) ds ->
  numeral ds (digits_val ds).
Proof.
  induction ds as [|c ds IH] using rev_ind; intros NE F; [congruence|].
  apply Forall_app in F. destruct F as (F & G). inversion G as [|? ? D _]; subst.
  apply is_digit_iff in D. destruct D as (d & L & ->).
  unfold digits_val. rewrite fold_left_app. cbn [fold_left].
  rewrite digit_value by auto. rewrite <- decimal_digit by auto.
  destruct ds as [|a ds].
  - simpl. now constructor.
  - change (fold_left (fun (a0 : N) (c : ascii) => (a0 * 10 + digit_val c)%N) (a :: ds) 0%N)
      with (digits_val (a :: ds)).
    rewrite N.mul_comm. apply num_more; auto. apply IH; auto. discriminate.
Qed.

Lemma digits_prefix_app : forall ds rest,
  Forall (fun c => is_digit c = true) ds ->
  (rest = [] \/ exists c r, rest = c :: r /\ is_digit c = false) ->
  digits_prefix (ds ++ rest) = ds.
Proof.
  induction 1 as [|c ds D F IH]; simpl; intros R.
  - destruct R as [->|(c & r & -> & E)]; simpl; auto. now rewrite E.
  - rewrite D. f_equal. auto.
Qed.

Lemma digits_prefix_split : forall s, exists rest,
  s = digits_prefix s ++ rest /\ Forall (fun c => is_digit c = true) (digits_prefix s) /\
  (rest = [] \/ exists c r, rest = c :: r /\ is_digit c = false).
Proof.
  induction s as [|c s IH]; simpl.
  - exists []. auto.
  - destruct (is_digit c) eqn:D.
    + destruct IH as (rest & E & F & R). exists rest. repeat split; auto.
      simpl. now rewrite <- E.
    + exists (c :: s). repeat split; auto. right. eauto.
Qed.

Lemma skip_space_split : forall s, exists ws,
  s = ws ++ skip_space s /\ Forall (fun c => is_space c = true) ws /\
  forall c r, skip_space s = c :: r -> is_space c = false.
Proof.
  induction s as [|c s IH]; simpl.
  - exists []. repeat split; auto. discriminate.
  - destruct (is_space c) eqn:D.
    + destruct IH as (ws & E & F & R). exists (c :: ws). repeat split; auto.
      simpl. now rewrite <- E.
    + exists []. repeat split; auto. intros c' r E. injection E as <- <-. auto.
Qed.

Lemma skip_space_app : forall ws s, Forall (fun c => is_space c = true) ws ->
  (forall c r, s = c :: r -> is_space c = false) -> skip_space (ws ++ s) = s.
Proof.
  induction 1 as [|c ws D F IH]; simpl; intros H.
  - destruct s as [|c r]; simpl; auto. now rewrite (H c r).
  - rewrite D. auto.
Qed.

Lemma digit_no_space : forall c, is_digit c = true -> is_space c = false.
Proof.
  intros c H. apply is_digit_iff in H. destruct H as (d & L & ->).
  unfold is_space. rewrite digit_code by auto.
  apply orb_false_intro; [apply N.eqb_neq; lia|].
  apply andb_false_intro2. apply N.leb_gt. lia.
Qed.

Lemma digit_no_sign : forall c, is_digit c = true ->
  Ascii.eqb c "-" = false /\ Ascii.eqb c "+" = false.
Proof.
  intros c H. split; apply Ascii.eqb_neq; intros ->; discriminate.
Qed.

(** The conversion finds exactly the leading numeral. *)
Lemma stoul_number : forall t neg v, starts_with_number t neg v ->
  stoul t = if (v <? size_t_max)%N
            then Value (if neg then (size_t_max - v) mod size_t_max else v)%N
            else OutOfRange.
Proof.
  intros t neg v (ws & sign & ds & rest & -> & W & S & N & R).
  apply white_space in W. destruct (numeral_digits _ _ N) as (NE & DS & V).
  assert (P : digits_prefix (ds ++ rest) = ds).
  { apply digits_prefix_app; auto. destruct R as [->|(c & r & -> & Q)]; auto.
    right. exists c, r. split; auto. destruct (is_digit c) eqn:E; auto.
    apply is_digit_iff in E. destruct E as (d & L & ->). elim (Q d L). now rewrite decimal_digit. }
  assert (HD : forall c r, ds ++ rest = c :: r -> is_digit c = true).
  { intros c r E. destruct ds as [|c' ds]; [congruence|]. injection E as <- _.
    now inversion DS. }
  unfold stoul.
  rewrite skip_space_app; auto.
  - destruct S as [(-> & ->)|(-> & [->| ->])].
    + cbn [app Ascii.eqb Bool.eqb]. cbn. rewrite P. destruct ds; [congruence|]. rewrite <- V. reflexivity.
    + cbn [app]. destruct (ds ++ rest) as [|c r] eqn:E; [destruct ds; [congruence|discriminate]|].
      destruct (digit_no_sign c (HD c r eq_refl)) as (-> & ->).
      rewrite P. destruct ds; [congruence|]. rewrite <- V. reflexivity.
    + cbn. rewrite P. destruct ds; [congruence|]. rewrite <- V. reflexivity.
  - intros c r. destruct S as [(_ & ->)|(_ & [->| ->])]; cbn [app]; intros E.
    + injection E as <- _. reflexivity.
    + apply digit_no_space. eauto.
    + injection E as <- _. reflexivity.
Qed.

Lemma stoul_invalid : forall t,
  stoul t = Invalid <-> ~ exists neg v, starts_with_number t neg v.
Proof.
  intros t. split.
  - intros E (neg & v & S). rewrite (stoul_number _ _ _ S) in E.
    destruct (v <? size_t_max)%N; discriminate.
  - intros NS. destruct (skip_space_split t) as (ws & E & W & _).
    unfold stoul.
    assert (K : forall neg sign s2, skip_space t = sign ++ s2 ->
      (neg = true /\ sign = ["-"%char] \/ neg = false /\ (sign = [] \/ sign = ["+"%char])) ->
      digits_prefix s2 = []).
    { intros neg sign s2 E2 S. destruct (digits_prefix s2) as [|c ds] eqn:P; auto. exfalso.
      destruct (digits_prefix_split s2) as (rest & E3 & F & R). rewrite P in *.
      apply NS. exists neg, (digits_val (c :: ds)), ws, sign, (c :: ds), rest.
      repeat split; auto.
      - rewrite E, E2, E3. reflexivity.
      - now apply white_space.
      - apply digits_numeral; auto. discriminate.
      - destruct R as [->|(c' & r & -> & Q)]; auto. right. exists c', r. split; auto.
        intros d L. rewrite decimal_digit by auto. now apply digit_not. }
    destruct (skip_space t) as [|c r] eqn:E2; [reflexivity|].
    destruct (Ascii.eqb_spec c "-") as [->|]; [|destruct (Ascii.eqb_spec c "+") as [->|]].
    + rewrite (K true ["-"%char] r); auto.
    + rewrite (K false ["+"%char] r); auto.
    + rewrite (K false [] (c :: r)); auto.
Qed.

(** tokenize *)
Lemma tokenize_nonempty : forall sep s, tokenize sep s <> [].
Proof.
  destruct s as [|c s]; simpl; [discriminate|].
  destruct (Ascii.eqb c sep); [discriminate|]. destruct (tokenize sep s); discriminate.
Qed.

Lemma tokenize_none : forall sep s, ~ In sep s -> tokenize sep s = [s].
Proof.
  induction s as [|c s IH]; simpl; intros H; auto.
  destruct (Ascii.eqb_spec c sep) as [->|]; [tauto|]. rewrite IH by tauto. auto.
Qed.

Lemma tokenize_app : forall sep p s,
  tokenize sep (p ++ sep :: s) = tokenize sep p ++ tokenize sep s.
Proof.
  induction p as [|c p IH]; simpl; intros s.
  - rewrite Ascii.eqb_refl. auto.
  - destruct (Ascii.eqb c sep); [rewrite IH; auto|].
    rewrite IH. destruct (tokenize sep p) as [|a l] eqn:E; [|reflexivity].
    elim (tokenize_nonempty sep p E).
Qed.

Lemma last_app_ne : forall A (l1 l2 : list A) d, l2 <> [] -> last (l1 ++ l2) d = last l2 d.
Proof.
  induction l1 as [|a l1 IH]; simpl; intros l2 d NE; auto.
  destruct (l1 ++ l2) eqn:E; [apply app_eq_nil in E; destruct E; congruence|].
  rewrite <- E. auto.
Qed.

Lemma last_token : forall s t, after_last_underscore s t ->
  last (tokenize "_" s) [] = t.
Proof.
  intros s t (N & [->|(p & ->)]).
  - rewrite tokenize_none; auto.
  - rewrite tokenize_app, last_app_ne by apply tokenize_nonempty.
    rewrite tokenize_none; auto.
Qed.

Lemma after_last_exists : forall s, exists t, after_last_underscore s t.
Proof.
  induction s as [|c s (t & N & H)].
  - exists []. split; auto.
  - destruct H as [->|(p & ->)].
    + destruct (Ascii.eqb_spec c "_") as [->|NE].
      * exists t. split; auto. right. exists []. auto.
      * exists (c :: t). split; [intros [E|E]; auto|auto].
    + exists t. split; auto. right. exists (c :: p). auto.
Qed.

(** printing *)
Lemma print_numeral : forall fuel n, (n < 2 ^ N.of_nat fuel)%N -> fuel <> O ->
  numeral (print_fuel fuel n) n.
Proof.
  induction fuel as [|f IH]; intros n L NZ; [congruence|].
  cbn [print_fuel]. destruct (N.ltb_spec n 10) as [C|C]; [rewrite <- decimal_digit by auto; now constructor|].
  rewrite (N.div_mod n 10) at 3 by lia.
  rewrite <- decimal_digit by (apply N.mod_lt; lia).
  apply num_more; [|apply N.mod_lt; lia].
  rewrite Nat2N.inj_succ, N.pow_succ_r' in L.
  apply IH.
  - apply N.div_lt_upper_bound; lia.
  - intros ->. simpl in L. lia.
Qed.

Lemma print_N_numeral : forall n, numeral (print_N n) n.
Proof.
  intros n. unfold print_N. apply print_numeral; [|discriminate].
  rewrite Nat2N.inj_succ, N.pow_succ_r'.
  assert (n < 2 ^ N.of_nat (N.size_nat n))%N; [|lia].
  replace (N.of_nat (N.size_nat n)) with (N.size n).
  - apply N.size_gt.
  - destruct n; simpl; auto. induction p; simpl in *; lia.
Qed.

Lemma numeral_no_underscore : forall ds v, numeral ds v -> ~ In "_"%char ds.
Proof.
  intros ds v N. destruct (numeral_digits _ _ N) as (_ & F & _). intros I.
  rewrite Forall_forall in F. specialize (F _ I). discriminate.
Qed.

Lemma numeral_number : forall ds v, numeral ds v -> starts_with_number ds false v.
Proof.
  intros ds v N. exists [], [], ds, []. repeat split; auto. now rewrite app_nil_r.
Qed.

Lemma name_token : forall i, after_last_underscore (storage_name i) (print_N i).
Proof.
  intros i. split; [eapply numeral_no_underscore, print_N_numeral|].
  right. unfold storage_name, prefix.
  exists (list_ascii_of_string "local_problems/_localProblemSolutions"). reflexivity.
Qed.

Lemma key_of_name : forall i, (i < size_t_max)%N -> memory_key (storage_name i) = Value i.
Proof.
  intros i L. unfold memory_key. rewrite (last_token _ _ (name_token i)).
  rewrite (stoul_number _ false i); [|apply numeral_number, print_N_numeral].
  apply N.ltb_lt in L. now rewrite L.
Qed.

Lemma numeral_value : forall ds v v', numeral ds v -> numeral ds v' -> v = v'.
Proof. intros ds v v' A B. apply numeral_digits in A, B. destruct A as (_ & _ & <-), B; tauto. Qed.

Lemma name_injective : forall i j, storage_name i = storage_name j -> i = j.
Proof.
  intros i j E. unfold storage_name in E. apply app_inv_head in E.
  eapply numeral_value; [apply print_N_numeral|]. rewrite E. apply print_N_numeral.
Qed.
