(** Generic list utilities.  Nothing in this file models code of the
    repository; it only supplies facts about lists used by several topics. *)
From Coq Require Import List Arith Lia Bool.
Import ListNotations.

(** [upd l i x]: replace position [i] of [l] by [x]; no effect out of range. *)
Fixpoint upd {A : Type} (l : list A) (i : nat) (x : A) : list A :=
  match l, i with
  | [], _ => []
  | _ :: t, O => x :: t
  | y :: t, S j => y :: upd t j x
  end.

Lemma upd_length : forall A (l : list A) i x, length (upd l i x) = length l.
Proof. induction l as [|y t IH]; intros [|i] x; simpl; auto. Qed.

Lemma nth_upd_eq : forall A (l : list A) i x d,
  i < length l -> nth i (upd l i x) d = x.
Proof.
  induction l as [|y t IH]; intros i x d H; simpl in *; [lia|].
  destruct i; simpl; auto. apply IH; lia.
Qed.

Lemma nth_upd_neq : forall A (l : list A) i j x d,
  i <> j -> nth j (upd l i x) d = nth j l d.
Proof.
  induction l as [|y t IH]; intros [|i] [|j] x d H; simpl; auto; try congruence.
Qed.

Lemma nth_error_upd_eq : forall A (l : list A) i x,
  i < length l -> nth_error (upd l i x) i = Some x.
Proof.
  induction l as [|y t IH]; intros i x H; simpl in *; [lia|].
  destruct i; simpl; auto. apply IH; lia.
Qed.

Lemma nth_error_upd_neq : forall A (l : list A) i j x,
  i <> j -> nth_error (upd l i x) j = nth_error l j.
Proof.
  induction l as [|y t IH]; intros [|i] [|j] x H; simpl; auto; try congruence.
Qed.

Lemma upd_out : forall A (l : list A) i x, length l <= i -> upd l i x = l.
Proof.
  induction l as [|y t IH]; intros [|i] x H; simpl in *; auto; try lia.
  f_equal; apply IH; lia.
Qed.

Lemma upd_app_r : forall A (l1 l2 : list A) i x,
  upd (l1 ++ l2) (length l1 + i) x = l1 ++ upd l2 i x.
Proof. induction l1; intros; simpl; f_equal; auto. Qed.

Lemma upd_app_l : forall A (l1 l2 : list A) i x,
  i < length l1 -> upd (l1 ++ l2) i x = upd l1 i x ++ l2.
Proof.
  induction l1; intros l2 i x H; simpl in *; [lia|].
  destruct i; simpl; auto. f_equal; apply IHl1; lia.
Qed.

Lemma map_upd : forall A B (f : A -> B) l i x,
  map f (upd l i x) = upd (map f l) i (f x).
Proof. induction l; intros [|i] x; simpl; f_equal; auto. Qed.

Lemma In_upd : forall A (l : list A) i x y,
  In y (upd l i x) -> y = x \/ In y l.
Proof.
  induction l as [|z t IH]; intros [|i] x y H; simpl in *; auto.
  - destruct H; auto.
  - destruct H as [H|H]; auto. destruct (IH _ _ _ H); auto.
Qed.

Lemma nth_error_lt : forall A (l : list A) i x,
  nth_error l i = Some x -> i < length l.
Proof. intros. apply nth_error_Some. congruence. Qed.

Lemma nth_error_val : forall A (l : list A) i x d,
  nth_error l i = Some x -> nth i l d = x.
Proof. intros. now apply nth_error_nth. Qed.

Lemma nth_error_app_r : forall A (l1 l2 : list A) i,
  nth_error (l1 ++ l2) (length l1 + i) = nth_error l2 i.
Proof.
  intros. rewrite nth_error_app2 by lia. f_equal; lia.
Qed.

Lemma nth_app_r : forall A (l1 l2 : list A) i d,
  nth (length l1 + i) (l1 ++ l2) d = nth i l2 d.
Proof. intros. rewrite app_nth2 by lia. f_equal; lia. Qed.

Lemma nth_error_ext : forall A (l1 l2 : list A),
  (forall i, nth_error l1 i = nth_error l2 i) -> l1 = l2.
Proof.
  induction l1 as [|x t IH]; intros [|y u] H; auto.
  - specialize (H 0); discriminate.
  - specialize (H 0); discriminate.
  - f_equal.
    + specialize (H 0); simpl in H; congruence.
    + apply IH. intro i. exact (H (S i)).
Qed.

Lemma firstn_app_le : forall A (l1 l2 : list A) n,
  n <= length l1 -> firstn n (l1 ++ l2) = firstn n l1.
Proof.
  intros. rewrite firstn_app.
  replace (n - length l1) with 0 by lia. simpl. apply app_nil_r.
Qed.

Lemma upd_split : forall A (l : list A) i x,
  i < length l -> upd l i x = firstn i l ++ x :: skipn (S i) l.
Proof.
  induction l as [|y t IH]; intros i x H; simpl in *; [lia|].
  destruct i; simpl; auto. f_equal. apply IH; lia.
Qed.

Lemma firstn_S_nth_error : forall A (l : list A) n x,
  nth_error l n = Some x -> firstn (S n) l = firstn n l ++ [x].
Proof.
  induction l as [|y t IH]; intros [|n] x H; simpl in *; try discriminate.
  - inversion H; auto.
  - f_equal. now apply IH.
Qed.

(** Association lists with natural number keys. *)
Fixpoint assoc {B : Type} (k : nat) (l : list (nat * B)) : option B :=
  match l with
  | [] => None
  | (k', v) :: t => if Nat.eqb k k' then Some v else assoc k t
  end.

Lemma assoc_In : forall B (l : list (nat * B)) k v,
  assoc k l = Some v -> In (k, v) l.
Proof.
  induction l as [|[k' v'] t IH]; simpl; intros k v H; [discriminate|].
  destruct (Nat.eqb_spec k k'); auto. left; congruence.
Qed.

Lemma assoc_None : forall B (l : list (nat * B)) k,
  assoc k l = None <-> ~ In k (map fst l).
Proof.
  induction l as [|[k' v'] t IH]; simpl; intros k; split; intros H; auto.
  - destruct (Nat.eqb_spec k k'); [discriminate|].
    intros [E|E]; [congruence|]. now apply IH in E.
  - destruct (Nat.eqb_spec k k') as [E|E]; [exfalso; apply H; auto|].
    apply IH. intros C; apply H; auto.
Qed.

Lemma In_assoc : forall B (l : list (nat * B)) k v,
  NoDup (map fst l) -> In (k, v) l -> assoc k l = Some v.
Proof.
  induction l as [|[k' v'] t IH]; simpl; intros k v ND H; [tauto|].
  inversion ND; subst.
  destruct H as [H|H].
  - inversion H; subst. now rewrite Nat.eqb_refl.
  - destruct (Nat.eqb_spec k k') as [E|E].
    + subst. exfalso. apply H2. change k' with (fst (k', v)).
      now apply in_map.
    + now apply IH.
Qed.

Lemma skipn_skipn : forall A n m (l : list A), skipn n (skipn m l) = skipn (n + m) l.
Proof.
  induction m as [|m IH]; intros l.
  - now rewrite Nat.add_0_r.
  - rewrite Nat.add_succ_r. destruct l as [|x t].
    + now rewrite !skipn_nil.
    + simpl. apply IH.
Qed.

Lemma nth_error_snoc : forall A (l : list A) x, nth_error (l ++ [x]) (length l) = Some x.
Proof. intros. rewrite nth_error_app2 by lia. now rewrite Nat.sub_diag. Qed.
