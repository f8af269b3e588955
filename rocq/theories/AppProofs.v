(** Proofs for C62-C65, C74. *)
From Coq Require Import ZArith String Ascii List Arith Bool Lia.
From Verif Require Import Util AppModel AppSpec.
Import ListNotations.
Open Scope string_scope.
Open Scope list_scope.

Lemma known_keys : forall name, existsb (String.eqb name) map_keys = true <-> known name.
Proof.
  intros name. unfold known. rewrite existsb_exists. split.
  - intros (k & I & E). apply String.eqb_eq in E. subst k. simpl in I. intuition auto.
  - intros H. exists name. split; [|apply String.eqb_refl]. simpl. intuition auto.
Qed.

Lemma selected_name : forall c name, selected c name -> problem_name c = name.
Proof. intros c name [->|(-> & ->)]; reflexivity. Qed.

Section C.
Variable ctor_throws : object -> bool.
Variable init_throws : string -> bool.

Lemma container_unknown : forall c, ~ known (problem_name c) ->
  container ctor_throws init_throws c = ([], InvalidState).
Proof.
  intros c H. unfold container, member_order, members, make_f, find_entry.
  destruct (existsb (String.eqb (problem_name c)) map_keys) eqn:E; [|reflexivity].
  apply known_keys in E. contradiction.
Qed.

Lemma make_f_known : forall k name, known name ->
  make_f ctor_throws k name = ([Constructing (name, k)], if ctor_throws (name, k) then Thrown (name, k) else Done (name, k)).
Proof. intros k name K. unfold make_f, find_entry. apply known_keys in K. now rewrite K. Qed.

Lemma deleted_map : forall l, deleted (map Deleted l) = l.
Proof. induction l; simpl; auto. now rewrite IHl. Qed.
Lemma constructed_map : forall l, constructed (map Deleted l) = [].
Proof. induction l; simpl; auto. Qed.

(** Members: either all, or the first throwing one ends the construction and
    exactly the members made before are deleted. *)
Lemma members_spec : forall name, known name -> forall ks made,
  match members ctor_throws ks name made with
  | (ev, Done os) => os = rev made ++ map (fun k => (name, k)) ks /\ ev = map (fun k => Constructing (name, k)) ks /\
      forall k, In k ks -> ctor_throws (name, k) = false
  | (ev, Thrown o) => exists a k b, ks = a ++ k :: b /\ o = (name, k) /\ ctor_throws o = true /\
      (forall j, In j a -> ctor_throws (name, j) = false) /\
      constructed ev = map (fun j => (name, j)) (a ++ [k]) /\ deleted ev = rev (map (fun j => (name, j)) a) ++ made
  | (ev, InvalidState) => False
  | (ev, InitThrown) => False
  end.
Proof.
  intros name K ks. induction ks as [|k ks IH]; intros made; cbn [members].
  - simpl. rewrite app_nil_r. split; auto. split; auto. intros k [].
  - rewrite (make_f_known k name K). destruct (ctor_throws (name, k)) eqn:T.
    + exists [], k, ks. cbn [app map constructed deleted rev].
      rewrite constructed_map, deleted_map. split; auto. split; auto. split; auto. split; [intros j []|auto].
    + specialize (IH (@cons object (name, k) made)). destruct (members ctor_throws ks name (@cons object (name, k) made)) as (ev, [os| |o|]); cbn beta iota in IH |- *; auto.
      * destruct IH as (E1 & E2 & H). subst os ev. split; [simpl; rewrite <- app_assoc; reflexivity|]. split; [reflexivity|].
        intros j [<-|I]; auto.
      * destruct IH as (a & j & b & E1 & E2 & TT & H & C & D). subst ks o. exists (k :: a), j, b. split; auto. split; auto. split; auto.
        split; [intros i [<-|I]; auto|]. cbn [constructed deleted app map rev]. rewrite C, D. split; auto.
        rewrite <- app_assoc. reflexivity.
Qed.
End C.

(** ** Strings. *)
Lemma chars_app : forall a b, chars (a ++ b)%string = chars a ++ chars b.
Proof. induction a as [|c a IH]; intros b; simpl; auto. now rewrite IH. Qed.
Lemma chars_inj : forall a b, chars a = chars b -> a = b.
Proof. induction a as [|c a IH]; destruct b as [|d b]; simpl; intros H; try discriminate; auto. injection H as -> H. f_equal. auto. Qed.
Lemma app_string_inj_l : forall a b c : string, (a ++ b)%string = (a ++ c)%string -> b = c.
Proof. induction a as [|x a IH]; simpl; intros b c H; auto. injection H as H. auto. Qed.

(** Splitting at the first occurrence of a character is unique. *)
Lemma split_first : forall (c : ascii) a b a' b', ~ In c a -> ~ In c a' -> a ++ c :: b = a' ++ c :: b' -> a = a' /\ b = b'.
Proof.
  intros c. induction a as [|x a IH]; intros b a' b' N N' E; destruct a' as [|y a']; simpl in *.
  - injection E as ->. auto.
  - injection E as -> E. exfalso. apply N'. auto.
  - injection E as -> E. exfalso. apply N. auto.
  - injection E as -> E. destruct (IH b a' b') as (-> & ->); auto.
Qed.
(** ... and at the last. *)
Lemma split_last : forall (c : ascii) a b a' b', ~ In c b -> ~ In c b' -> a ++ c :: b = a' ++ c :: b' -> a = a' /\ b = b'.
Proof.
  intros c a b a' b' N N' E. apply (f_equal (@rev ascii)) in E. rewrite !rev_app_distr in E. simpl in E. rewrite <- !app_assoc in E. simpl in E.
  destruct (split_first c (rev b) (rev a) (rev b') (rev a')) as (EB & EA); auto.
  - intros I. apply N. now apply in_rev.
  - intros I. apply N'. now apply in_rev.
  - apply (f_equal (@rev ascii)) in EB, EA. rewrite !rev_involutive in EB, EA. auto.
Qed.

Lemma splits_unique : forall p d f d' f', splits p d f -> splits p d' f' -> d = d' /\ f = f'.
Proof.
  intros p d f d' f' (E & N) (E' & N'). unfold without in *. subst p. apply (f_equal chars) in E'. rewrite !chars_app in E'. simpl in E'.
  destruct (split_last _ _ _ _ _ N N' E') as (A & B). split; now apply chars_inj.
Qed.

Lemma fullpath_splits : forall o name, without "/" (my_prefix o) -> without "/" name ->
  splits (fullpath o name) (my_path o) (my_prefix o ++ "_" ++ name)%string.
Proof.
  intros o name P N. split; [reflexivity|]. unfold without in *. rewrite !chars_app. simpl.
  intros I. apply in_app_or in I. destruct I as [I|[I|I]]; auto. discriminate.
Qed.

Lemma fullpath_inj : forall o o' name name', my_path o = my_path o' ->
  without "_" (my_prefix o) -> without "_" (my_prefix o') ->
  fullpath o name = fullpath o' name' -> my_prefix o = my_prefix o' /\ name = name'.
Proof.
  intros o o' name name' EP P P' E. unfold fullpath in E. rewrite EP in E. apply app_string_inj_l in E.
  apply (app_string_inj_l "/") in E. apply (f_equal chars) in E. rewrite !chars_app in E. simpl in E.
  destruct (split_first _ _ _ _ _ P P' E) as (A & B). split; now apply chars_inj.
Qed.

(** ** Memory. *)
Lemma fold_add : forall l a, fold_left Z.add l a = (a + zsum l)%Z.
Proof. induction l as [|x l IH]; intros a; simpl; [lia|]. rewrite IH. lia. Qed.
Lemma fold_max_ge : forall l a, (a <= fold_left Z.max l a)%Z /\ forall x, In x l -> (x <= fold_left Z.max l a)%Z.
Proof.
  induction l as [|y l IH]; intros a; simpl; [split; [lia|intros x []]|].
  destruct (IH (Z.max a y)) as (A & B). split; [lia|]. intros x [<-|I]; [lia|auto].
Qed.
Lemma fold_max_in : forall l a, fold_left Z.max l a = a \/ In (fold_left Z.max l a) l.
Proof.
  induction l as [|y l IH]; intros a; simpl; auto.
  destruct (IH (Z.max a y)) as [E|I]; auto. rewrite E. destruct (Z.max_spec a y) as [(_ & ->)|(_ & ->)]; auto.
Qed.
Lemma zsum_le : forall l m, (forall x, In x l -> (x <= m)%Z) -> (zsum l <= Z.of_nat (List.length l) * m)%Z.
Proof.
  induction l as [|y l IH]; intros m H; simpl zsum; simpl List.length; [lia|].
  assert (y <= m)%Z by (apply H; simpl; auto).
  assert (zsum l <= Z.of_nat (List.length l) * m)%Z by (apply IH; intros; apply H; simpl; auto). nia.
Qed.
Lemma zsum_ge : forall l m, (forall x, In x l -> (m <= x)%Z) -> (Z.of_nat (List.length l) * m <= zsum l)%Z.
Proof.
  induction l as [|y l IH]; intros m H; simpl zsum; simpl List.length; [lia|].
  assert (m <= y)%Z by (apply H; simpl; auto).
  assert (Z.of_nat (List.length l) * m <= zsum l)%Z by (apply IH; intros; apply H; simpl; auto). nia.
Qed.

