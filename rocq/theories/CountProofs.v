(** Proofs for C122. *)
From Coq Require Import List Arith ZArith Bool Lia FinFun.
From Verif Require Import CountModel CountSpec.
Import ListNotations.

Lemma product_length : forall rs, length (product rs) = prod (map snd rs).
Proof.
  induction rs as [|(a, n) rs IH]; [reflexivity|]. cbn [product map snd prod fold_right].
  revert a. induction n as [|n IHn]; intros a; [reflexivity|]. cbn [seq flat_map]. rewrite app_length, map_length, IHn, IH. unfold prod. lia.
Qed.
Lemma own_length : forall p, length (interior_cells p) = own_cells p.
Proof. intros p. unfold interior_cells, own_cells. rewrite product_length, map_map. reflexivity. Qed.
Lemma stored_length : forall o p, valid p -> length (stored_cells o p) = prod (map (fun e => hi e - lo e + extra o e) p).
Proof.
  intros o p V. unfold stored_cells. rewrite product_length, map_map. cbn [snd]. f_equal. apply map_ext_in. intros e I.
  unfold valid in V. rewrite Forall_forall in V. specialize (V e I). unfold extra. lia.
Qed.

Lemma prod_le : forall (f g : extent -> nat) p, (forall e, In e p -> f e <= g e) -> prod (map f p) <= prod (map g p).
Proof.
  intros f g p. induction p as [|e p IH]; intros H; [cbn; lia|]. cbn [map prod fold_right].
  apply Nat.mul_le_mono; [apply H; now left|]. apply IH. intros; apply H; now right.
Qed.
Lemma prod_pos : forall (f : extent -> nat) p, (forall e, In e p -> 0 < f e) -> 0 < prod (map f p).
Proof.
  intros f p. induction p as [|e p IH]; intros H; [cbn; lia|]. cbn [map prod fold_right].
  apply Nat.mul_pos_pos; [apply H; now left|]. apply IH. intros; apply H; now right.
Qed.
Lemma prod_app : forall a b, prod (a ++ b) = prod a * prod b.
Proof. induction a as [|x a IH]; intros b; cbn [app]; unfold prod in *; cbn [fold_right]; [lia|]. rewrite IH. lia. Qed.

Lemma stored_le_all : forall o p, valid p -> length (stored_cells o p) <= all_cells p.
Proof.
  intros o p V. rewrite stored_length by auto. apply prod_le. intros e I. unfold valid in V. rewrite Forall_forall in V. specialize (V e I). unfold extra. lia.
Qed.
Lemma own_lt_all : forall p, valid p -> ~ whole p -> own_cells p < all_cells p.
Proof.
  unfold valid, whole, own_cells, all_cells. induction p as [|e p IH]; intros V W; [destruct W; constructor|].
  apply Forall_cons_iff in V. destruct V as (He & V). cbn [map prod fold_right].
  fold (prod (map total p)). fold (prod (map (fun e => hi e - lo e) p)).
  assert (P : 0 < prod (map (fun e => hi e - lo e) p)). { apply prod_pos. rewrite Forall_forall in V. intros x I. specialize (V x I). lia. }
  assert (L : prod (map (fun e => hi e - lo e) p) <= prod (map total p)). { apply prod_le. rewrite Forall_forall in V. intros x I. specialize (V x I). lia. }
  assert (D : (lo e = 0 /\ hi e = total e) \/ hi e - lo e < total e) by lia. destruct D as [D|D].
  - assert (K : prod (map (fun e => hi e - lo e) p) < prod (map total p)) by (apply IH; auto). nia.
  - nia.
Qed.

(** ** How many systems are solved *)
Lemma filter_true : forall A (f : A -> bool) l, (forall x, In x l -> f x = true) -> filter f l = l.
Proof.
  intros A f l. induction l as [|x l IH]; intros H; [reflexivity|]. cbn [filter]. rewrite H by now left. f_equal. apply IH. intros; apply H; now right.
Qed.
Lemma filter_below : forall n k, length (filter (fun i => Nat.ltb i k) (seq 0 n)) = Nat.min n k.
Proof.
  induction n as [|n IH]; intros k; [reflexivity|]. rewrite seq_S, filter_app, app_length, IH. cbn [filter plus].
  destruct (Nat.ltb_spec n k); cbn [length]; lia.
Qed.
Lemma solved_count : forall simplex size b, boundary_correctors simplex <= size ->
  length (solved simplex size b) = size - boundary_correctors simplex + (if b then boundary_correctors simplex else 0).
Proof.
  intros simplex size b L. unfold solved. destruct b.
  - rewrite filter_true; [rewrite seq_length; lia|]. intros i _. rewrite andb_false_r. reflexivity.
  - rewrite (filter_ext _ (fun i => Nat.ltb i (size - boundary_correctors simplex))).
    + rewrite filter_below. lia.
    + intros i. rewrite andb_true_r. destruct (Nat.leb_spec (size - boundary_correctors simplex) i); destruct (Nat.ltb_spec i (size - boundary_correctors simplex)); auto; lia.
Qed.

Definition free (e : extent) (i : nat) : bool := negb (Nat.eqb i 0 || Nat.eqb (S i) (total e)).
Lemma free_count : forall e a n, a + n <= total e -> length (filter (free e) (seq a n)) = Nat.min (a + n) (total e - 1) - Nat.max a 1.
Proof.
  intros e a n. induction n as [|n IH]; intros L.
  - cbn. lia.
  - rewrite seq_S, filter_app, app_length, IH by lia. cbn [filter]. unfold free.
    destruct (Nat.eqb_spec (a + n) 0); destruct (Nat.eqb_spec (S (a + n)) (total e)); cbn [orb negb length]; lia.
Qed.
Lemma filter_flat : forall A B (f : B -> bool) (g : A -> list B) l, filter f (flat_map g l) = flat_map (fun x => filter f (g x)) l.
Proof. intros A B f g l. induction l as [|x l IH]; [reflexivity|]. cbn [flat_map]. now rewrite filter_app, IH. Qed.
Lemma filter_map : forall A B (f : B -> bool) (g : A -> B) l, filter f (map g l) = map g (filter (fun x => f (g x)) l).
Proof. intros A B f g l. induction l as [|x l IH]; [reflexivity|]. cbn [map filter]. rewrite IH. now destruct (f (g x)). Qed.

Lemma inner_count : forall p, valid p -> length (filter (fun cs => negb (has_boundary p cs)) (interior_cells p)) = inner_cells p.
Proof.
  unfold valid, interior_cells, inner_cells. induction p as [|e p IH]; intros V; [reflexivity|].
  apply Forall_cons_iff in V. destruct V as (He & V). specialize (IH V). cbn [map product prod fold_right]. cbn beta. rewrite filter_flat.
  replace (Nat.min (hi e) (total e - 1) - Nat.max (lo e) 1) with (length (filter (free e) (seq (lo e) (hi e - lo e)))).
  2:{ rewrite free_count by lia. f_equal. f_equal. lia. }
  fold (prod (map (fun e => Nat.min (hi e) (total e - 1) - Nat.max (lo e) 1) p)). rewrite <- IH.
  set (Q := product _). induction (seq (lo e) (hi e - lo e)) as [|i s IHs]; [reflexivity|].
  cbn [flat_map filter]. rewrite app_length, IHs, filter_map, map_length.
  rewrite (filter_ext _ (fun cs => free e i && negb (has_boundary p cs))).
  2:{ intros cs. unfold free. rewrite <- negb_orb. reflexivity. }
  destruct (free e i); cbn [andb length]; [lia|].
  replace (length (filter (fun _ => false) Q)) with 0; [lia|]. clear. induction Q; auto.
Qed.
Lemma filter_split : forall A (f : A -> bool) l, length (filter f l) + length (filter (fun x => negb (f x)) l) = length l.
Proof. intros A f l. induction l as [|x l IH]; [reflexivity|]. cbn [filter]. destruct (f x); cbn [negb length]; lia. Qed.

Lemma systems_count : forall simplex size o p, boundary_correctors simplex <= size -> valid p ->
  systems (solve_for_all_cells simplex size o p) =
  own_cells p * (size - boundary_correctors simplex) + (own_cells p - inner_cells p) * boundary_correctors simplex.
Proof.
  intros simplex size o p L V. unfold systems. cbn [solve_for_all_cells handled].
  pose proof (filter_split _ (has_boundary p) (interior_cells p)) as S. rewrite inner_count, own_length in S by auto.
  replace (own_cells p - inner_cells p) with (length (filter (has_boundary p) (interior_cells p))) by lia.
  rewrite <- own_length. generalize (interior_cells p) as l. induction l as [|cs l IH]; [reflexivity|].
  cbn [map fold_right filter]. rewrite IH. cbn [snd]. rewrite solved_count by auto. destruct (has_boundary p cs); cbn [length]; lia.
Qed.

(** ** The cells of a product *)
Lemma Forall2_map_l : forall A B C (f : A -> B) (P : B -> C -> Prop) l m, Forall2 P (map f l) m <-> Forall2 (fun x => P (f x)) l m.
Proof.
  intros A B C f P l. induction l as [|x l IH]; intros m; cbn [map].
  - split; intros H; inversion H; constructor.
  - split; intros H; inversion H; subst; constructor; auto; now apply IH.
Qed.
Lemma Forall2_weaken : forall A B (P Q : A -> B -> Prop) l m, (forall x y, P x y -> Q x y) -> Forall2 P l m -> Forall2 Q l m.
Proof. intros A B P Q l m H F. induction F; constructor; auto. Qed.
Lemma product_in : forall rs cs, In cs (product rs) <-> Forall2 (fun r i => fst r <= i < fst r + snd r) rs cs.
Proof.
  induction rs as [|(a, n) rs IH]; intros cs; cbn [product].
  - split; [intros [<-|[]]; constructor|intros H; inversion H; now left].
  - rewrite in_flat_map. split.
    + intros (i & I & J). apply in_map_iff in J. destruct J as (ds & <- & J). apply in_seq in I. constructor; [cbn; lia|now apply IH].
    + intros H. inversion H as [|? i ? ds H1 H2]; subst. exists i. split; [apply in_seq; cbn in H1; lia|]. apply in_map. now apply IH.
Qed.
Lemma nodup_app : forall A (l m : list A), NoDup l -> NoDup m -> (forall x, In x l -> ~ In x m) -> NoDup (l ++ m).
Proof.
  intros A l m Hl Hm D. induction Hl as [|x l N Hl IH]; [exact Hm|]. cbn [app]. constructor.
  - rewrite in_app_iff. intros [H|H]; [auto|]. apply (D x); [now left|exact H].
  - apply IH. intros y I. apply D. now right.
Qed.
Lemma product_nodup : forall rs, NoDup (product rs).
Proof.
  induction rs as [|(a, n) rs IH]; cbn [product]; [constructor; [intros []|constructor]|].
  pose proof (seq_NoDup n a) as N. induction (seq a n) as [|i s IHs]; [constructor|]. apply NoDup_cons_iff in N. destruct N as (Ni & N).
  cbn [flat_map]. apply nodup_app; auto.
  - apply Injective_map_NoDup; [|exact IH]. intros x y E. now injection E.
  - intros x I J. apply in_map_iff in I. destruct I as (ds & <- & _). apply in_flat_map in J. destruct J as (j & J & K).
    apply in_map_iff in K. destruct K as (es & E & _). injection E as -> _. auto.
Qed.
