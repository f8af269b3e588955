(** Finite sums of reals: over 0..n-1 and over lists. Library, models nothing. *)
From Coq Require Import Reals List Arith Lra Lia Permutation.
Import ListNotations.
Open Scope R_scope.

Fixpoint rsum (n : nat) (f : nat -> R) : R :=
  match n with O => 0 | S k => rsum k f + f k end.

Fixpoint lsum {A : Type} (l : list A) (f : A -> R) : R :=
  match l with [] => 0 | a :: r => f a + lsum r f end.

Lemma rsum_ext : forall n f g, (forall i, (i < n)%nat -> f i = g i) -> rsum n f = rsum n g.
Proof.
  induction n as [|n IH]; simpl; intros f g H; auto.
  rewrite (IH f g), (H n); auto.
Qed.
Lemma rsum_plus : forall n f g, rsum n (fun i => f i + g i) = rsum n f + rsum n g.
Proof. induction n as [|n IH]; simpl; intros f g; [ring|]. rewrite IH. ring. Qed.
Lemma rsum_minus : forall n f g, rsum n (fun i => f i - g i) = rsum n f - rsum n g.
Proof. induction n as [|n IH]; simpl; intros f g; [ring|]. rewrite IH. ring. Qed.
Lemma rsum_opp : forall n f, rsum n (fun i => - f i) = - rsum n f.
Proof. induction n as [|n IH]; simpl; intros f; [ring|]. rewrite IH. ring. Qed.
Lemma rsum_scale : forall n c f, rsum n (fun i => c * f i) = c * rsum n f.
Proof. induction n as [|n IH]; simpl; intros c f; [ring|]. rewrite IH. ring. Qed.
Lemma rsum_scale_r : forall n c f, rsum n (fun i => f i * c) = rsum n f * c.
Proof. induction n as [|n IH]; simpl; intros c f; [ring|]. rewrite IH. ring. Qed.
Lemma rsum_zero : forall n, rsum n (fun _ => 0) = 0.
Proof. induction n as [|n IH]; simpl; [ring|]. rewrite IH. ring. Qed.
Lemma rsum_0 : forall n f, (forall i, (i < n)%nat -> f i = 0) -> rsum n f = 0.
Proof. intros n f H. rewrite (rsum_ext n f (fun _ => 0)) by auto. apply rsum_zero. Qed.
Lemma rsum_swap : forall n m f,
  rsum n (fun i => rsum m (fun j => f i j)) = rsum m (fun j => rsum n (fun i => f i j)).
Proof.
  induction n as [|n IH]; simpl; intros m f; [symmetry; apply rsum_zero|].
  rewrite IH. symmetry. apply rsum_plus.
Qed.
Lemma rsum_nonneg : forall n f, (forall i, (i < n)%nat -> 0 <= f i) -> 0 <= rsum n f.
Proof.
  induction n as [|n IH]; simpl; intros f H; [lra|].
  pose proof (IH f ltac:(intros; apply H; lia)). pose proof (H n ltac:(lia)). lra.
Qed.
Lemma rsum_single : forall n i f, (i < n)%nat -> (forall j, (j < n)%nat -> j <> i -> f j = 0) ->
  rsum n f = f i.
Proof.
  induction n as [|n IH]; simpl; intros i f L H; [lia|].
  destruct (Nat.eq_dec i n) as [->|N].
  - rewrite rsum_0; [ring|]. intros j Hj. apply H; lia.
  - rewrite (IH i f); [|lia|intros; apply H; lia]. rewrite (H n); [ring|lia|lia].
Qed.

Lemma lsum_ext : forall A (l : list A) f g, (forall a, In a l -> f a = g a) -> lsum l f = lsum l g.
Proof.
  induction l as [|a l IH]; simpl; intros f g H; auto. rewrite (H a), (IH f g); auto.
Qed.
Lemma lsum_plus : forall A (l : list A) f g, lsum l (fun a => f a + g a) = lsum l f + lsum l g.
Proof. induction l as [|a l IH]; simpl; intros f g; [ring|]. rewrite IH. ring. Qed.
Lemma lsum_minus : forall A (l : list A) f g, lsum l (fun a => f a - g a) = lsum l f - lsum l g.
Proof. induction l as [|a l IH]; simpl; intros f g; [ring|]. rewrite IH. ring. Qed.
Lemma lsum_scale : forall A (l : list A) c f, lsum l (fun a => c * f a) = c * lsum l f.
Proof. induction l as [|a l IH]; simpl; intros c f; [ring|]. rewrite IH. ring. Qed.
Lemma lsum_zero : forall A (l : list A), lsum l (fun _ => 0) = 0.
Proof. induction l as [|a l IH]; simpl; [ring|]. rewrite IH. ring. Qed.
Lemma lsum_0 : forall A (l : list A) f, (forall a, In a l -> f a = 0) -> lsum l f = 0.
Proof. intros A l f H. rewrite (lsum_ext A l f (fun _ => 0)) by auto. apply lsum_zero. Qed.
Lemma lsum_nonneg : forall A (l : list A) f, (forall a, In a l -> 0 <= f a) -> 0 <= lsum l f.
Proof.
  induction l as [|a l IH]; simpl; intros f H; [lra|].
  pose proof (IH f ltac:(intros; apply H; auto)). pose proof (H a ltac:(auto)). lra.
Qed.
Lemma lsum_app : forall A (l m : list A) f, lsum (l ++ m) f = lsum l f + lsum m f.
Proof. induction l as [|a l IH]; simpl; intros m f; [ring|]. rewrite IH. ring. Qed.
Lemma lsum_perm : forall A (l m : list A) f, Permutation l m -> lsum l f = lsum m f.
Proof. intros A l m f P. induction P; simpl; lra. Qed.
Lemma lsum_rsum : forall A (l : list A) n f,
  lsum l (fun a => rsum n (fun i => f a i)) = rsum n (fun i => lsum l (fun a => f a i)).
Proof.
  induction l as [|a l IH]; simpl; intros n f; [symmetry; apply rsum_zero|].
  rewrite IH. symmetry. apply rsum_plus.
Qed.
Lemma lsum_filter : forall A (p : A -> bool) l f,
  lsum (filter p l) f = lsum l (fun a => if p a then f a else 0).
Proof. induction l as [|a l IH]; simpl; intros f; auto. destruct (p a); simpl; rewrite IH; ring. Qed.

(** Dot product and bilinear form of a matrix. *)
Definition dot (n : nat) (u v : nat -> R) : R := rsum n (fun i => u i * v i).
Definition mv (n : nat) (A : nat -> nat -> R) (u : nat -> R) : nat -> R :=
  fun i => rsum n (fun j => A i j * u j).

Lemma dot_comm : forall n u v, dot n u v = dot n v u.
Proof. intros. apply rsum_ext. intros. ring. Qed.
Lemma dot_ext : forall n u u' v v', (forall i, (i < n)%nat -> u i = u' i) ->
  (forall i, (i < n)%nat -> v i = v' i) -> dot n u v = dot n u' v'.
Proof. intros n u u' v v' H1 H2. apply rsum_ext. intros i L. rewrite H1, H2; auto. Qed.
Lemma mv_ext : forall n A u u' i, (forall j, (j < n)%nat -> u j = u' j) -> mv n A u i = mv n A u' i.
Proof. intros n A u u' i H. apply rsum_ext. intros j L. rewrite H; auto. Qed.
Lemma mv_plus : forall n A u v i, mv n A (fun k => u k + v k) i = mv n A u i + mv n A v i.
Proof. intros. unfold mv. rewrite <- rsum_plus. apply rsum_ext. intros. ring. Qed.
Lemma mv_minus : forall n A u v i, mv n A (fun k => u k - v k) i = mv n A u i - mv n A v i.
Proof. intros. unfold mv. rewrite <- rsum_minus. apply rsum_ext. intros. ring. Qed.
Lemma mv_sum : forall n m A (c : nat -> R) (g : nat -> nat -> R) i,
  mv n A (fun k => rsum m (fun j => c j * g j k)) i = rsum m (fun j => c j * mv n A (g j) i).
Proof.
  intros. unfold mv. rewrite (rsum_ext n _ (fun k => rsum m (fun j => c j * (A i k * g j k)))).
  - rewrite rsum_swap. apply rsum_ext. intros j L. apply rsum_scale.
  - intros k L. rewrite <- rsum_scale. apply rsum_ext. intros. ring.
Qed.
Lemma dot_sum_l : forall n m (c : nat -> R) (g : nat -> nat -> R) v,
  dot n (fun k => rsum m (fun j => c j * g j k)) v = rsum m (fun j => c j * dot n (g j) v).
Proof.
  intros. unfold dot. rewrite (rsum_ext n _ (fun k => rsum m (fun j => c j * (g j k * v k)))).
  - rewrite rsum_swap. apply rsum_ext. intros j L. apply rsum_scale.
  - intros k L. rewrite <- rsum_scale_r. apply rsum_ext. intros. ring.
Qed.
Lemma dot_sum_r : forall n m (c : nat -> R) (g : nat -> nat -> R) v,
  dot n v (fun k => rsum m (fun j => c j * g j k)) = rsum m (fun j => c j * dot n v (g j)).
Proof.
  intros. rewrite dot_comm, dot_sum_l. apply rsum_ext. intros. now rewrite dot_comm.
Qed.
Lemma dot_mv_sym : forall n A u v, (forall i j, (i < n)%nat -> (j < n)%nat -> A i j = A j i) ->
  dot n (mv n A u) v = dot n (mv n A v) u.
Proof.
  intros n A u v S. unfold dot, mv.
  rewrite (rsum_ext n _ (fun i => rsum n (fun j => A i j * u j * v i)))
    by (intros; symmetry; apply rsum_scale_r).
  rewrite rsum_swap. apply rsum_ext. intros j Lj. rewrite <- rsum_scale_r.
  apply rsum_ext. intros i Li. rewrite (S i j); auto. ring.
Qed.
