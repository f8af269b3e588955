(** Derivatives of explicit real functions (not specific to the code). *)
From Coq Require Import Reals Lra.
Open Scope R_scope.

Notation dl := derivable_pt_lim.

Lemma dl_eq : forall f x a b, dl f x a -> a = b -> dl f x b.
Proof. intros; subst; auto. Qed.
Lemma dl_ext : forall f g x a, (forall t, f t = g t) -> dl f x a -> dl g x a.
Proof.
  intros f g x a E H e Pe. destruct (H e Pe) as (d & D). exists d. intros h Nh Lh.
  rewrite <- !E. auto.
Qed.
Lemma dl_const : forall c x, dl (fun _ => c) x 0.
Proof. intros. apply (derivable_pt_lim_const c x). Qed.
Lemma dl_id : forall x, dl (fun t => t) x 1.
Proof. intros. apply (derivable_pt_lim_id x). Qed.
Lemma dl_plus : forall f g x a b, dl f x a -> dl g x b -> dl (fun t => f t + g t) x (a + b).
Proof. intros. apply (derivable_pt_lim_plus f g x a b); auto. Qed.
Lemma dl_minus : forall f g x a b, dl f x a -> dl g x b -> dl (fun t => f t - g t) x (a - b).
Proof. intros. apply (derivable_pt_lim_minus f g x a b); auto. Qed.
Lemma dl_opp : forall f x a, dl f x a -> dl (fun t => - f t) x (- a).
Proof. intros. apply (derivable_pt_lim_opp f x a); auto. Qed.
Lemma dl_mult : forall f g x a b, dl f x a -> dl g x b -> dl (fun t => f t * g t) x (a * g x + f x * b).
Proof. intros. apply (derivable_pt_lim_mult f g x a b); auto. Qed.
Lemma dl_sin : forall f x a, dl f x a -> dl (fun t => sin (f t)) x (cos (f x) * a).
Proof. intros. apply (derivable_pt_lim_comp f sin x a (cos (f x))); auto. apply derivable_pt_lim_sin. Qed.
Lemma dl_cos : forall f x a, dl f x a -> dl (fun t => cos (f t)) x (- sin (f x) * a).
Proof. intros. apply (derivable_pt_lim_comp f cos x a (- sin (f x))); auto. apply derivable_pt_lim_cos. Qed.
Lemma dl_inv : forall f x a, f x <> 0 -> dl f x a -> dl (fun t => / f t) x (- a / (f x * f x)).
Proof.
  intros f x a N H.
  pose proof (derivable_pt_lim_div (fun _ => 1) f x 0 a (dl_const 1 x) H N) as D.
  eapply dl_eq; [eapply dl_ext; [|exact D]|].
  - intros t. unfold div_fct, Rdiv. ring.
  - unfold Rsqr. field. auto.
Qed.
Lemma dl_div : forall f g x a b, g x <> 0 -> dl f x a -> dl g x b ->
  dl (fun t => f t / g t) x ((a * g x - f x * b) / (g x * g x)).
Proof.
  intros f g x a b N F G. eapply dl_eq.
  - apply dl_mult; [exact F|apply dl_inv; eauto].
  - cbv beta. field. auto.
Qed.

(** Derivative of a closed expression; leaves the side conditions. *)
Ltac derive :=
  repeat first
    [ apply dl_const | apply dl_id | apply dl_plus | apply dl_minus | apply dl_opp
    | apply dl_mult | apply dl_sin | apply dl_cos | apply dl_div | apply dl_inv ].
