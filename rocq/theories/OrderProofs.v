(** Proofs for C115. *)
From Coq Require Import Reals List Arith Bool Permutation Lra Lia.
From Verif Require Import Util RSum LinModel LinSpec LinProofs CoarseModel CoarseSpec CoarseProofs SystemModel SystemSpec SystemProofs.
From Verif Require Import FemModel FemSpec FemProofs FluxModel FluxSpec FluxProofs EnergySpec EnergyProofs OrderSpec.
Import ListNotations.
Open Scope R_scope.

Lemma lsum_matched : forall A B (Q : A -> B -> Prop) l l' (f : A -> R) (g : B -> R), matched Q l l' ->
  (forall a b, In a l -> In b l' -> Q a b -> f a = g b) -> lsum l f = lsum l' g.
Proof.
  intros A B Q l l' f g (m & Pm & F) H. rewrite (lsum_perm _ l' m g Pm).
  assert (H' : forall a b, In a l -> In b m -> Q a b -> f a = g b).
  { intros a b Ia Ib. apply H; auto. now apply Permutation_in with m; [apply Permutation_sym|]. }
  clear H Pm. induction F as [|a b la lb Hab F IH]; cbn [lsum]; [reflexivity|].
  rewrite (H' a b), IH; auto with datatypes.
Qed.

Lemma rsum_renumber : forall n s r (f : nat -> R), renumbering n s r -> rsum n (fun i => f (s i)) = rsum n f.
Proof.
  intros n s r f (A & B). assert (L0 : forall h, rsum n h = lsum (seq 0 n) h) by (intros; rewrite lsum_seq; reflexivity). rewrite !L0. rewrite <- (FemProofs.lsum_map _ _ s (seq 0 n) f). apply lsum_perm.
  apply NoDup_Permutation.
  - assert (N : NoDup (map r (map s (seq 0 n)))).
    { rewrite map_map. rewrite (map_ext_in _ (fun i => i)); [rewrite map_id; apply seq_NoDup|].
      intros i I. apply in_seq in I. apply A. lia. }
    now apply NoDup_map_inv in N.
  - apply seq_NoDup.
  - intros x. rewrite in_map_iff, in_seq. split.
    + intros (i & <- & I). apply in_seq in I. destruct (A i ltac:(lia)). lia.
    + intros I. exists (r x). destruct (B x ltac:(lia)) as (L & E). split; auto. apply in_seq. lia.
Qed.

(** ** Local problems *)
Section Local.
Variables (d n : nat) (p r : nat -> nat).
Hypothesis Pr : renumbering n p r.

Lemma number_eqb : forall i j, (i < n)%nat -> (j < n)%nat -> Nat.eqb (p i) (p j) = Nat.eqb i j.
Proof.
  intros i j Li Lj. destruct Pr as (A & _). destruct (Nat.eqb_spec i j) as [->|N]; [apply Nat.eqb_refl|].
  apply Nat.eqb_neq. intros E. apply N. destruct (A i Li) as (_ & <-), (A j Lj) as (_ & <-). now rewrite E.
Qed.
Lemma dot_same : forall u v u' v', (forall k, (k < d)%nat -> u k = u' k) -> (forall k, (k < d)%nat -> v k = v' k) -> dot d u v = dot d u' v'.
Proof. intros u v u' v' A B. unfold dot. apply rsum_ext. intros k K. now rewrite A, B. Qed.
Lemma mv_same : forall A u A' u' i, (forall i j, A i j = A' i j) -> (forall k, (k < d)%nat -> u k = u' k) -> mv d A u i = mv d A' u' i.
Proof. intros A u A' u' i HA Hu. unfold mv. apply rsum_ext. intros k K. now rewrite HA, Hu. Qed.

Lemma stiffness_order : forall qs qs' i j, matched (same_point n p) qs qs' -> (i < n)%nat -> (j < n)%nat ->
  stiffness d qs' (p i) (p j) = stiffness d qs i j.
Proof.
  intros qs qs' i j M Li Lj. symmetry. apply (lsum_matched _ _ _ _ _ _ _ M). intros q q' _ _ (W & A & G). rewrite W. f_equal.
  apply dot_same; [|intros; now rewrite G]. intros k _. apply mv_same; [auto|]. intros. now rewrite G.
Qed.
Lemma rhs_order : forall rs rs' (field field' : qpoint -> nat -> R) i, matched (same_point n p) rs rs' -> (i < n)%nat ->
  (forall q q' k, In q rs -> In q' rs' -> same_point n p q q' -> (k < d)%nat -> field' q' k = field q k) ->
  local_rhs d rs' field' (p i) = local_rhs d rs field i.
Proof.
  intros rs rs' field field' i M Li F. symmetry. apply (lsum_matched _ _ _ _ _ _ _ M). intros q q' I I' S. pose proof S as (W & A & G). rewrite W.
  unfold evaluate_product. do 2 f_equal. apply dot_same; [|intros; now rewrite G]. intros k _. apply mv_same; [auto|].
  intros. symmetry. now apply F.
Qed.
Lemma field_order : forall y y' q q' k, same_point n p q q' -> (forall i, (i < n)%nat -> y' (p i) = y i) ->
  field_of n y' q' k = field_of n y q k.
Proof.
  intros y y' q q' k (_ & _ & G) Y. unfold field_of. rewrite <- (rsum_renumber n p r _ Pr). apply rsum_ext. intros i Li. now rewrite G, Y.
Qed.

Lemma problem_order : forall qs qs' con con' b b' x x', matched (same_point n p) qs qs' ->
  (forall i, (i < n)%nat -> con' (p i) = con i) -> (forall i, (i < n)%nat -> b' (p i) = b i) ->
  (forall i, (i < n)%nat -> x' (p i) = x i) ->
  (local_problem d qs' n con' b' x' <-> local_problem d qs n con b x).
Proof.
  intros qs qs' con con' b b' x x' M C B X. unfold local_problem, solves.
  assert (E : forall i, (i < n)%nat ->
    mv n (constrain_matrix con' (stiffness d qs')) x' (p i) = mv n (constrain_matrix con (stiffness d qs)) x i /\
    constrain_vector con' b' (p i) = constrain_vector con b i).
  { intros i Li. split.
    - unfold mv. rewrite <- (rsum_renumber n p r _ Pr). apply rsum_ext. intros j Lj. rewrite X by auto. f_equal.
      unfold constrain_matrix. rewrite C, number_eqb by auto. destruct (con i); [reflexivity|]. now apply stiffness_order.
    - unfold constrain_vector. rewrite C, B by auto. reflexivity. }
  destruct Pr as (A1 & A2). split; intros H i Li.
  - destruct (E i Li) as (<- & <-). apply H. now apply A1.
  - destruct (A2 i Li) as (Lr & <-). destruct (E (r i) Lr) as (-> & ->). now apply H.
Qed.
End Local.

(** ** Coarse system *)
Section Coarse.
Variable d : nat.
Variable P : Type.
Variable diffusion : P -> nat -> nat -> R.
Variable source : P -> R.
Variable neumann : P -> R.

Lemma faces_order : forall fs fs' (w w' : P -> R), matched (same_face P) fs fs' -> (forall x, w' x = w x) ->
  boundary_load P neumann fs' w' = boundary_load P neumann fs w.
Proof.
  intros fs fs' w w' M W. unfold boundary_load. rewrite !lsum_filter. symmetry.
  apply (lsum_matched _ _ _ _ _ _ _ M). intros f f' _ _ (K & Q). rewrite K. destruct (cf_neumann P f); [|reflexivity].
  rewrite (lsum_perm _ _ _ _ Q). apply lsum_ext. intros q _. now rewrite W.
Qed.

Section Cell.
Variables (p : nat -> nat) (c c' : coarse_cell P) (s r : nat -> nat).
Let n := cc_n P c.
Hypothesis Re : renumbering n s r.
Hypothesis Ln : cc_n P c' = n.
Hypothesis Co : forall i, (i < n)%nat ->
     cc_index P c' (s i) = p (cc_index P c i) /\
     (forall x k, cc_grad P c' (s i) x k = cc_grad P c i x k) /\
     (forall x, cc_val P c' (s i) x = cc_val P c i x).
Variables v v' : nat -> R.
Hypothesis Vv : forall i, (i < n)%nat -> v' (p (cc_index P c i)) = v (cc_index P c i).

Lemma grad_order : forall l l' x k, same_local P n s l l' -> test_grad P v' c' l' x k = test_grad P v c l x k.
Proof.
  intros l l' x k (_ & _ & G & _). unfold test_grad. rewrite Ln. rewrite <- (rsum_renumber n s r _ Re). apply rsum_ext. intros i Li.
  destruct (Co i Li) as (I & C & _). unfold used_grad. now rewrite I, C, G, Vv.
Qed.
Lemma val_order : forall l l' x, same_local P n s l l' -> test_val P v' c' l' x = test_val P v c l x.
Proof.
  intros l l' x (_ & _ & _ & G & _). unfold test_val. rewrite Ln. rewrite <- (rsum_renumber n s r _ Re). apply rsum_ext. intros i Li.
  destruct (Co i Li) as (I & _ & C). unfold used_val. now rewrite I, C, G, Vv.
Qed.
Lemma coarse_order_val : forall x, test_coarse P v' c' x = test_coarse P v c x.
Proof.
  intros x. unfold test_coarse. rewrite Ln. rewrite <- (rsum_renumber n s r _ Re). apply rsum_ext. intros i Li.
  destruct (Co i Li) as (I & _ & C). now rewrite I, C, Vv.
Qed.
Lemma boundary_order : forall l l' x k, same_local P n s l l' -> boundary_grad P c' l' x k = boundary_grad P c l x k.
Proof.
  intros l l' x k (_ & _ & _ & _ & G & _). unfold boundary_grad. rewrite Ln. fold n. rewrite !G by lia. reflexivity.
Qed.
End Cell.

Lemma energy_order : forall n s l l' (u u' w w' : P -> nat -> R), same_local P n s l l' ->
  (forall x k, u' x k = u x k) -> (forall x k, w' x k = w x k) ->
  CoarseSpec.energy d P diffusion l' u' w' = CoarseSpec.energy d P diffusion l u w /\
  rhs_energy d P diffusion l' u' w' = rhs_energy d P diffusion l u w.
Proof.
  intros n s l l' u u' w w' (G & F & _ & _ & _ & Q & Rq) U W. unfold CoarseSpec.energy, rhs_energy.
  rewrite (lsum_perm _ _ _ _ Q), (lsum_perm _ _ _ _ Rq).
  split; apply lsum_ext; intros q _; rewrite F, G; f_equal; apply dot_same; auto; intros k _; apply mv_same; auto.
Qed.
Lemma load_order : forall n s l l' (w w' : P -> R), same_local P n s l l' -> (forall x, w' x = w x) ->
  load P source l' w' = load P source l w.
Proof.
  intros n s l l' w w' (G & F & _ & _ & _ & _ & Rq) W. unfold load. rewrite (lsum_perm _ _ _ _ Rq). apply lsum_ext. intros q _.
  now rewrite F, G, W.
Qed.

Section Grid.
Variables (N : nat) (p r : nat -> nat).
Hypothesis Pr : renumbering N p r.
Variables cells cells' : list (coarse_cell P * list (cface P)).
Hypothesis Ma : matched (same_coarse P p) cells cells'.
Hypothesis Ix : forall c fs i, In (c, fs) cells -> (i < cc_n P c)%nat -> (cc_index P c i < N)%nat.

Let en u v (grid : list (coarse_cell P * list (cface P))) := lsum grid (fun cf => lsum (covered P (fst cf)) (fun l =>
  ms_energy d P diffusion u (fst cf) l (test_grad P v (fst cf) l))).
Let ld v (grid : list (coarse_cell P * list (cface P))) := lsum grid (fun cf => lsum (covered P (fst cf)) (fun l =>
  load P source l (test_val P v (fst cf) l)) + boundary_load P neumann (snd cf) (test_coarse P v (fst cf))).

Lemma en_order : forall u u' v v', (forall i, (i < N)%nat -> u' (p i) = u i) -> (forall i, (i < N)%nat -> v' (p i) = v i) ->
  en u v cells = en u' v' cells'.
Proof.
  intros u u' v v' U V. unfold en. apply (lsum_matched _ _ _ _ _ _ _ Ma). intros (c, f) (c', f') I _ (s & q & Re & Ln & Co & Lo & _). cbn [fst snd] in *.
  apply (lsum_matched _ _ _ _ _ _ _ Lo). intros l l' _ _ Sl. unfold ms_energy.
  assert (Uc : forall i, (i < cc_n P c)%nat -> u' (p (cc_index P c i)) = u (cc_index P c i)) by (intros; apply U; eapply Ix; eauto).
  assert (Vc : forall i, (i < cc_n P c)%nat -> v' (p (cc_index P c i)) = v (cc_index P c i)) by (intros; apply V; eapply Ix; eauto).
  symmetry. f_equal.
  - apply (energy_order _ _ _ _ _ _ _ _ Sl); intros; eapply grad_order; eauto.
  - apply (energy_order _ _ _ _ _ _ _ _ Sl); intros; [eapply boundary_order; eauto|eapply grad_order; eauto].
Qed.
Lemma ld_order : forall v v', (forall i, (i < N)%nat -> v' (p i) = v i) -> ld v cells = ld v' cells'.
Proof.
  intros v v' V. unfold ld. apply (lsum_matched _ _ _ _ _ _ _ Ma). intros (c, f) (c', f') I _ (s & q & Re & Ln & Co & Lo & Fa). cbn [fst snd] in *.
  assert (Vc : forall i, (i < cc_n P c)%nat -> v' (p (cc_index P c i)) = v (cc_index P c i)) by (intros; apply V; eapply Ix; eauto).
  f_equal.
  - apply (lsum_matched _ _ _ _ _ _ _ Lo). intros l l' _ _ Sl. symmetry. apply (load_order _ _ _ _ _ _ Sl). intros. eapply val_order; eauto.
  - symmetry. apply faces_order; auto. intros. eapply coarse_order_val; eauto.
Qed.

Lemma index_order : forall c fs i, In (c, fs) cells' -> (i < cc_n P c)%nat -> (cc_index P c i < N)%nat.
Proof.
  intros c' fs' i I' Li. destruct Ma as (m & Pm & F). apply (Permutation_in _ Pm) in I'.
  assert (exists a, In a cells /\ same_coarse P p a (c', fs')) as ((c, fs) & I & s & q & Re & Ln & Co & _).
  { clear - F I'. induction F as [|a b la lb Hab F IH]; [destruct I'|]. destruct I' as [->|I'].
    - exists a. split; auto with datatypes.
    - destruct (IH I') as (x & X & Y). exists x. split; auto with datatypes. }
  cbn [fst snd] in *. rewrite Ln in Li. destruct Re as (_ & Rb). destruct (Rb i Li) as (Lr & E). rewrite <- E.
  destruct (Co (q i) Lr) as (-> & _). apply Pr. eapply Ix; eauto.
Qed.

Lemma coarse_order : forall con con' g g' u u',
  (forall c fs, In (c, fs) cells -> cc_slots P c = (cc_n P c + 2)%nat) -> (forall c fs, In (c, fs) cells' -> cc_slots P c = (cc_n P c + 2)%nat) ->
  (forall i, (i < N)%nat -> con' (p i) = con i) -> (forall i, (i < N)%nat -> g' (p i) = g i) ->
  (forall i, (i < N)%nat -> u' (p i) = u i) ->
  (coarse_solution d P diffusion source neumann N con' g' cells' u' <-> coarse_solution d P diffusion source neumann N con g cells u).
Proof.
  intros con con' g g' u u' S S' C G U.
  rewrite !weak_form; [|exact Ix|apply walk_some; exact S|exact index_order|apply walk_some; exact S'].
  destruct Pr as (A & B).
  split; intros (D & H); split.
  - intros i Li Ci. rewrite <- U, <- G by auto. apply D; [now apply A|]. now rewrite C.
  - intros v V. set (v' := fun j => v (r j)).
    assert (Vv : forall i, (i < N)%nat -> v' (p i) = v i) by (intros i Li; unfold v'; now rewrite (proj2 (A i Li))).
    pose proof (en_order u u' v v' U Vv) as E1. pose proof (ld_order v v' Vv) as E2. unfold en, ld in E1, E2. rewrite E1, E2. apply H.
    intros i Li Ci. unfold v'. destruct (B i Li) as (Lr & E). apply V; auto. rewrite <- C by auto. now rewrite E.
  - intros i Li Ci. destruct (B i Li) as (Lr & E). rewrite <- E, U, G by auto. apply D; auto. rewrite <- C, E by auto. exact Ci.
  - intros v' V. set (v := fun j => v' (p j)).
    pose proof (en_order u u' v v' U (fun i _ => eq_refl)) as E1. pose proof (ld_order v v' (fun i _ => eq_refl)) as E2. unfold en, ld in E1, E2.
    rewrite <- E1, <- E2. apply H. intros i Li Ci. unfold v. apply V; [now apply A|]. now rewrite C.
Qed.
End Grid.

(** ** Reference solver and Neumann correctors *)
Section Fine.
Variables (N : nat) (p r : nat -> nat).
Hypothesis Pr : renumbering N p r.
Variables cells cells' : list (fcell P * list (cface P)).
Hypothesis Ma : matched (same_fine P p) cells cells'.
Hypothesis Ix : forall c fs i, In (c, fs) cells -> (i < fc_n P c)%nat -> (fc_index P c i < N)%nat.

Lemma fine_order_grad : forall c f c' f' v v' x k, In (c, f) cells -> same_fine P p (c, f) (c', f') ->
  (forall i, (i < N)%nat -> v' (p i) = v i) -> fine_grad P v' c' x k = fine_grad P v c x k.
Proof.
  intros c f c' f' v v' x k I (s & q & Re & Ln & Co & _) V. cbn [fst snd] in *. unfold fine_grad. rewrite Ln.
  rewrite <- (rsum_renumber _ s q _ Re). apply rsum_ext. intros i Li. destruct (Co i Li) as (-> & -> & _). rewrite V; auto. eapply Ix; eauto.
Qed.
Lemma fine_order_val : forall c f c' f' v v' x, In (c, f) cells -> same_fine P p (c, f) (c', f') ->
  (forall i, (i < N)%nat -> v' (p i) = v i) -> fine_val P v' c' x = fine_val P v c x.
Proof.
  intros c f c' f' v v' x I (s & q & Re & Ln & Co & _) V. cbn [fst snd] in *. unfold fine_val. rewrite Ln.
  rewrite <- (rsum_renumber _ s q _ Re). apply rsum_ext. intros i Li. destruct (Co i Li) as (-> & _ & ->). rewrite V; auto. eapply Ix; eauto.
Qed.

Let en u v (grid : list (fcell P * list (cface P))) := lsum grid (fun cf => fine_energy d P diffusion (fst cf) (fine_grad P u (fst cf)) (fine_grad P v (fst cf))).
Let ld v (grid : list (fcell P * list (cface P))) := lsum grid (fun cf => fine_load P source (fst cf) (fine_val P v (fst cf))
  + boundary_load P neumann (snd cf) (fine_val P v (fst cf))).

Lemma fine_en_order : forall u u' v v', (forall i, (i < N)%nat -> u' (p i) = u i) -> (forall i, (i < N)%nat -> v' (p i) = v i) ->
  en u v cells = en u' v' cells'.
Proof.
  intros u u' v v' U V. unfold en. apply (lsum_matched _ _ _ _ _ _ _ Ma). intros (c, f) (c', f') I _ Sf. cbn [fst].
  pose proof Sf as (s & q & Re & Ln & Co & Gl & Fa & Q & _ & _). cbn [fst snd] in *. symmetry. unfold fine_energy. rewrite (lsum_perm _ _ _ _ Q).
  apply lsum_ext. intros z _. rewrite Gl, Fa. f_equal.
  apply dot_same; [intros k _; apply mv_same; [auto|]|]; intros; eapply fine_order_grad; eauto.
Qed.
Lemma fine_ld_order : forall v v', (forall i, (i < N)%nat -> v' (p i) = v i) -> ld v cells = ld v' cells'.
Proof.
  intros v v' V. unfold ld. apply (lsum_matched _ _ _ _ _ _ _ Ma). intros (c, f) (c', f') I _ Sf. cbn [fst snd].
  pose proof Sf as (s & q & Re & Ln & Co & Gl & Fa & _ & Q & Fc). cbn [fst snd] in *. symmetry. f_equal.
  - unfold fine_load. rewrite (lsum_perm _ _ _ _ Q). apply lsum_ext. intros z _. rewrite Gl, Fa. do 2 f_equal. eapply fine_order_val; eauto.
  - apply faces_order; auto. intros. eapply fine_order_val; eauto.
Qed.
Lemma fine_index_order : forall c fs i, In (c, fs) cells' -> (i < fc_n P c)%nat -> (fc_index P c i < N)%nat.
Proof.
  intros c' fs' i I' Li. destruct Ma as (m & Pm & F). apply (Permutation_in _ Pm) in I'.
  assert (exists a, In a cells /\ same_fine P p a (c', fs')) as ((c, fs) & I & s & q & Re & Ln & Co & _).
  { clear - F I'. induction F as [|a b la lb Hab F IH]; [destruct I'|]. destruct I' as [->|I'].
    - exists a. split; auto with datatypes.
    - destruct (IH I') as (x & X & Y). exists x. split; auto with datatypes. }
  cbn [fst snd] in *. rewrite Ln in Li. destruct Re as (_ & Rb). destruct (Rb i Li) as (Lr & E). rewrite <- E.
  destruct (Co (q i) Lr) as (-> & _). apply Pr. eapply Ix; eauto.
Qed.

Lemma fine_order : forall con con' g g' start start' u u',
  (forall i, (i < N)%nat -> con' (p i) = con i) -> (forall i, (i < N)%nat -> g' (p i) = g i) ->
  (forall i, (i < N)%nat -> u' (p i) = u i) ->
  (fem_solution d P diffusion source neumann N con' g' start' cells' u' <-> fem_solution d P diffusion source neumann N con g start cells u).
Proof.
  intros con con' g g' start start' u u' C G U. rewrite !fem_weak_form; [|exact Ix|exact fine_index_order].
  destruct Pr as (A & B).
  split; intros (D & H); split.
  - intros i Li Ci. rewrite <- U, <- G by auto. apply D; [now apply A|]. now rewrite C.
  - intros v V. set (v' := fun j => v (r j)).
    assert (Vv : forall i, (i < N)%nat -> v' (p i) = v i) by (intros i Li; unfold v'; now rewrite (proj2 (A i Li))).
    pose proof (fine_en_order u u' v v' U Vv) as E1. pose proof (fine_ld_order v v' Vv) as E2. unfold en, ld in E1, E2. rewrite E1, E2. apply H.
    intros i Li Ci. unfold v'. destruct (B i Li) as (Lr & E). apply V; auto. rewrite <- C by auto. now rewrite E.
  - intros i Li Ci. destruct (B i Li) as (Lr & E). rewrite <- E, U, G by auto. apply D; auto. rewrite <- C, E by auto. exact Ci.
  - intros v' V. set (v := fun j => v' (p j)).
    pose proof (fine_en_order u u' v v' U (fun i _ => eq_refl)) as E1. pose proof (fine_ld_order v v' (fun i _ => eq_refl)) as E2. unfold en, ld in E1, E2.
    rewrite <- E1, <- E2. apply H. intros i Li Ci. unfold v. apply V; [now apply A|]. now rewrite C.
Qed.

Lemma flux_order : forall a, (a < N)%nat -> local_flux P neumann cells' (p a) = local_flux P neumann cells a.
Proof.
  intros a La. rewrite !local_flux_val. unfold sides. rewrite !lsum_flat_map. symmetry.
  apply (lsum_matched _ _ _ _ _ _ _ Ma). intros (c, f) (c', f') I _ (s & q & Re & Ln & Co & _ & _ & _ & _ & Fc). cbn [fst snd] in *.
  rewrite !FemProofs.lsum_map. apply (lsum_matched _ _ _ _ _ _ _ Fc). intros e e' _ _ (_ & Q). cbn [fst snd].
  rewrite Ln. rewrite <- (rsum_renumber _ s q (fun i => spot P c' i (p a) * _) Re). apply rsum_ext. intros i Li. destruct (Co i Li) as (E & _ & V).
  f_equal.
  - unfold spot. rewrite E. rewrite (number_eqb N p r Pr); auto. eapply Ix; eauto.
  - rewrite (lsum_perm _ _ _ _ Q). apply lsum_ext. intros z _. now rewrite V.
Qed.
End Fine.
End Coarse.
