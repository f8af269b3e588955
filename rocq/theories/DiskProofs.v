(** Proofs about the on-disk store. *)
From Coq Require Import List Arith NArith Ascii String Bool Lia.
From Verif Require Import NamesModel FilesModel DiskModel DiskSpec.
Import ListNotations.


Lemma find_store : forall f b m g, find g (store f b m) = if list_eq_dec ascii_dec g f then Some b else find g m.
Proof.
  intros f b m g. induction m as [|(k, c) m IH]; cbn [store find].
  - unfold text_eqb. destruct (list_eq_dec ascii_dec g f); reflexivity.
  - unfold text_eqb in *. destruct (list_eq_dec ascii_dec f k) as [->|N]; cbn [find]; unfold text_eqb.
    + destruct (list_eq_dec ascii_dec g k); reflexivity.
    + rewrite IH. destruct (list_eq_dec ascii_dec g k) as [->|N']; [|reflexivity].
      destruct (list_eq_dec ascii_dec k f); congruence.
Qed.

(** The registry shows the recent history. *)
Definition shows (m : registry) (h : list op) : Prop := forall f,
  find f m = match first_dir f h with
             | None => None
             | Some d => Some {| dir_ := dir_ (new_backend d f); index_ := (appends f h mod uint_max)%N |}
             end.

Lemma first_app : forall f h o, first_dir f (h ++ [o]) =
  match first_dir f h with Some d => Some d | None => first_dir f [o] end.
Proof.
  induction h as [|x h IH]; intros o; [reflexivity|].
  destruct x; cbn [app first_dir]; rewrite ?IH; try destruct (list_eq_dec ascii_dec f filename); reflexivity.
Qed.
Lemma appends_app : forall f h o, appends f (h ++ [o]) = (appends f h + appends f [o])%N.
Proof.
  induction h as [|x h IH]; intros o; [reflexivity|].
  destruct x; cbn [app appends]; rewrite ?IH; cbn [appends]; lia.
Qed.
Lemma appends_none : forall f h, first_dir f h = None -> appends f h = 0%N.
Proof.
  induction h as [|x h IH]; intros H; [reflexivity|].
  destruct x; cbn [first_dir appends] in *; try destruct (list_eq_dec ascii_dec f filename); try discriminate; auto.
Qed.

Lemma step_shows : forall m h o, shows m h -> o <> Clear -> shows (fst (step m o)) (h ++ [o]).
Proof.
  intros m h o S N f. rewrite first_app, appends_app.
  assert (U : uint_max <> 0%N) by discriminate.
  assert (G : forall d g, get m d g =
    {| dir_ := dir_ (new_backend (match first_dir g h with Some d' => d' | None => d end) g);
       index_ := (appends g h mod uint_max)%N |}).
  { intros d g. unfold get. rewrite (S g). destruct (first_dir g h) eqn:E; [reflexivity|].
    rewrite (appends_none _ _ E), N.mod_0_l by exact U. reflexivity. }
  destruct o as [d g|d g i|]; [| |congruence]; cbn [step fst first_dir appends];
  rewrite find_store, G; cbn [dir_ index_]; destruct (list_eq_dec ascii_dec f g) as [->|D].
  - rewrite N.add_0_r, N.add_mod_idemp_l by exact U. destruct (first_dir g h); reflexivity.
  - rewrite (S f), !N.add_0_r. destruct (first_dir f h); reflexivity.
  - rewrite N.add_0_r. destruct (first_dir g h); reflexivity.
  - rewrite (S f), N.add_0_r. destruct (first_dir f h); reflexivity.
Qed.

Lemma run_shows : forall os m h, shows m h -> shows (fst (run m os)) (recent h os).
Proof.
  induction os as [|o os IH]; intros m h S; [exact S|]. cbn [run].
  assert (F : fst (let '(m1, x) := step m o in let '(m2, xs) := run m1 os in (m2, x :: xs)) =
              fst (run (fst (step m o)) os)).
  { destruct (step m o) as (m1, x). cbn [fst]. destruct (run m1 os). reflexivity. }
  rewrite F. destruct o as [d g|d g i|]; cbn [recent]; apply IH.
  - apply step_shows; [exact S|discriminate].
  - apply step_shows; [exact S|discriminate].
  - intros f. reflexivity.
Qed.

Lemma start_shows : shows [] [].
Proof. intros f. reflexivity. Qed.
