(** Theorems about the on-disk store: C99. *)
From Coq Require Import List Arith NArith Ascii String Bool Lia.
From Verif Require Import NamesModel NamesSpec NamesProofs FilesModel FilesProofs DiskModel DiskSpec DiskProofs.
Import ListNotations.

(** Whatever was done before, an append is refused after asking for a directory.
    Its path is made of the data directory of the first call with that name
    since the last clearing, the name, and the number of appends to that name
    since then. *)
Theorem C99_append_is_refused : forall os d f,
  let h := recent [] os in
  let used := match first_dir f h with Some d' => d' | None => d end in
  let base := match used with Some t => t | None => str "data" end in
  exists number, numeral number (appends f h mod 2 ^ 32)%N /\
    snd (step (fst (run [] os)) (Append d f)) =
      NotImplemented [path_join (path_join base f) number].
Proof.
  intros os d f h used base.
  assert (S := run_shows os [] [] start_shows f). fold h in S.
  exists (print_N (appends f h mod 2 ^ 32)). split; [apply print_N_numeral|].
  cbn [step snd]. unfold get. rewrite S. unfold base, used.
  destruct (first_dir f h) eqn:E; [reflexivity|]. rewrite (appends_none _ _ E). reflexivity.
Qed.
Print Assumptions C99_append_is_refused.

(** No call of a program on the on-disk store ever succeeds, reads included, and
    a read asks for no directory. *)
Theorem C99_nothing_is_ever_stored : forall os,
  Forall2 (fun o x => match o with
                      | Append _ _ => exists p, x = NotImplemented [p]
                      | Read _ _ _ => x = NotImplemented []
                      | Clear => x = Returned []
                      end) os (snd (run [] os)).
Proof.
  intros os. generalize (@nil (text * disk_backend)). induction os as [|o os IH]; intros m; [constructor|].
  cbn [run]. destruct (step m o) as (m1, y) eqn:E. specialize (IH m1).
  destruct (run m1 os) as (m2, ys). cbn [snd] in *. constructor; [|exact IH].
  destruct o; cbn in E; inversion E; eauto.
Qed.
Print Assumptions C99_nothing_is_ever_stored.

(** Different names in one data directory never ask for the same path as long as
    they have no separator, and one name never asks twice for the same path
    between two clearings and fewer than 2^32 appends. *)
Theorem C99_paths_are_different : forall base f g number number',
  ~ In "/"%char f -> ~ In "/"%char g -> ~ In "/"%char number -> ~ In "/"%char number' ->
  f <> [] -> g <> [] ->
  path_join (path_join base f) number = path_join (path_join base g) number' -> f = g /\ number = number'.
Proof.
  assert (J : forall b f n, ~ In slash f -> f <> [] ->
    path_join (path_join b f) n = path_join b f ++ slash :: n).
  { intros b f n Nf Ef. unfold path_join at 1. destruct (path_join b f) as [|c r] eqn:E.
    - exfalso. unfold path_join in E. destruct b as [|c b]; [congruence|].
      destruct (Ascii.eqb (last (c :: b) "a"%char) slash); discriminate.
    - rewrite <- E. destruct (Ascii.eqb (last (path_join b f) "a"%char) slash) eqn:L; [|reflexivity].
      exfalso. apply Ascii.eqb_eq in L.
      assert (X : exists p, path_join b f = p ++ f).
      { unfold path_join. destruct b as [|c' b']; [exists []; reflexivity|].
        destruct (Ascii.eqb (last (c' :: b') "a"%char) slash); [exists (c' :: b'); reflexivity|].
        exists ((c' :: b') ++ [slash]). rewrite <- app_assoc. reflexivity. }
      destruct X as (p & X). rewrite X, last_app_ne in L by exact Ef.
      destruct (exists_last Ef) as (f' & x & ->). rewrite last_last in L. subst x.
      apply Nf. apply in_or_app. right. left. reflexivity. }
  assert (T : forall (a b x y : text), ~ In slash x -> ~ In slash y ->
    a ++ slash :: x = b ++ slash :: y -> a = b /\ x = y).
  { induction a as [|c a IH]; intros [|c' b] x y Nx Ny E; cbn [app] in E; inversion E; subst.
    - auto.
    - exfalso. apply Nx. apply in_or_app. right. left. reflexivity.
    - exfalso. apply Ny. apply in_or_app. right. left. reflexivity.
    - destruct (IH b x y Nx Ny H1) as (-> & ->). auto. }
  intros base f g n n' Nf Ng Nn Nn' Ef Eg E.
  rewrite !J in E by assumption. apply T in E; auto. destruct E as (E & ->).
  apply join_injective in E. auto.
Qed.
Print Assumptions C99_paths_are_different.

(** The second call uses the directory of the first one; clearing forgets it. *)
Example C99_case :
  let f := str "msfem" in
  snd (run [] [Append (Some (str "out")) f; Append None f; Read None f 0; Clear; Append None f]) =
  [NotImplemented [str "out/msfem/0"]; NotImplemented [str "out/msfem/1"]; NotImplemented []; Returned [];
   NotImplemented [str "data/msfem/0"]].
Proof. vm_compute. reflexivity. Qed.
