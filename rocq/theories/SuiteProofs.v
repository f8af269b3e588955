(** Lemmas for C123. *)
From Coq Require Import List Arith ZArith QArith Lia String.
From Verif Require Import ErrorModel GridModel SuiteModel SuiteSpec.
Import ListNotations.
Local Open Scope string_scope.

Lemma in_fill t s k w es : In (k, w) (fill t s es) <-> exists v, In (k, v) es /\ resolve t s v = Some w.
Proof.
  induction es as [|(k', v) r IH]; cbn [fill].
  - split; [intros []|intros (v & [] & _)].
  - destruct (resolve t s v) as [x|] eqn:E.
    + split.
      * intros [H|H].
        -- injection H as -> ->. exists v. split; [now left|exact E].
        -- apply IH in H. destruct H as (u & A & B). exists u. split; [now right|exact B].
      * intros (u & [A|A] & B).
        -- injection A as -> ->. rewrite E in B. injection B as ->. now left.
        -- right. apply IH. now exists u.
    + rewrite IH. split.
      * intros (u & A & B). exists u. split; [now right|exact B].
      * intros (u & [A|A] & B).
        -- injection A as -> ->. rewrite E in B. discriminate.
        -- now exists u.
Qed.

Lemma grids_of_the_setup : forall f names d ll ur overlap,
  In (f, names) shipped -> (d <= 3)%nat ->
  map fst (configurations f) = names /\
  forall s c, In (s, c) (configurations f) ->
  exists macro micro layers, meant s macro micro layers /\
    grid_config d ll ur overlap c =
    Some {| c_ll := ll; c_ur := ur; c_layers := layers; c_coarse := map inject_Z (firstn d macro);
            c_micro := map inject_Z (firstn d micro); c_overlap := overlap |}.
Proof.
  intros f names d ll ur overlap I D.
  unfold shipped in I. cbn [In] in I.
  repeat (destruct I as [I|I]; [injection I as <- <-|]); [..|destruct I];
    (split; [vm_compute; reflexivity|]; intros s c H;
     vm_compute in H;
     repeat (destruct H as [H|H]; [injection H as <- <-|]); [..|destruct H];
     do 3 eexists; (split; [unfold meant; repeat first [left; reflexivity|right]|];
       destruct d as [|[|[|[|d]]]]; [..|lia]; vm_compute; reflexivity)).
Qed.
