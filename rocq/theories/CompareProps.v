(** Theorems about the reported numbers as norms and about the comparison
    tests: C88, C89. *)
From Coq Require Import Reals List Arith Bool String Lra Lia.
From Verif Require Import RSum ErrorModel ErrorSpec ErrorProofs ErrorProps CompareModel CompareSpec CompareProofs.
Import ListNotations.
Open Scope R_scope.
Open Scope string_scope.

(** No reported number is negative. *)
Theorem C88_reported_errors_are_not_negative : forall d quad over zero exact fem cs ms matched csv k v,
  print func R fdiff (l2_error quad over) (h1s_error d quad over) zero exact fem cs ms matched = Report csv ->
  In (k, v) csv -> 0 <= v.
Proof.
  intros d quad over zero exact fem cs ms matched csv k v E I.
  destruct (print_entries _ _ _ _ _ _ _ _ _ _ _ _ E) as (m & f & c & _ & _ & _ & B).
  apply B in I. apply entry_value in I. destruct I as (g & [->| ->]); apply sqrt_pos.
Qed.
Print Assumptions C88_reported_errors_are_not_negative.

(** The discrete functions of a report. *)
Definition discrete (zero : func) (fem : option func) (cs : attempt func) (ms : option (attempt func)) (g : func) : Prop :=
  fem = Some g \/ cs = Done g \/ ms = Some (Done g) \/ g = zero.

(** In one report the three L2 errors between exact, multiscale and fine (or
    coarse) solution are the sides of a triangle.  [SAME]: the differences of
    discrete functions are integrated to the same value by the quadrature used
    for the exact solution. *)
Theorem C88_l2_errors_form_triangles : forall d quad over zero exact fem cs ms matched csv p,
  (forall n q, In q (quad n) -> 0 <= snd q) ->
  print func R fdiff (l2_error quad over) (h1s_error d quad over) zero exact fem cs ms matched = Report csv ->
  (forall g, discrete zero fem cs ms g -> fo g = p) ->
  (forall u g h, exact = Some u -> discrete zero fem cs ms g -> discrete zero fem cs ms h ->
     lsum (quad (2 * Nat.max (fo u) p + over)%nat) (fun q => snd q * ((fv g (fst q) - fv h (fst q)) * (fv g (fst q) - fv h (fst q)))) =
     lsum (quad (2 * p + over)%nat) (fun q => snd q * ((fv g (fst q) - fv h (fst q)) * (fv g (fst q) - fv h (fst q))))) ->
  (forall a b c, In ("msfem_exact_L2", a) csv -> In ("fem_exact_L2", b) csv -> In ("msfem_fem_L2", c) csv -> sides a b c) /\
  (forall a b c, In ("msfem_exact_L2", a) csv -> In ("coarse_fem_exact_L2", b) csv ->
                 In ("msfem_coarse_fem_L2", c) csv -> sides a b c).
Proof.
  intros d quad over zero exact fem cs ms matched csv p W E O SAME.
  destruct (print_entries _ _ _ _ _ _ _ _ _ _ _ _ E) as (m & f & c & F & C & M & B).
  assert (DM : forall g, m = Some g -> discrete zero fem cs ms g) by (intros g X; apply M in X; unfold discrete; auto).
  assert (DF : forall g, f = Some g -> discrete zero fem cs ms g).
  { intros g X. destruct F as [->| ->]; [unfold discrete; auto|discriminate]. }
  assert (DC : discrete zero fem cs ms c) by (destruct C as [->| ->]; unfold discrete; auto).
  split; intros x y z I J K; apply B in I; apply B in J; apply B in K.
  - apply key_me_l in I. apply key_fe_l in J. apply key_mf_l in K.
    destruct I as (u & g & U & G & ->). destruct J as (u' & h & U' & Hh & ->). destruct K as (g' & h' & G' & H' & ->).
    assert (u' = u) by congruence. assert (g' = g) by congruence. assert (h' = h) by congruence. subst u' g' h'.
    apply sides_l2 with p; auto.
    exact (SAME u g h U (DM g G) (DF h Hh)).
  - apply key_me_l in I. apply key_ce_l in J. apply key_mc_l in K.
    destruct I as (u & g & U & G & ->). destruct J as (u' & U' & ->). destruct K as (g' & G' & ->).
    assert (u' = u) by congruence. assert (g' = g) by congruence. subst u' g'.
    apply sides_l2 with p; auto.
    exact (SAME u g c U (DM g G) DC).
Qed.
Print Assumptions C88_l2_errors_form_triangles.

(** The same for the H1 seminorm. *)
Theorem C88_h1_errors_form_triangles : forall d quad over zero exact fem cs ms matched csv p,
  (forall n q, In q (quad n) -> 0 <= snd q) ->
  print func R fdiff (l2_error quad over) (h1s_error d quad over) zero exact fem cs ms matched = Report csv ->
  (forall g, discrete zero fem cs ms g -> fo g = p) ->
  (forall u g h, exact = Some u -> discrete zero fem cs ms g -> discrete zero fem cs ms h ->
     lsum (quad (2 * (Nat.max (fo u) p - 1) + over)%nat) (fun q => snd q * rsum d (fun k =>
       (fg g (fst q) k - fg h (fst q) k) * (fg g (fst q) k - fg h (fst q) k))) =
     lsum (quad (2 * (p - 1) + over)%nat) (fun q => snd q * rsum d (fun k =>
       (fg g (fst q) k - fg h (fst q) k) * (fg g (fst q) k - fg h (fst q) k)))) ->
  (forall a b c, In ("msfem_exact_H1s", a) csv -> In ("fem_exact_H1s", b) csv -> In ("msfem_fem_H1s", c) csv -> sides a b c) /\
  (forall a b c, In ("msfem_exact_H1s", a) csv -> In ("coarse_fem_exact_H1s", b) csv ->
                 In ("msfem_coarse_fem_H1s", c) csv -> sides a b c).
Proof.
  intros d quad over zero exact fem cs ms matched csv p W E O SAME.
  destruct (print_entries _ _ _ _ _ _ _ _ _ _ _ _ E) as (m & f & c & F & C & M & B).
  assert (DM : forall g, m = Some g -> discrete zero fem cs ms g) by (intros g X; apply M in X; unfold discrete; auto).
  assert (DF : forall g, f = Some g -> discrete zero fem cs ms g).
  { intros g X. destruct F as [->| ->]; [unfold discrete; auto|discriminate]. }
  assert (DC : discrete zero fem cs ms c) by (destruct C as [->| ->]; unfold discrete; auto).
  split; intros x y z I J K; apply B in I; apply B in J; apply B in K.
  - apply key_me_h in I. apply key_fe_h in J. apply key_mf_h in K.
    destruct I as (u & g & U & G & ->). destruct J as (u' & h & U' & Hh & ->). destruct K as (g' & h' & G' & H' & ->).
    assert (u' = u) by congruence. assert (g' = g) by congruence. assert (h' = h) by congruence. subst u' g' h'.
    apply sides_h1 with p; auto.
    exact (SAME u g h U (DM g G) (DF h Hh)).
  - apply key_me_h in I. apply key_ce_h in J. apply key_mc_h in K.
    destruct I as (u & g & U & G & ->). destruct J as (u' & U' & ->). destruct K as (g' & G' & ->).
    assert (u' = u) by congruence. assert (g' = g) by congruence. subst u' g'.
    apply sides_h1 with p; auto.
    exact (SAME u g c U (DM g G) DC).
Qed.
Print Assumptions C88_h1_errors_form_triangles.

(** An L2 error of zero means agreement at every quadrature point of positive
    weight, and conversely. *)
Theorem C88_zero_error_means_agreement : forall d quad over zero exact f c m csv v,
  (forall n q, In q (quad n) -> 0 <= snd q) ->
  print func R fdiff (l2_error quad over) (h1s_error d quad over) zero exact (Some f) (Done c) (Some (Done m)) true = Report csv ->
  In ("msfem_fem_L2", v) csv ->
  (v = 0 <-> forall q w, In (q, w) (quad (2 * Nat.max (fo m) (fo f) + over)%nat) -> 0 < w -> fv m q = fv f q).
Proof.
  intros d quad over zero exact f c m csv v W E I.
  pose proof (C36_entries_exact' _ _ _ _ _ _ _ _ _ _ _ E) as B.
  apply B in I. apply key_mf_l in I. destruct I as (g & h & G & K & ->). injection G as <-. injection K as <-.
  rewrite l2_error_at. rewrite (l2_zero_iff _ (W _)). cbn [fdiff fo]. split.
  - intros A q w J P. destruct (A (q, w) J) as [Z|Z]; simpl in Z; [lra|auto].
  - intros A (q, w) J. simpl. pose proof (W _ _ J) as P. simpl in P.
    destruct (Req_dec w 0) as [Z|Z]; [auto|]. right. apply (A q w J). lra.
Qed.
Print Assumptions C88_zero_error_means_agreement.

(** When the coarse reference solve fails, its reported errors are the norms of
    the exact solution. *)
Theorem C88_failed_coarse_solve_reports_norms : forall d quad over order u fem ms matched csv v,
  print func R fdiff (l2_error quad over) (h1s_error d quad over) (fzero order) (Some u) fem DuneError ms matched = Report csv ->
  (In ("coarse_fem_exact_L2", v) csv <->
     v = sqrt (lsum (quad (2 * Nat.max (fo u) order + over)%nat) (fun q => snd q * (fv u (fst q) * fv u (fst q))))) /\
  (In ("coarse_fem_exact_H1s", v) csv <->
     v = sqrt (lsum (quad (2 * (Nat.max (fo u) order - 1) + over)%nat) (fun q => snd q *
           rsum d (fun k => fg u (fst q) k * fg u (fst q) k)))).
Proof.
  intros d quad over order u fem ms matched csv v E.
  assert (B : exists m, forall k x, In (k, x) csv <->
    entry func R fdiff (l2_error quad over) (h1s_error d quad over) (Some u) m None (fzero order) k x).
  { destruct ms as [[g| |]|]; try (destruct matched; discriminate E).
    - destruct matched; [|discriminate E].
      destruct (C36_entries_exact func R fdiff (l2_error quad over) (h1s_error d quad over) (fzero order) (Some u) None (fzero order) (Some g)) as (a & A & A' & _).
      exists (Some g). assert (a = csv) by (cut (Report (V:=R) a = Report csv); [congruence|rewrite <- A, <- E; reflexivity]).
      now subst a.
    - destruct (C36_entries_exact func R fdiff (l2_error quad over) (h1s_error d quad over) (fzero order) (Some u) None (fzero order) None) as (a & A & A' & _).
      exists None. assert (a = csv) by (cut (Report (V:=R) a = Report csv); [congruence|rewrite <- A, <- E; reflexivity]).
      now subst a. }
  destruct B as (m & B).
  assert (X : l2_error quad over (fdiff u (fzero order)) =
    sqrt (lsum (quad (2 * Nat.max (fo u) order + over)%nat) (fun q => snd q * (fv u (fst q) * fv u (fst q))))).
  { unfold l2_error, l2_product. f_equal. apply lsum_ext. intros q _. cbn. f_equal. now rewrite !Rminus_0_r. }
  assert (Y : h1s_error d quad over (fdiff u (fzero order)) =
    sqrt (lsum (quad (2 * (Nat.max (fo u) order - 1) + over)%nat) (fun q => snd q *
           rsum d (fun k => fg u (fst q) k * fg u (fst q) k)))).
  { unfold h1s_error, h1s_product. f_equal. apply lsum_ext. intros q _. f_equal. unfold dot.
    apply rsum_ext. intros k _. cbn. now rewrite !Rminus_0_r. }
  rewrite <- X, <- Y. rewrite !B. split; split.
  - intros I. apply key_ce_l in I. destruct I as (u' & U & ->). injection U as <-. reflexivity.
  - intros ->. econstructor; eauto.
  - intros I. apply key_ce_h in I. destruct I as (u' & U & ->). injection U as <-. reflexivity.
  - intros ->. econstructor; eauto.
Qed.
Print Assumptions C88_failed_coarse_solve_reports_norms.

(** Two points of weight one half, three functions. *)
Definition ex_quad (n : nat) : list (nat * R) := [(0%nat, 1/2); (1%nat, 1/2)].
Definition ex_fun (a b : R) : func := {| fv := fun q => if Nat.eqb q 0 then a else b; fg := fun _ _ => b - a; fo := 1 |}.
Example C88_case : exists csv,
  print func R fdiff (l2_error ex_quad 0) (h1s_error 1 ex_quad 0) (fzero 1)
    (Some (ex_fun 0 0)) (Some (ex_fun 3 3)) (Done (ex_fun 0 0)) (Some (Done (ex_fun 1 1))) true = Report csv /\
  (forall n q, In q (ex_quad n) -> 0 <= snd q) /\
  In ("msfem_exact_L2", 1) csv /\ In ("fem_exact_L2", 3) csv /\ In ("msfem_fem_L2", 2) csv /\
  In ("msfem_exact_H1s", 0) csv.
Proof.
  eexists. split; [reflexivity|]. split.
  - intros n q [<-|[<-|[]]]; simpl; lra.
  - assert (X : forall a, 0 <= a -> l2_error ex_quad 0 (fdiff (ex_fun 0 0) (ex_fun a a)) = a).
    { intros a P. unfold l2_error, l2_product. cbn. transitivity (sqrt (Rsqr a)); [f_equal; unfold Rsqr; lra|now apply sqrt_Rsqr]. }
    assert (Y : l2_error ex_quad 0 (fdiff (ex_fun 1 1) (ex_fun 3 3)) = 2).
    { unfold l2_error, l2_product. cbn. transitivity (sqrt (Rsqr 2)); [f_equal; unfold Rsqr; lra|apply sqrt_Rsqr; lra]. }
    assert (Z : h1s_error 1 ex_quad 0 (fdiff (ex_fun 0 0) (ex_fun 1 1)) = 0).
    { unfold h1s_error, h1s_product. cbn. transitivity (sqrt 0); [f_equal; lra|apply sqrt_0]. }
    pose proof (X 1 ltac:(lra)) as X1. pose proof (X 3 ltac:(lra)) as X3.
    cbn. rewrite X1, X3, Y, Z. repeat split; tauto.
Qed.

(** What a passing comparison test says, and all it says: every compared error
    (zero if it was not computed) is below its configured bound (-1 if there
    is none), and every error of the first run, and the compared ones, agree
    with the second run (zero if missing there). *)
Theorem C89_passing_test_means : forall feq keys expected first second,
  NoDup (map fst first) -> NoDup (map fst second) ->
  (compare_test feq keys expected first second = true <->
   (forall k v, In k keys -> value_or_zero first k v ->
      v < match expected k with Some e => e | None => -1 end) /\
   (forall k v w, In k keys \/ In k (map fst first) -> value_or_zero first k v ->
      value_or_zero second k w -> feq v w = true)).
Proof. exact compare_test_iff. Qed.
Print Assumptions C89_passing_test_means.

(** Without a configured bound the test fails. *)
Theorem C89_missing_bound_fails : forall feq keys expected first second k,
  (forall k v, In (k, v) first -> 0 <= v) ->
  In k keys -> expected k = None -> compare_test feq keys expected first second = false.
Proof.
  intros feq keys expected first second k P I E. apply not_true_is_false. unfold compare_test.
  rewrite andb_true_iff. intros (A & _). rewrite forallb_forall in A. specialize (A k I). rewrite E in A.
  apply gt_iff in A. unfold at_or_zero in A. destruct (assoc_str k first) as [v|] eqn:X; [|lra].
  apply assoc_in in X. specialize (P _ _ X). lra.
Qed.
Print Assumptions C89_missing_bound_fails.

(** Errors that are not computed pass every positive bound: with positive
    bounds and equal runs the tests pass for every problem without an exact
    solution, whatever was computed. *)
Theorem C89_no_exact_solution_passes : forall V diff l2 h1s zero fem cs ms matched expected csv feq keys,
  print V R diff l2 h1s zero None fem cs ms matched = Report csv ->
  keys = msfem_keys \/ keys = cgfem_keys ->
  (forall k, In k keys -> exists e, expected k = Some e /\ 0 < e) -> (forall a, feq a a = true) ->
  compare_test feq keys expected csv csv = true.
Proof.
  intros V diff l2 h1s zero fem cs ms matched expected csv feq keys E K X R.
  destruct (print_entries _ _ _ _ _ _ _ _ _ _ _ _ E) as (m & f & c & _ & _ & _ & B).
  assert (A : forall k, In k keys -> assoc_str k csv = None).
  { intros k I. destruct (assoc_str k csv) as [v|] eqn:Y; auto. apply assoc_in, B in Y. exfalso.
    destruct K as [-> | ->]; destruct I as [<-|[<-|[]]];
      [apply key_me_l in Y|apply key_me_h in Y|apply key_fe_l in Y|apply key_fe_h in Y];
      destruct Y as (u & g & Y & _); discriminate. }
  unfold compare_test. rewrite andb_true_iff. split.
  - apply forallb_forall. intros k I. apply gt_iff. unfold at_or_zero. rewrite (A k I).
    destruct (X k I) as (e & -> & P). exact P.
  - pose proof (print_keys_nodup _ _ _ _ _ _ _ _ _ _ _ _ E) as N.
    apply forallb_forall. intros (k, v) I. apply touch_in in I. cbn [fst snd]. unfold at_or_zero.
    destruct I as [I|(k' & I & Y & Z)].
    + rewrite (proj2 (assoc_nodup _ csv k v N) I). apply R.
    + injection Z as -> ->. rewrite Y. apply R.
Qed.
Print Assumptions C89_no_exact_solution_passes.

(** The same if the error calculation was skipped. *)
Theorem C89_skipped_errors_pass : forall feq keys expected,
  (forall k, In k keys -> exists e, expected k = Some e /\ 0 < e) -> feq 0 0 = true ->
  compare_test feq keys expected [] [] = true.
Proof.
  intros feq keys expected X Z. apply compare_test_iff; try constructor.
  - intros k v I [[]|(_ & ->)]. destruct (X k I) as (e & -> & P). exact P.
  - intros k v w _ [[]|(_ & ->)] [[]|(_ & ->)]. exact Z.
Qed.
Print Assumptions C89_skipped_errors_pass.

(** Entries of the second run that the first does not have are not seen. *)
Theorem C89_surplus_of_second_run_unseen : forall feq keys expected first second extra,
  (forall k, In k (map fst extra) -> ~ In k keys /\ ~ In k (map fst first)) ->
  compare_test feq keys expected first (second ++ extra)%list = compare_test feq keys expected first second.
Proof.
  intros feq keys expected first second extra D. unfold compare_test. f_equal.
  assert (X : forall k, ~ In k (map fst extra) -> at_or_zero (second ++ extra)%list k = at_or_zero second k).
  { intros k N. unfold at_or_zero. induction second as [|(k', x) s IH]; simpl.
    - rewrite (proj2 (assoc_none _ extra k) N). reflexivity.
    - destruct (String.eqb k k'); auto. }
  apply forallb_agree. intros (k, v) I. cbn [fst snd]. f_equal. apply X. intros Y. apply D in Y.
  apply touch_in in I. destruct Y as (Y1 & Y2). destruct I as [I|(k' & I & _ & Z)].
  - apply (in_map fst) in I. contradiction.
  - injection Z as -> _. contradiction.
Qed.
Print Assumptions C89_surplus_of_second_run_unseen.

Definition ex_feq (a b : R) : bool := if Req_EM_T a b then true else false.
Definition ex_bounds (k : string) : option R := Some 1.
Example C89_case :
  compare_test ex_feq msfem_keys ex_bounds
    [("msfem_exact_L2", 1/2); ("msfem_exact_H1s", 3/4)] [("msfem_exact_L2", 1/2); ("msfem_exact_H1s", 3/4); ("msfem_L2", 7)] = true /\
  compare_test ex_feq msfem_keys ex_bounds [("msfem_exact_L2", 2)] [("msfem_exact_L2", 2)] = false /\
  compare_test ex_feq msfem_keys ex_bounds [("msfem_L2", 2)] [] = false.
Proof.
  assert (F : forall a, ex_feq a a = true) by (intros a; unfold ex_feq; destruct (Req_EM_T a a); congruence).
  assert (G : forall a b, a < b -> gt b a = true) by (intros; now apply gt_iff).
  assert (N : forall a b, b <= a -> gt b a = false).
  { intros a b P. apply not_true_is_false. rewrite gt_iff. lra. }
  unfold compare_test, msfem_keys, ex_bounds, at_or_zero. cbn [forallb fold_left touch assoc_str String.eqb Ascii.eqb Bool.eqb fst snd].
  cbn. rewrite !F, !G by lra. rewrite (N 2 1) by lra. cbn. rewrite ?F.
  repeat split; auto. unfold ex_feq. destruct (Req_EM_T 2 0); [lra|]. rewrite ?andb_false_r. reflexivity.
Qed.
