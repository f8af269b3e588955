(** Theorems about the coarse system with rounded additions: C137. *)
From Coq Require Import ZArith QArith Qabs Qreals Reals List Arith Bool Lra Lia.
From Verif Require Import Util RSum BoundaryModel CoarseModel CoarseSpec LinModel LinSpec LinProofs EnergyProofs.
From Verif Require Import SystemModel QuadModel PatchSpec SolveSpec SolveProofs LayerSpec MaxSpec BoundsSpec.
From Verif Require Import InexactSpec InexactProofs ContrastSpec ContrastProofs ContrastProps.
From Verif Require Import SmpModel SmpSpec RoundSpec RoundProofs FlSmpModel FlSmpSpec FlSmpProps DriftSpec DriftProofs.
Import ListNotations.
Open Scope R_scope.

(** Whatever the threads do, the assembled system has exactly one solution and
    this is near the solution of the exact system. *)
Theorem C137_assembled_system : forall rnd slot tmp (cells : list (list cell)) sched q n con M V g c de df,
  rounding rnd -> private (length cells) slot ->
  let s := execute rnd slot sched (begin tmp cells) in done s ->
  nearly_given n q cells M V de df -> stiff n con M c -> 0 <= de -> INR n * de < c ->
  one_solution n (coarse_apply n con (left_matrix s) (left_rhs s) g) /\
  forall u u', coarse_apply n con M V g u -> coarse_apply n con (left_matrix s) (left_rhs s) g u' ->
    squares n (fun i => u i - u' i) <=
    INR n * ((df + de * rsum n (fun j => Rabs (u j))) * (df + de * rsum n (fun j => Rabs (u j)))) / ((c - INR n * de) * (c - INR n * de)).
Proof.
  intros rnd slot tmp cells sched q n con M V g c de df Rd Own s F (Lq & Gm & Gv) St Pe Sm.
  assert (A : forall e, Rabs (Q2R (m_mem s e) - exact_entry cells e) <= rounding_part q cells e).
  { intros e. unfold exact_entry, rounding_part. rewrite <- Q2R_minus, Q2R_abs. apply Qle_Rle.
    apply (C134_accuracy rnd slot tmp cells sched e q Rd Own (Lq e) F). }
  assert (T : forall e x, Rabs (Q2R (m_mem s e) - x) <= Rabs (exact_entry cells e - x) + rounding_part q cells e).
  { intros e x. replace (Q2R (m_mem s e) - x) with ((exact_entry cells e - x) + (Q2R (m_mem s e) - exact_entry cells e)) by ring.
    eapply Rle_trans; [apply Rabs_triang|]. apply Rplus_le_compat_l. apply A. }
  assert (De : forall i j, (i < n)%nat -> (j < n)%nat -> Rabs (left_matrix s i j - M i j) <= de).
  { intros i j Li Lj. eapply Rle_trans; [apply T|now apply Gm]. }
  assert (Df : forall i, (i < n)%nat -> Rabs (left_rhs s i - V i) <= df).
  { intros i Li. eapply Rle_trans; [apply T|now apply Gv]. }
  split; [now apply (one_near n con M (left_matrix s) (left_rhs s) g c de)|].
  intros u u' U U'. pose proof (near n con M (left_matrix s) V (left_rhs s) g c de df St Pe De Df Sm u u' U U') as B.
  set (k := c - INR n * de) in *. assert (Pk : 0 < k) by (unfold k; lra). assert (0 < k * k) by now apply Rmult_lt_0_compat.
  apply (Rmult_le_reg_l (k * k)); auto. set (Z := INR n * (_ * _)) in *. replace (k * k * (Z / (k * k))) with Z by (field; lra). exact B.
Qed.
Print Assumptions C137_assembled_system.

(** Hence the solutions of two runs, with different numbers of threads or
    different schedules, are near each other. *)
Theorem C137_two_runs : forall rnd slot slot' tmp tmp' (cells cells' : list (list cell)) sched sched' q n con M V g c de df,
  rounding rnd -> private (length cells) slot -> private (length cells') slot' ->
  let s := execute rnd slot sched (begin tmp cells) in
  let s' := execute rnd slot' sched' (begin tmp' cells') in done s -> done s' ->
  nearly_given n q cells M V de df -> nearly_given n q cells' M V de df -> stiff n con M c -> 0 <= de -> INR n * de < c ->
  forall u u1 u2, coarse_apply n con M V g u ->
    coarse_apply n con (left_matrix s) (left_rhs s) g u1 -> coarse_apply n con (left_matrix s') (left_rhs s') g u2 ->
    squares n (fun i => u1 i - u2 i) <=
    4 * (INR n * ((df + de * rsum n (fun j => Rabs (u j))) * (df + de * rsum n (fun j => Rabs (u j)))) / ((c - INR n * de) * (c - INR n * de))).
Proof.
  intros rnd slot slot' tmp tmp' cells cells' sched sched' q n con M V g c de df Rd Own Own' s s' F F' G G' St Pe Sm u u1 u2 U U1 U2.
  destruct (C137_assembled_system rnd slot tmp cells sched q n con M V g c de df Rd Own F G St Pe Sm) as (_ & B1).
  destruct (C137_assembled_system rnd slot' tmp' cells' sched' q n con M V g c de df Rd Own' F' G' St Pe Sm) as (_ & B2).
  specialize (B1 u u1 U U1). specialize (B2 u u2 U U2).
  assert (T : squares n (fun i => u1 i - u2 i) <= 2 * squares n (fun i => u i - u1 i) + 2 * squares n (fun i => u i - u2 i)).
  { unfold squares. rewrite <- !rsum_scale, <- rsum_plus. apply SampleProofs.rsum_le. intros i _.
    pose proof (Rle_0_sqr ((u i - u1 i) + (u i - u2 i))) as Q. unfold Rsqr in Q. lra. }
  lra.
Qed.
Print Assumptions C137_two_runs.

(** The coarse system of the method without oversampling: the constant is
    explicit, and the local problems need not be solved exactly. *)
Theorem C137_multiscale_system :
  forall ns hs num n con diffusion o pa rquad x fs source neumann M V alpha a e
         rnd slot tmp (cells : list (list cell)) sched q g de df,
  length hs = length ns -> Forall (fun m => (0 < m)%nat) ns -> Forall (Rlt 0) hs -> numbering ns num n ->
  (2 <= gauss_points o <= 3)%nat -> 0 < alpha ->
  (forall cs, In cs (PatchSpec.cells ns) -> no_oversampling hs (pa cs) /\ clamped (pa cs) cs (x cs) /\
     throughout (pa cs) (fun y => at_least (length ns) alpha (diffusion y))) ->
  layer_constrained ns num con a e ->
  walk (length ns) (list R) diffusion source neumann (fun _ _ => 0) (fun _ => 0)
    (patched ns hs num pa (line_rule (gauss_points o)) rquad x fs) = Some (M, V) ->
  rounding rnd -> private (length cells) slot ->
  let s := execute rnd slot sched (begin tmp cells) in done s ->
  nearly_given n q cells M V de df -> 0 <= de -> INR n * de < stiffness_bound ns hs alpha a ->
  one_solution n (coarse_apply n con (left_matrix s) (left_rhs s) g) /\
  forall u u', coarse_apply n con M V g u -> coarse_apply n con (left_matrix s) (left_rhs s) g u' ->
    squares n (fun i => u i - u' i) <=
    INR n * ((df + de * rsum n (fun j => Rabs (u j))) * (df + de * rsum n (fun j => Rabs (u j)))) /
      ((stiffness_bound ns hs alpha a - INR n * de) * (stiffness_bound ns hs alpha a - INR n * de)).
Proof.
  intros ns hs num n con diffusion o pa rquad x fs source neumann M V alpha a e rnd slot tmp cells sched q g de df Lh Fn Fh Nu Oo Pa H La W Rd Own s F G Pe Sm.
  apply (C137_assembled_system rnd slot tmp cells sched q); auto.
  intros v Vv. apply Rle_trans with (qform n M v).
  2:{ apply Req_le. unfold qform. apply rsum_ext. intros i _. apply rsum_ext. intros. ring. }
  apply Rle_trans with (alpha * lsum (PatchSpec.cells ns) (gradient_square hs num v)).
  - pose proof (laplace_lower ns hs num n con v a e Lh Fn Fh Nu La Vv) as B.
    apply (Rmult_le_compat_l alpha) in B; [|lra]. replace (stiffness_bound ns hs alpha a) with (alpha * stiffness_bound ns hs 1 a); [lra|].
    unfold stiffness_bound, Rdiv. ring.
  - rewrite <- lsum_scale. apply (C136_at_least_the_smallest_diffusion ns hs num n diffusion o pa rquad x fs source neumann M V (fun _ => alpha) v); auto.
    intros cs I. destruct (H cs I) as (No & Cl & Th). split; [exact No|]. split; [exact Cl|]. split; [lra|exact Th].
Qed.
Print Assumptions C137_multiscale_system.

(** Two cells with a common function, two threads, thirds at the quadrature
    points; the outer values are 0 and 1, exactly solved the inner value is 1/2.
    However the additions are rounded and whatever the schedule, it is off by
    at most 2^-47. *)
Definition thirds : list (list cell) := [[quad 0 1 (1 # 3) (1 # 3)]; [quad 1 2 (1 # 3) (1 # 3)]].
Definition ends (i : nat) : bool := negb (Nat.eqb i 1).
Definition tri (i j : nat) : R := nth j (nth i [[2/3; -2/3; 0]; [-2/3; 4/3; -2/3]; [0; -2/3; 2/3]] []) 0.
Definition outer_values (i : nat) : R := if Nat.eqb i 2 then 1 else 0.
Definition parts_list (e : entry) : list (list Q) := match e with
  | Mat 0 0 | Mat 2 2 => [[1 # 3; 1 # 3]] | Mat 1 1 => [[1 # 3; 1 # 3]; [1 # 3; 1 # 3]]
  | Mat 0 1 | Mat 1 0 | Mat 1 2 | Mat 2 1 => [[- (1 # 3); - (1 # 3)]]
  | Vec 0 | Vec 2 => [[1 # 3; - (1 # 3)]] | Vec 1 => [[1 # 3; - (1 # 3)]; [1 # 3; - (1 # 3)]] | _ => [] end%Q.
Lemma thirds_parts : forall e, parts e (concat thirds) = parts_list e.
Proof. intros [i j|i]; [destruct i as [|[|[|i]]]; destruct j as [|[|[|j]]]|destruct i as [|[|[|i]]]]; reflexivity. Qed.
(** 2^-49. *)
Definition eps : R := 1 / 562949953421312.
Lemma entry_given : forall (x y : Q) (z : R), Q2R x = z -> (y <= 1 # 562949953421312)%Q -> Rabs (Q2R x - z) + Q2R y <= eps.
Proof.
  intros x y z E L. rewrite E. replace (z - z) with 0 by ring. rewrite Rabs_R0, Rplus_0_l. apply Qle_Rle in L.
  eapply Rle_trans; [exact L|]. unfold eps, Q2R. cbn [Qnum Qden]. lra.
Qed.
Lemma thirds_given : nearly_given 3 2 thirds tri (fun _ => 0) eps eps.
Proof.
  split; [|split].
  - intros e p. rewrite thirds_parts. intros I.
    destruct e as [i j|i]; [destruct i as [|[|[|i]]]; destruct j as [|[|[|j]]]|destruct i as [|[|[|i]]]];
      cbn in I; repeat (destruct I as [<-|I]; [cbn; lia|]); destruct I.
  - intros i j Li Lj. unfold exact_entry, rounding_part. rewrite thirds_parts.
    destruct i as [|[|[|i]]]; [| | |lia]; (destruct j as [|[|[|j]]]; [| | |lia]);
      (apply entry_given; [unfold Q2R, tri; cbn; lra|vm_compute; discriminate]).
  - intros i Li. unfold exact_entry, rounding_part. rewrite thirds_parts.
    destruct i as [|[|[|i]]]; [| | |lia]; (apply entry_given; [unfold Q2R; cbn; lra|vm_compute; discriminate]).
Qed.
Lemma tri_stiff : stiff 3 ends tri (4/3).
Proof.
  intros v Vv. assert (v 0%nat = 0) by (apply Vv; [lia|reflexivity]). assert (v 2%nat = 0) by (apply Vv; [lia|reflexivity]).
  unfold squares. cbn [rsum]. rewrite H, H0. unfold tri. cbn [nth]. lra.
Qed.
Lemma tri_solution : coarse_apply 3 ends tri (fun _ => 0) outer_values (fun i => INR i / 2).
Proof.
  apply coarse_bvp. intros i Li. destruct i as [|[|[|i]]]; [| | |lia]; unfold ends, outer_values; cbn; unfold tri; cbn [nth]; lra.
Qed.
Example C137_case : forall rnd tmp sched, rounding rnd ->
  let s := execute rnd own sched (begin tmp thirds) in done s ->
  (exists u, coarse_apply 3 ends (left_matrix s) (left_rhs s) outer_values u) /\
  forall u, coarse_apply 3 ends (left_matrix s) (left_rhs s) outer_values u ->
    Rabs (u 1%nat - 1/2) <= 1 / 140737488355328.
Proof.
  intros rnd tmp sched Rd s F.
  destruct (C137_assembled_system rnd own tmp thirds sched 2 3 ends tri (fun _ => 0) outer_values (4/3) eps eps Rd (own_private _) F thirds_given tri_stiff)
    as ((Ex & _) & B); [unfold eps; lra|unfold eps; cbn; lra|].
  split; [exact Ex|]. intros u U. specialize (B (fun i => INR i / 2) u tri_solution U).
  unfold squares in B. cbn [rsum INR] in B.
  rewrite (Rabs_right (0 / 2)), (Rabs_right (1 / 2)), (Rabs_right ((1 + 1) / 2)) in B by lra.
  set (t := u 1%nat) in *. pose proof (Rle_0_sqr (0 / 2 - u 0%nat)) as Q0. pose proof (Rle_0_sqr ((1 + 1) / 2 - u 2%nat)) as Q2. unfold Rsqr in Q0, Q2.
  set (k := 4 / 3 - (1 + 1 + 1) * eps) in *. assert (K : 5/4 <= k) by (unfold k, eps; lra).
  assert (B2 : (t - 1/2) * (t - 1/2) <= 1 / 140737488355328 * (1 / 140737488355328)).
  { apply Rle_trans with ((1 + 1 + 1) * ((eps + eps * (0 + 0 / 2 + 1 / 2 + (1 + 1) / 2)) * (eps + eps * (0 + 0 / 2 + 1 / 2 + (1 + 1) / 2))) / (k * k)); [lra|].
    apply (Rmult_le_reg_l (k * k)); [nra|]. set (Z := (1 + 1 + 1) * (_ * _)). replace (k * k * (Z / (k * k))) with Z by (field; lra).
    apply Rle_trans with (25/16 * (1 / 140737488355328 * (1 / 140737488355328))); [unfold Z, eps; lra|]. apply Rmult_le_compat_r; [lra|nra]. }
  apply Rsqr_le_abs_0 in B2. rewrite (Rabs_right (1 / _)) in B2 by lra. exact B2.
Qed.
Definition in_turns : list nat := concat (repeat [1; 0] 12)%nat.
Example C137_a_schedule : forall rnd tmp, done (execute rnd own in_turns (begin tmp thirds)).
Proof. intros rnd tmp [|[|[|t]]]; reflexivity. Qed.

(** 2 x 2 coarse cells of 2 x 2 boxes as in C136_case, the nodes of the right
    side constrained; the numbers of the exact system, rounded up to multiples
    of 2^-48, are added by one thread. *)
Definition upward (x : R) : Q := Rdefinitions.up (x * 281474976710656)%R # 281474976710656.
Definition one_by_one (M : nat -> nat -> R) (V : nat -> R) : list (list cell) :=
  [[{| c_n := 9; c_index := fun i => i;
       c_locals := [{| l_covered := true; l_mat := [fun i j => upward (M i j)]; l_vec := [fun i => upward (V i)] |}] |}]].
Lemma upward_near : forall x, Rabs (Q2R (upward x) - x) <= 1 / 281474976710656.
Proof.
  intros x. destruct (archimed (x * 281474976710656)) as (A & B). unfold upward, Q2R. cbn [Qnum Qden].
  set (k := IZR (Rdefinitions.up (x * 281474976710656))) in *.
  apply Rabs_le. split; lra.
Qed.
Lemma one_matrix : forall M V i j, (i < 9)%nat -> (j < 9)%nat -> parts (Mat i j) (concat (one_by_one M V)) = [[upward (M i j)]].
Proof.
  intros M V i j Li Lj. do 9 (destruct i as [|i]; [do 9 (destruct j as [|j]; [reflexivity|]); lia|]). lia.
Qed.
Lemma one_vector : forall M V i, (i < 9)%nat -> parts (Vec i) (concat (one_by_one M V)) = [[upward (V i)]].
Proof. intros M V i Li. do 9 (destruct i as [|i]; [reflexivity|]). lia. Qed.
Lemma one_entry : forall cells e x, parts e (concat cells) = [[upward x]] ->
  Rabs (exact_entry cells e - x) + rounding_part 1 cells e <= (1 + Rabs x) / 140737488355328.
Proof.
  intros cells e x E. unfold exact_entry, rounding_part. rewrite E. cbn [map total fold_right length Nat.add].
  pose proof (upward_near x) as U.
  assert (S : Q2R (Qplus (Qplus (upward x) 0) 0) = Q2R (upward x)) by (apply Qeq_eqR; ring). rewrite S.
  assert (G : (grown 2 - 1 <= 1 # 1125899906842624)%Q) by (vm_compute; discriminate).
  assert (Sz : (size_of [upward x] + 0 == Qabs (upward x))%Q) by (unfold size_of; cbn [map total fold_right]; ring).
  assert (L : Q2R ((grown 2 - 1) * (size_of [upward x] + 0)) <= 1 / 1125899906842624 * Rabs (Q2R (upward x))).
  { rewrite Q2R_mult. rewrite (Qeq_eqR _ _ Sz), <- Q2R_abs. apply Rmult_le_compat_r; [apply Rabs_pos|].
    apply Qle_Rle in G. eapply Rle_trans; [exact G|]. unfold Q2R. cbn [Qnum Qden]. lra. }
  assert (T : Rabs (Q2R (upward x)) <= Rabs x + 1 / 281474976710656).
  { replace (Q2R (upward x)) with (x + (Q2R (upward x) - x)) by ring. eapply Rle_trans; [apply Rabs_triang|]. lra. }
  pose proof (Rabs_pos x). lra.
Qed.
Lemma bounded_entries : forall n (M : nat -> nat -> R) b, (forall i j, M i j = M j i) -> (forall u, 0 <= qform n M u <= b * squares n u) ->
  forall i j, (i < n)%nat -> (j < n)%nat -> Rabs (M i j) <= b.
Proof.
  intros n M b Sy H i j Li Lj. assert (Sm : EnergySpec.symmetric n M) by (intros ? ? _ _; apply Sy).
  assert (F : forall u, qform n M u = dot n (mv n M u) u).
  { intros u. unfold qform, dot, mv. apply rsum_ext. intros a _. rewrite Rmult_comm, <- rsum_scale. apply rsum_ext. intros. ring. }
  set (e := PerturbProofs.unit_at).
  assert (Ue : forall k m, (k < n)%nat -> dot n (e m) (e k) = if Nat.eqb k m then 1 else 0) by (intros; unfold e; rewrite PerturbProofs.unit_dot; auto).
  assert (D : forall k, (k < n)%nat -> 0 <= M k k <= b).
  { intros k Lk. pose proof (H (e k)) as B. rewrite F in B. assert (Z : dot n (mv n M (e k)) (e k) = M k k) by now apply PerturbProofs.unit_entry. rewrite Z in B.
    change (squares n (e k)) with (dot n (e k) (e k)) in B. rewrite Ue, Nat.eqb_refl in B by auto. lra. }
  assert (E : forall s, 0 <= M i i + 2 * s * M i j + s * s * M j j).
  { intros s. destruct (H (fun k => e i k + s * e j k)) as (B & _). rewrite F, PerturbProofs.form_square in B by auto.
    unfold e in B. rewrite !PerturbProofs.unit_entry in B by auto. rewrite (Sy j i) in B. lra. }
  pose proof (E 1) as E1. pose proof (E (-1)) as E2. pose proof (D i Li). pose proof (D j Lj). apply Rabs_le. lra.
Qed.
Lemma member_le : forall n f i, (i < n)%nat -> (forall k, (k < n)%nat -> 0 <= f k) -> f i <= rsum n f.
Proof.
  induction n as [|n IH]; intros f i Li P; [lia|]. cbn [rsum]. assert (0 <= f n) by (apply P; lia).
  assert (0 <= rsum n f) by (apply rsum_nonneg; intros; apply P; lia).
  destruct (Nat.eq_dec i n) as [->|N]; [lra|]. assert (f i <= rsum n f) by (apply IH; [lia|intros; apply P; lia]). lra.
Qed.
From Verif Require Import PatchProps SolveProps WholeProps LayerProps BoundsProps.
Example C137_multiscale_case : exists x M V,
  (forall cs, In cs (PatchSpec.cells [2; 2]%nat) -> corrected half num3 stripes 2 3 (exact_patch outer9 cs) cs (x cs)) /\
  walk 2 (list R) stripes (fun _ => 0) (fun _ => 0) (fun _ _ => 0) (fun _ => 0)
    (patched [2; 2]%nat half num3 (exact_patch outer9) (line_rule 3) (fun _ _ => []) x (fun _ => [])) = Some (M, V) /\
  forall rnd tmp g, rounding rnd ->
  let s := execute rnd own (repeat 0%nat 94) (begin tmp (one_by_one M V)) in
  let df := (1 + rsum 9 (fun i => Rabs (V i))) / 140737488355328 in
  one_solution 9 (coarse_apply 9 right9 (left_matrix s) (left_rhs s) g) /\
  forall u u', coarse_apply 9 right9 M V g u -> coarse_apply 9 right9 (left_matrix s) (left_rhs s) g u' ->
    squares 9 (fun i => u i - u' i) <=
    9 * ((df + 1 / 1099511627776 * rsum 9 (fun j => Rabs (u j))) * (df + 1 / 1099511627776 * rsum 9 (fun j => Rabs (u j)))) * (25 * 25).
Proof.
  destruct C136_case as (x & M & V & X & W & K & _). exists x, M, V. split; [exact X|split; [exact W|]].
  intros rnd tmp g Rd s df.
  assert (No : forall cs, no_oversampling half (exact_patch outer9 cs)).
  { intros cs. split; [apply exact_sound|]. split; [|split; [reflexivity|apply outer9_constrained]].
    intros k L. destruct k as [|[|k]]; [| |cbn in L; lia]; cbn; lra. }
  assert (Sn : forall y, symmetric_nonnegative 2 (stripes y)) by (intros y; apply stripes_between).
  assert (Cl : forall cs, In cs (PatchSpec.cells [2; 2]%nat) -> clamped (exact_patch outer9 cs) cs (x cs)).
  { intros cs I i js Li Nj Ou. destruct (X cs I i Li) as (y & _ & C). apply corrector_orthogonal in C.
    apply (proj1 C); [now apply num3_numbering|]. rewrite outer9_constrained by auto. exact Ou. }
  assert (Lay : layer_constrained [2; 2]%nat num3 right9 0 2).
  { split; [cbn; lia|split; [cbn; lia|]]. intros js Nj. inversion Nj as [|a ? ? ? La T]; subst. inversion T as [|b ? ? ? Lb T']; subst. inversion T'; subst.
    cbn [nth]. intros ->. unfold right9. destruct b as [|[|[|b]]]; [| | |lia]; reflexivity. }
  assert (Sy : forall i j, M i j = M j i).
  { intros i j. destruct (SystemProofs.walk_val _ _ _ _ _ _ _ _ _ _ W) as (A & _). rewrite !A. f_equal. apply lsum_ext. intros.
    apply CoarseProofs.cell_part_sym. intros y. exact (proj1 (Sn y)). }
  assert (Bd : forall i j, (i < 9)%nat -> (j < 9)%nat -> Rabs (M i j) <= 96).
  { apply bounded_entries; auto. intros u. specialize (K u). cbv zeta in K. set (k := lsum _ _) in K.
    assert (k <= 8 * squares 9 u).
    { pose proof (laplace_upper [2; 2]%nat half num3 9 u eq_refl half_pos num3_numbering) as B. fold k in B.
      unfold inverse_squares, half in B. cbn [volume fold_right] in B. lra. }
    lra. }
  assert (Dn : done s).
  { intros [|[|t]]; reflexivity. }
  assert (Gi : nearly_given 9 1 (one_by_one M V) M V (1 / 1099511627776) df).
  { split; [|split].
    - intros e p I. unfold parts, one_by_one, parts_of in I. cbn [concat app flat_map filter l_covered c_locals] in I. rewrite !app_nil_r in I.
      destruct e as [i j|i]; apply in_map_iff in I; destruct I as (q & <- & _); cbn [map l_mat l_vec length]; lia.
    - intros i j Li Lj. eapply Rle_trans; [apply one_entry, one_matrix; auto|]. specialize (Bd i j Li Lj). lra.
    - intros i Li. eapply Rle_trans; [apply one_entry, one_vector; auto|]. unfold df.
      assert (Rabs (V i) <= rsum 9 (fun i => Rabs (V i))) by (apply (member_le 9 (fun i => Rabs (V i))); auto; intros; apply Rabs_pos). lra. }
  assert (Sb : stiffness_bound [2; 2]%nat half 1 0 = 1/24).
  { unfold stiffness_bound, half. cbn [nth volume fold_right length pred pow INR]. lra. }
  destruct (C137_multiscale_system [2; 2]%nat half num3 9 right9 stripes 4 (exact_patch outer9) (fun _ _ => []) x (fun _ => [])
      (fun _ => 0) (fun _ => 0) M V 1 0 2 rnd own tmp (one_by_one M V) (repeat 0%nat 94) 1 g (1 / 1099511627776) df eq_refl
      ltac:(repeat constructor) half_pos num3_numbering ltac:(cbn; lia) Rlt_0_1) as (Ex & B); [|exact Lay|exact W|exact Rd|apply own_private|exact Dn|exact Gi|lra|rewrite Sb; cbn [INR]; lra|].
  - intros cs I. split; [apply No|]. split; [now apply Cl|]. intros f xs _ _ _. apply stripes_between.
  - split; [exact Ex|]. intros u u' U U'. specialize (B u u' U U'). rewrite Sb in B.
    set (z := df + _) in *. set (k := 1 / 24 - INR 9 * (1 / 1099511627776)) in *.
    assert (K1 : 1/25 <= k) by (unfold k; cbn [INR]; lra). assert (Z : 0 <= z * z) by apply Rle_0_sqr.
    eapply Rle_trans; [exact B|]. apply (Rmult_le_reg_l (k * k)); [nra|]. replace (INR 9) with 9 by (cbn [INR]; lra).
    replace (k * k * (9 * (z * z) / (k * k))) with (9 * (z * z)) by (field; lra).
    assert (1 <= (25 * k) * (25 * k)) by nra. nra.
Qed.
