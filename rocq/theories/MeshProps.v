(** Theorems about the projection of the multiscale solution on the fine grid of
    the program: C104. *)
From Coq Require Import List Arith ZArith QArith Lia Lqa Bool Qfield.
From Verif Require Import Util ProjectionModel ProjectionSpec ProjectionProofs MeshModel MeshSpec MeshProofs.
Import ListNotations.
Open Scope Q_scope.

(** Every value is divided by the number of cells around the node, which is two
    to the number of directions in which the node lies inside. *)
Theorem C104_value_by_position : forall u ns, cells_ok ns ->
  exists v, projected u ns = Projected v /\ length v = node_count ns /\
    (forall ks, node ns ks ->
       nth (number ns ks) v 0 * inject_Z (Z.of_nat (around ns ks)) == u (number ns ks)) /\
    (forall ks, inside ns ks ->
       nth (number ns ks) v 0 * inject_Z (2 ^ Z.of_nat (length ns)) == u (number ns ks)).
Proof.
  intros u ns C. destruct (projected_spec u ns C) as (v & A & B & D). exists v.
  split; [exact A|]. split; [exact B|]. split; [exact D|].
  intros ks I. rewrite <- (D ks (inside_node _ _ I)), (around_inside _ _ I).
  replace (Z.of_nat (2 ^ length ns)) with (2 ^ Z.of_nat (length ns))%Z; [reflexivity|].
  clear. induction (length ns) as [|k IH]; [reflexivity|].
  rewrite Nat2Z.inj_succ, Z.pow_succ_r by lia. rewrite IH. cbn [Nat.pow]. lia.
Qed.
Print Assumptions C104_value_by_position.

(** The constant one loses most of its norm. *)
Theorem C104_constant_norm : forall ns v, cells_ok ns -> projected_one ns = Projected v ->
  norm_square ns (fun j => nth j v 0) == qprod (map factor ns).
Proof.
  intros ns v C H. destruct (projected_spec (fun _ => 1) ns C) as (v' & A & _ & D).
  unfold projected_one in H. rewrite A in H. injection H as ->. now apply norm_of_one.
Qed.
Print Assumptions C104_constant_norm.

(** The test that projects the constant one and expects norm one: it can only
    pass if the fine grid is a single cell. *)
Theorem C104_projection_test : forall ns v, cells_ok ns -> projected_one ns = Projected v ->
  (norm_square ns (fun j => nth j v 0) == 1 <-> Forall (fun n => n = 1%nat) ns) /\
  (~ Forall (fun n => n = 1%nat) ns -> norm_square ns (fun j => nth j v 0) <= 7 # 12).
Proof.
  intros ns v C H. rewrite (C104_constant_norm ns v C H).
  assert (S : ~ Forall (fun n => n = 1%nat) ns -> qprod (map factor ns) <= 7 # 12).
  { intros N. assert (exists n, In n ns /\ (2 <= n)%nat) as (n & I & L).
    { clear H v. induction C as [|n r A B IH]; [destruct N; constructor|].
      destruct (Nat.eq_dec n 1) as [->|].
      - destruct IH as (m & I & L); [intros F; apply N; now constructor|]. exists m. split; [now right|exact L].
      - exists n. split; [now left|lia]. }
    now apply (qprod_small ns n). }
  split; [|exact S]. split; [|apply qprod_one].
  intros E. destruct (Forall_dec (fun n => n = 1%nat) (fun n => Nat.eq_dec n 1) ns) as [F|F]; [exact F|].
  specialize (S F). rewrite E in S. lra.
Qed.
Print Assumptions C104_projection_test.

Example C104_case :
  projected (fun j => inject_Z (Z.of_nat j)) [2%nat] = Projected [0; 1 # 2; 2] /\
  (exists v, projected_one [2; 3]%nat = Projected v /\ norm_square [2; 3]%nat (fun j => nth j v 0) == 119 # 432) /\
  (exists v, projected_one [32; 32]%nat = Projected v /\ norm_square [32; 32]%nat (fun j => nth j v 0) == 169 # 2304).
Proof.
  split; [vm_compute; reflexivity|]. split.
  - destruct (projected_one [2; 3]%nat) as [v| |] eqn:E; [|vm_compute in E; discriminate..].
    exists v. split; [reflexivity|]. rewrite (C104_constant_norm [2; 3]%nat v); [vm_compute; reflexivity|repeat constructor|exact E].
  - assert (C : cells_ok [32; 32]%nat) by (repeat constructor; lia).
    destruct (C104_value_by_position (fun _ => 1) _ C) as (v & A & _). exists v. split; [exact A|].
    rewrite (C104_constant_norm _ v C A). vm_compute. reflexivity.
Qed.

(** The error reported for the multiscale solution, for any product (L2, H1) and
    any function [u] it is compared with: on cells away from the boundary the
    projected function is 2^-d times the multiscale solution [w], so the square
    of the error is bounded from below by the size of [u], whatever the grid
    width, as soon as [w] is close to [u]. *)
Theorem C104_error_floor : forall X (P : product X) ns test u w v t,
  cells_ok ns -> lawful P (mesh ns) -> (forall e, test e = true -> inner ns e) ->
  projected w ns = Projected v -> 0 < t -> t < 1 ->
  let c := 1 / inject_Z (2 ^ Z.of_nat (length ns)) in
  let es := filter test (mesh ns) in
  (1 - t) * ((1 - c) * (1 - c)) * size_square P es u - (/ t - 1) * (c * c) * distance_square P es w u
  <= distance_square P (mesh ns) (fun j => nth j v 0) u.
Proof.
  intros X P ns test u w v t C L T H T0 T1 c es.
  destruct (C104_value_by_position w ns C) as (v' & A & _ & _ & D). rewrite H in A. injection A as <-.
  apply Qle_trans with (distance_square P es (fun j => nth j v 0) u).
  2:{ apply qsum_filter_le. intros e I. now apply (l_pos P (mesh ns) L). }
  unfold size_square, distance_square. unfold Qminus at 1.
  setoid_replace (- ((/ t - 1) * (c * c) * qsum (fun e => p_form P e (fun x => p_interp P w x - u x) (fun x => p_interp P w x - u x)) es))
    with ((- ((/ t - 1) * (c * c))) * qsum (fun e => p_form P e (fun x => p_interp P w x - u x) (fun x => p_interp P w x - u x)) es) by ring.
  rewrite <- !qsum_scale, <- qsum_plus. apply qsum_le. intros e I. apply filter_In in I. destruct I as (I & E).
  pose proof (floor_cell X P (mesh ns) L e c t (fun j => nth j v 0) w u I) as F.
  setoid_replace (- ((/ t - 1) * (c * c)) * p_form P e (fun x => p_interp P w x - u x) (fun x => p_interp P w x - u x))
    with (- ((/ t - 1) * (c * c) * p_form P e (fun x => p_interp P w x - u x) (fun x => p_interp P w x - u x))) by ring.
  apply F; auto. intros j J. destruct (T e E j J) as (ks & K & ->). rewrite <- (D ks K). unfold c.
  field. apply Qnot_eq_sym. apply Qlt_not_eq. change 0 with (inject_Z 0). rewrite <- Zlt_Qlt.
  apply Z.pow_pos_nonneg; lia.
Qed.
Print Assumptions C104_error_floor.

(** In particular a multiscale solution that agrees with [u] is reported with an
    error of at least 1 - 2^-d times the size of [u] away from the boundary. *)
Theorem C104_perfect_solution : forall X (P : product X) ns test u w v,
  cells_ok ns -> lawful P (mesh ns) -> (forall e, test e = true -> inner ns e) ->
  projected w ns = Projected v ->
  distance_square P (mesh ns) w u == 0 ->
  let c := 1 / inject_Z (2 ^ Z.of_nat (length ns)) in
  (1 - c) * (1 - c) * size_square P (filter test (mesh ns)) u
  <= distance_square P (mesh ns) (fun j => nth j v 0) u.
Proof.
  intros X P ns test u w v C L T H Z c.
  set (es := filter test (mesh ns)).
  assert (Z' : distance_square P es w u == 0).
  { apply Qle_antisym.
    - rewrite <- Z. apply qsum_filter_le. intros e I. now apply (l_pos P (mesh ns) L).
    - unfold distance_square. setoid_replace 0 with (qsum (fun _ : list nat => 0) es).
      + apply qsum_le. intros e I. apply (l_pos P (mesh ns) L). now apply filter_In in I.
      + clear. induction es; simpl; [reflexivity|]. rewrite <- IHes. ring. }
  assert (N : 0 <= size_square P es u).
  { unfold size_square. setoid_replace 0 with (qsum (fun _ : list nat => 0) es).
    + apply qsum_le. intros e I. apply (l_pos P (mesh ns) L). now apply filter_In in I.
    + clear. induction es; simpl; [reflexivity|]. rewrite <- IHes. ring. }
  set (S := size_square P es u) in *. set (R := distance_square P (mesh ns) (fun j => nth j v 0) u) in *.
  set (k := (1 - c) * (1 - c)).
  assert (K0 : 0 <= k) by (unfold k; generalize (1 - c); intros x; nra).
  assert (F : forall t, 0 < t -> t < 1 -> (1 - t) * (k * S) <= R).
  { intros t T0 T1. pose proof (C104_error_floor X P ns test u w v t C L T H T0 T1) as B. cbv zeta in B.
    fold c es S R k in B. rewrite Z' in B.
    setoid_replace ((1 - t) * (k * S)) with ((1 - t) * k * S - (/ t - 1) * (c * c) * 0) by ring. exact B. }
  set (y := k * S) in *. assert (Y : 0 <= y) by (apply Qmult_le_0_compat; auto).
  destruct (Qlt_le_dec R y) as [G|G]; [|exact G]. exfalso.
  assert (R0 : 0 <= R) by (pose proof (F (1 # 2)); lra).
  assert (Yp : 0 < y) by lra.
  set (t := (y - R) / (2 * y)).
  assert (E : t * y == (y - R) * (1 # 2)) by (unfold t; field; lra).
  assert (T0 : 0 < t).
  { unfold t. apply Qlt_shift_div_l; lra. }
  assert (T1 : t < 1).
  { unfold t. apply Qlt_shift_div_r; lra. }
  specialize (F t T0 T1). lra.
Qed.
Print Assumptions C104_perfect_solution.

(** The L2 product is such a product; on a grid of 3 x 3 cells the middle cell is
    inner, and the constant one, perfectly reproduced, is reported with an error
    whose square exceeds 1/16 (= (3/4)^2 / 9). *)
Example C104_floor_case :
  lawful (l2_product [3; 3]%nat) (mesh [3; 3]%nat) /\
  inner [3; 3]%nat [5; 6; 9; 10]%nat /\ In [5; 6; 9; 10]%nat (mesh [3; 3]%nat) /\
  exists v, projected_one [3; 3]%nat = Projected v /\
    1 # 16 <= distance_square (l2_product [3; 3]%nat) (mesh [3; 3]%nat) (fun j => nth j v 0) (fun _ => 1).
Proof.
  assert (IN : inner [3; 3]%nat [5; 6; 9; 10]%nat).
  { intros j [<-|[<-|[<-|[<-|[]]]]].
    - exists [1; 1]%nat. split; [repeat constructor; lia|reflexivity].
    - exists [1; 2]%nat. split; [repeat constructor; lia|reflexivity].
    - exists [2; 1]%nat. split; [repeat constructor; lia|reflexivity].
    - exists [2; 2]%nat. split; [repeat constructor; lia|reflexivity]. }
  assert (C : cells_ok [3; 3]%nat) by (repeat constructor; lia).
  split; [apply l2_lawful|]. split; [exact IN|]. split; [vm_compute; tauto|].
  destruct (C104_value_by_position (fun _ => 1) _ C) as (v & A & _). exists v. split; [exact A|].
  set (test := fun e => if list_eq_dec Nat.eq_dec e [5; 6; 9; 10]%nat then true else false).
  pose proof (C104_perfect_solution nat (l2_product [3; 3]%nat) [3; 3]%nat test (fun _ => 1) (fun _ => 1) v C (l2_lawful _)) as B.
  cbv zeta in B. eapply Qle_trans; [|apply B]; auto.
  - vm_compute. discriminate.
  - intros e. unfold test. destruct (list_eq_dec Nat.eq_dec e [5; 6; 9; 10]%nat) as [->|]; [auto|discriminate].
  - vm_compute. reflexivity.
Qed.
