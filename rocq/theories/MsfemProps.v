(** Properties C13-C17: data flow of a multiscale solver run. *)
From Coq Require Import List Arith ZArith Lia Bool.
From Verif Require Import Util StorageModel StorageSpec StorageProps MsfemModel MsfemSpec
  MsfemProofs MsfemRunProofs MsfemReconProofs.
Import ListNotations.

(** Concrete cells: two nodes per local space, "solver" doubles the right
    hand side, constraints set the first dof to zero. *)
Definition ex_constrain (v : vec ZS) : vec ZS := match v with [] => [] | _ :: r => 0%Z :: r end.
Definition ex_cell (k : nat) (b : bool) : cell ZS :=
  Build_cell ZS k 2 3 b (fun i => map Z.of_nat [k; i; k + i])
    [1; 2; 4]%Z [7; 5; 3]%Z ex_constrain
    (fun s r => Some (vadd ZS s (vscale ZS 2%Z r)))
    [[(0, true); (1, true)]; [(1, true); (2, false)]].

Lemma ex_dims : forall k b, dims_ok ZS (ex_cell k b).
Proof.
  intros k b. split; [reflexivity|]. split; [reflexivity|]. split; [reflexivity|]. split.
  - intros v H. destruct v; auto.
  - intros s r x Hs Hr E. cbn [c_solve ex_cell] in E. inversion E; subst x.
    assert (Hl : length s = length (vscale ZS 2%Z r)) by (rewrite vscale_length, Hs, Hr; reflexivity).
    rewrite (vadd_length ZS s _ Hl). exact Hs.
Qed.

Definition ex_prog (k : nat) (b : bool) : list (nat * instr ZS) :=
  match cell_prog ZS (ex_cell k b) with Some p => map (pair k) p | None => [] end.

(** Two threads, alternating instruction by instruction. *)
Fixpoint zip_merge {A} (l1 l2 : list A) : list A :=
  match l1, l2 with
  | x :: r1, y :: r2 => x :: y :: zip_merge r1 r2
  | _, _ => l1 ++ l2
  end.
Definition ex_trace : list (nat * instr ZS) := zip_merge (ex_prog 4 true) (ex_prog 1 false).

Lemma ex_interleaving : interleaving ZS [ex_cell 1 false; ex_cell 4 true] ex_trace.
Proof.
  split.
  - intros c [<-|[<-|[]]]; vm_compute; reflexivity.
  - intros k Hk. simpl in Hk. unfold proj.
    assert (H : forall e, In e ex_trace -> fst e = 1 \/ fst e = 4).
    { vm_compute. intros e H.
      repeat (destruct H as [<-|H]; [simpl; auto|]). destruct H. }
    replace (filter _ _) with (@nil (nat * instr ZS)); auto. symmetry.
    revert H. generalize ex_trace. induction l as [|x l IH]; intros H; simpl; auto.
    rewrite IH by (intros; apply H; now right).
    destruct (Nat.eqb_spec (fst x) k) as [E|]; auto.
    destruct (H x (or_introl eq_refl)); exfalso; apply Hk; lia.
Qed.

(** C13. *)
Theorem C13_reconstruction_uses_solver_functions : forall F cs tr s0 reads cs' cut coarse_of,
  NoDup (map (c_key F) cs) -> (forall c, In c cs -> dims_ok F c) ->
  empty_store F s0 -> interleaving F cs tr ->
  NoDup (map (c_key F) cs') -> incl cs' cs ->
  (forall c, In c cs -> length (coarse_of (c_key F c)) = c_n F c) ->
  exists s1 e1 s2 s3 corrections,
    exec F (s0, []) tr = Some (s1, e1) /\
    run_acts F s1 (map (fun t => ReadFresh F (fst (fst t)) (snd (fst t)) (snd t)) reads) = Some s2 /\
    identify_all F cut coarse_of s2 cs' = Some (s3, corrections) /\
    map fst corrections = map (c_key F) cs' /\
    forall c, In c cs' -> exists sols v,
      solver_functions F c sols /\ assoc (c_key F c) corrections = Some v /\
      length v = c_len F c /\
      forall j, nth j v (k0 F) =
        ref_value F cut (c_mesh F c) (c_n F c) (coarse_of (c_key F c)) sols j.
Proof. exact reconstruction. Qed.
Print Assumptions C13_reconstruction_uses_solver_functions.

Example C13_case :
  NoDup (map (c_key ZS) [ex_cell 1 false; ex_cell 4 true]) /\
  (forall c, In c [ex_cell 1 false; ex_cell 4 true] -> dims_ok ZS c) /\
  empty_store ZS (init ZS) /\
  interleaving ZS [ex_cell 1 false; ex_cell 4 true] ex_trace /\
  exists s1 e1 s3,
    exec ZS (init ZS, []) ex_trace = Some (s1, e1) /\
    identify_all ZS true (fun _ => [10; 100]%Z) s1 [ex_cell 4 true; ex_cell 1 false] =
      Some (s3, [(4, [0; 206; -2]%Z); (1, [0; 200; 0]%Z)]).
Proof.
  split; [repeat constructor; simpl; intuition discriminate|].
  split; [intros c [<-|[<-|[]]]; apply ex_dims|].
  split; [split; [exists []; reflexivity|reflexivity]|].
  split; [exact ex_interleaving|].
  eexists; eexists; eexists. split; [vm_compute; reflexivity|]. vm_compute. reflexivity.
Qed.

(** C14. *)
Theorem C14_parallel_solves_do_not_depend_on_schedule : forall F cs tr s0,
  NoDup (map (c_key F) cs) -> (forall c, In c cs -> dims_ok F c) ->
  empty_store F s0 -> interleaving F cs tr ->
  exists s1 e1, exec F (s0, []) tr = Some (s1, e1) /\ reachable F s1 /\
    (forall c sols, In c cs -> solver_functions F c sols ->
       stored F s1 (c_key F c) = sols /\
       forall len, fresh_read F s1 (c_key F c) (c_num F c) len = Some sols) /\
    (forall k, ~ In k (map (c_key F) cs) -> stored F s1 k = []).
Proof. exact parallel_solve_stored. Qed.
Print Assumptions C14_parallel_solves_do_not_depend_on_schedule.

(** Hypotheses as in C13_case; the alternating schedule stores both cells. *)
Example C14_case :
  exists s1 e1, exec ZS (init ZS, []) ex_trace = Some (s1, e1) /\
    stored ZS s1 4 = [[0; 0; 8]; [0; 2; 10]; [0; 4; 8]; [0; 10; 6]]%Z /\
    stored ZS s1 1 = [[0; 0; 2]; [0; 2; 4]; [0; 0; 0]; [0; 0; 0]]%Z.
Proof. eexists; eexists. split; [vm_compute; reflexivity|]. split; vm_compute; reflexivity. Qed.

(** C15. *)
Theorem C15_slots_after_local_solves : forall F c (sols0 sols : list (vec F)),
  dims_ok F c -> length sols0 = c_n F c + 2 ->
  (forall v, In v sols0 -> length v = c_len F c) ->
  solve_all_on_single_cell F c sols0 = Some sols ->
  let z := vzero F (c_len F c) in
  length sols = c_n F c + 2 /\
  (forall v, In v sols -> length v = c_len F c) /\
  (forall i, i < c_n F c ->
     c_solve F c z (c_constrain F c (c_inner F c i)) = Some (nth i sols [])) /\
  (if c_boundary F c then
     c_solve F c z (c_constrain F c (c_neu F c)) = Some (nth (c_n F c) sols []) /\
     c_solve F c z (c_constrain F c (c_dir F c)) = Some (nth (S (c_n F c)) sols [])
   else nth (c_n F c) sols [] = z /\ nth (S (c_n F c)) sols [] = z).
Proof. exact solver_slots. Qed.
Print Assumptions C15_slots_after_local_solves.

Theorem C15_slots_used_in_reconstruction : forall F c (sols : list (vec F)),
  dims_ok F c -> solver_functions F c sols -> c_boundary F c = true ->
  let z := vzero F (c_len F c) in
  exists (Q : nat -> vec F) (D N : vec F),
    (forall i, i < c_n F c -> c_solve F c z (c_constrain F c (c_inner F c i)) = Some (Q i)) /\
    c_solve F c z (c_constrain F c (c_dir F c)) = Some D /\
    c_solve F c z (c_constrain F c (c_neu F c)) = Some N /\
    forall cut coarse j,
      ref_value F cut (c_mesh F c) (c_n F c) coarse sols j =
      ksub F (kadd F
        (if cut && outside (c_mesh F c) j then k0 F
         else sum_n F (c_n F c) (fun i => kmul F (nth i coarse (k0 F)) (nth j (Q i) (k0 F))))
        (nth j D (k0 F))) (nth j N (k0 F)).
Proof. exact slots_end_to_end. Qed.
Print Assumptions C15_slots_used_in_reconstruction.

Example C15_case :
  dims_ok ZS (ex_cell 4 true) /\
  solver_functions ZS (ex_cell 4 true) [[0; 0; 8]; [0; 2; 10]; [0; 4; 8]; [0; 10; 6]]%Z /\
  solve_all_on_single_cell ZS (ex_cell 4 true) [[1; 1; 1]; [2; 2; 2]; [3; 3; 3]; [4; 4; 4]]%Z =
    Some [[0; 0; 8]; [0; 2; 10]; [0; 4; 8]; [0; 10; 6]]%Z.
Proof. split; [apply ex_dims|]. split; vm_compute; reflexivity. Qed.

(** C16. *)
Theorem C16_interior_correction_is_linear : forall F c (sols0 sols : list (vec F)),
  dims_ok F c -> length sols0 = c_n F c + 2 ->
  (forall v, In v sols0 -> length v = c_len F c) -> c_boundary F c = false ->
  solve_all_on_single_cell F c sols0 = Some sols ->
  forall cut j,
   (forall coarse, ref_value F cut (c_mesh F c) (c_n F c) coarse sols j =
     if cut && outside (c_mesh F c) j then k0 F
     else sum_n F (c_n F c) (fun i => kmul F (nth i coarse (k0 F)) (coef F sols i j))) /\
   (forall a b x y z,
     (forall i, i < c_n F c -> nth i z (k0 F) = kadd F (kmul F a (nth i x (k0 F))) (kmul F b (nth i y (k0 F)))) ->
     ref_value F cut (c_mesh F c) (c_n F c) z sols j =
     kadd F (kmul F a (ref_value F cut (c_mesh F c) (c_n F c) x sols j))
            (kmul F b (ref_value F cut (c_mesh F c) (c_n F c) y sols j))) /\
   (forall z, (forall i, i < c_n F c -> nth i z (k0 F) = k0 F) ->
     ref_value F cut (c_mesh F c) (c_n F c) z sols j = k0 F).
Proof. exact interior_linear. Qed.
Print Assumptions C16_interior_correction_is_linear.

(** Interior and boundary cell with the same (zero) coarse values. *)
Example C16_case :
  solve_all_on_single_cell ZS (ex_cell 1 false) [[1; 1; 1]; [2; 2; 2]; [3; 3; 3]; [4; 4; 4]]%Z =
    Some [[0; 0; 2]; [0; 2; 4]; [0; 0; 0]; [0; 0; 0]]%Z /\
  (exists s1 e1 s3, exec ZS (init ZS, []) ex_trace = Some (s1, e1) /\
    identify_all ZS false (fun _ => [0; 0]%Z) s1 [ex_cell 4 true; ex_cell 1 false] =
      Some (s3, [(4, [0; 6; -2]%Z); (1, [0; 0; 0]%Z)])).
Proof.
  split; [reflexivity|]. eexists; eexists; eexists.
  split; [vm_compute; reflexivity|]. vm_compute. reflexivity.
Qed.

(** C17. *)
Theorem C17_cut_keeps_exactly_the_coarse_cell : forall F inside m v j,
  flags_from inside m -> is_node m j ->
  nth j (cut_mesh F m v) (k0 F) = if inside j then nth j v (k0 F) else k0 F.
Proof. exact cut_flags. Qed.
Print Assumptions C17_cut_keeps_exactly_the_coarse_cell.

Theorem C17_cut_does_not_depend_on_order : forall F m1 m2 v,
  same_nodes m1 m2 -> cut_mesh F m1 v = cut_mesh F m2 v.
Proof. exact cut_order. Qed.
Print Assumptions C17_cut_does_not_depend_on_order.

Example C17_case :
  let inside := fun j => Nat.ltb j 3 in
  let m1 := [[(0, true); (1, true)]; [(1, true); (3, false)]; [(3, false); (2, true)]] in
  let m2 := [[(2, true); (3, false)]; [(3, false); (1, true)]; [(0, true); (1, true)]] in
  flags_from inside m1 /\ is_node m1 3 /\ is_node m1 1 /\ same_nodes m1 m2 /\
  cut_mesh ZS m1 [5; 6; 7; 8]%Z = [5; 6; 7; 0]%Z.
Proof.
  cbv zeta. split.
  - intros e nd He Hn. simpl in He.
    repeat (destruct He as [<-|He]; [simpl in Hn; repeat (destruct Hn as [<-|Hn]; [reflexivity|]); destruct Hn|]).
    destruct He.
  - split; [exists [(1, true); (3, false)], (3, false); simpl; auto|].
    split; [exists [(0, true); (1, true)], (1, true); simpl; auto|].
    split; [|reflexivity]. intros nd. simpl. intuition congruence.
Qed.
