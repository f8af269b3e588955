(** Theorems about the origin of the grid parameters: C85. *)
From Coq Require Import List Arith ZArith QArith Lia Lqa Bool String.
From Verif Require Import Util GridModel GridSpec GridProps LocalGridModel LocalGridSpec LocalGridProofs
  ConfModel ConfSpec ConfProofs.
Import ListNotations.
Open Scope string_scope.

(** Coarse and fine grid of a container: decided by the configuration at the
    moment the container was made, whatever happens before and after. *)
Theorem C85_grids_follow_the_configuration_at_creation : forall t pre post ll ur comm nproc stored layers,
  let s := run {| s_global := t; s_containers := [] |} (pre ++ NewContainer ll ur :: post) in
  let k := made pre in
  let configured := match last_vec key_macro (t_vec t key_macro) pre,
                          last_vec key_micro (t_vec t key_micro) pre with
    | Some n, Some m =>
        Some {| c_ll := ll; c_ur := ur; c_coarse := n; c_micro := m;
                c_layers := match last_int key_layers (t_int t key_layers) pre with Some v => v | None => 0%Z end;
                c_overlap := match last_int "grids.overlap" (t_int t "grids.overlap") pre with
                             Some v => v | None => 1%Z end |}
    | _, _ => None end in
  snd (step s (FineGrid k comm)) = Grid (option_map (fun c => make_fine_grid c comm) configured) /\
  snd (step s (CoarseGrid k comm nproc stored layers)) =
    Grid (option_map (fun c => make_coarse_grid c comm nproc stored layers) configured).
Proof.
  intros t pre post ll ur comm nproc stored layers s k configured.
  destruct (container_of t pre post ll ur) as (c & Hc & Hl & Hu & Hv & Hi). fold s in Hc. fold k in Hc.
  unfold step. rewrite Hc. cbn [snd]. unfold fine_of, coarse_of, grid_config, get_int.
  rewrite !Hv, !Hi, Hl, Hu. unfold configured, key_macro, key_micro, key_layers.
  destruct (last_vec "grids.macro_cells_per_dim" _ pre); [|split; reflexivity].
  destruct (last_vec "grids.micro_cells_per_macrocell_dim" _ pre); split; reflexivity.
Qed.
Print Assumptions C85_grids_follow_the_configuration_at_creation.

(** Local grids: refinement from the global configuration at the moment the
    local grids are made (8 if missing), layers from the container. *)
Theorem C85_local_refinement_follows_the_global_configuration : forall t pre post ll ur dim mins maxs i,
  (i < dim)%nat ->
  let s := run {| s_global := t; s_containers := [] |} (pre ++ NewContainer ll ur :: post) in
  exists l a, snd (step s (LocalGrids (made pre) dim mins maxs)) = Locals l /\ nth_error l i = Some a /\
    a_micro a = nth i (match last_vec key_micro (t_vec t key_micro) (pre ++ NewContainer ll ur :: post) with
                       | Some v => v | None => repeat 8%Q dim end) 0%Q /\
    a_layers a = (match last_int key_layers (t_int t key_layers) pre with Some v => v | None => 0%Z end) /\
    a_gll a = nth i ll 0%Q /\ a_gur a = nth i ur 0%Q /\ a_min a = nth i mins 0%Q /\ a_max a = nth i maxs 0%Q.
Proof.
  intros t pre post ll ur dim mins maxs i L s.
  destruct (container_of t pre post ll ur) as (c & Hc & Hl & Hu & Hv & Hi). fold s in Hc.
  unfold step. rewrite Hc. cbn [snd]. unfold local_of. eexists. eexists. split; [reflexivity|].
  split. { apply map_nth_error. rewrite nth_error_nth' with (d := 0%nat) by (rewrite seq_length; auto).
           rewrite seq_nth by auto. reflexivity. }
  cbn [a_micro a_layers a_gll a_gur a_min a_max]. simpl (0 + i)%nat.
  rewrite Hl, Hu. unfold get_int. rewrite Hi. split; [|repeat split].
  unfold local_micro, get_vec, s. rewrite run_vec. reflexivity.
Qed.
Print Assumptions C85_local_refinement_follows_the_global_configuration.

(** A local grid whose layers fit has the cell width of the fine grid exactly
    when both were made with the same refinement. *)
Theorem C85_local_and_fine_mesh_agree_iff : forall c ns ms comm g n m i a h cc m',
  whole c ns ms -> make_fine_grid c comm = Created g ->
  nth_error ns i = Some n -> nth_error ms i = Some m -> (1 <= m)%Z ->
  a_gll a = nth i (c_ll c) 0%Q -> a_gur a = nth i (c_ur c) 0%Q ->
  structured a h n cc m' -> fits a n cc m' ->
  ((width (local_axis a) == grid_width g i)%Q <-> m' = m).
Proof. exact agree_iff. Qed.
Print Assumptions C85_local_and_fine_mesh_agree_iff.

(** The program msfem: nothing between container and local grids changes the
    refinement, the meshes agree in every direction in which the layers fit. *)
Theorem C85_msfem_program_uses_one_mesh_width :
  forall t dim ll ur nproc stored layers mins maxs nv mv ns ms n m i h cc,
  t_vec t key_macro = Some nv -> t_vec t key_micro = Some mv ->
  Forall2 (fun q z => (q == inject_Z z)%Q) nv ns -> Forall2 (fun q z => (q == inject_Z z)%Q) mv ms ->
  nth_error ns i = Some n -> nth_error ms i = Some m -> (i < dim)%nat ->
  let configured := {| c_ll := ll; c_ur := ur; c_coarse := nv; c_micro := mv;
    c_layers := match t_int t key_layers with Some v => v | None => 0%Z end;
    c_overlap := match t_int t "grids.overlap" with Some v => v | None => 1%Z end |} in
  let fine := make_fine_grid configured 0 in
  exists l a,
    answers {| s_global := t; s_containers := [] |} (msfem_run dim ll ur nproc stored layers mins maxs) =
      [Nothing; Grid (Some (make_coarse_grid configured 0 nproc stored layers)); Nothing; Locals l;
       Grid (Some fine)] /\
    nth_error l i = Some a /\
    a_gll a = nth i ll 0%Q /\ a_gur a = nth i ur 0%Q /\ a_min a = nth i mins 0%Q /\ a_max a = nth i maxs 0%Q /\
    forall g, fine = Created g -> structured a h n cc m -> fits a n cc m ->
      (width (local_axis a) == grid_width g i)%Q.
Proof.
  intros t dim ll ur nproc stored layers mins maxs nv mv ns ms n m i h cc Hn Hm Wn Wm En Em L configured fine.
  unfold fine, configured, key_layers. clear fine configured.
  unfold key_macro, key_micro in *.
  unfold msfem_run. cbn [answers step fst snd s_containers s_global app nth_error].
  unfold coarse_of, fine_of, grid_config, make_container. cbn [k_config k_ll k_ur]. rewrite Hn, Hm.
  eexists. eexists. split; [reflexivity|].
  split. { unfold local_of. apply map_nth_error. rewrite nth_error_nth' with (d := 0%nat) by (rewrite seq_length; auto).
           rewrite seq_nth by auto. reflexivity. }
  simpl (0 + i)%nat. cbn [a_gll a_gur a_min a_max k_ll k_ur]. do 4 (split; [reflexivity|]).
  intros g HF ST F.
  eapply (agree_iff _ ns ms 0%nat g n m i) in HF;
    [apply HF; reflexivity|split; eassumption|eassumption|eassumption| |reflexivity|reflexivity|exact ST|exact F].
  destruct ST as (_ & _ & M & _). exact M.
Qed.
Print Assumptions C85_msfem_program_uses_one_mesh_width.

(** * Concrete runs *)
Definition conf (micro : option (list Q)) : tree :=
  {| t_int := fun k => if String.eqb k "msfem.oversampling_layers" then Some 2%Z else None;
     t_vec := fun k => if String.eqb k key_macro then Some [3%Q; 3%Q]
                       else if String.eqb k key_micro then micro else None |}.
Definition start (t : tree) : session := {| s_global := t; s_containers := [] |}.
Definition cell_run := msfem_run 2 [0%Q; 0%Q] [3%Q; 3%Q] 1 9 0 [1%Q; 0%Q] [2%Q; 1%Q].

Example C85_case :
  let s := run (start (conf (Some [4%Q; 4%Q]))) cell_run in
  exists g a b, snd (step s (FineGrid 0 0)) = Grid (Some (Created g)) /\ g_elements g = [12; 12]%Z /\
    snd (step s (LocalGrids 0 2 [1%Q; 0%Q] [2%Q; 1%Q])) = Locals [a; b] /\
    structured a 1 3 1 4 /\ fits a 3 1 4 /\ structured b 1 3 0 4 /\ fits b 3 0 4 /\
    (width (local_axis a) == 1 # 4)%Q /\ (width (local_axis b) == 1 # 4)%Q.
Proof.
  intros s. unfold s. eexists. eexists. eexists. split; [vm_compute; reflexivity|].
  split; [reflexivity|]. split; [vm_compute; reflexivity|].
  split; [repeat split; simpl; try lia; reflexivity|]. split; [split; right; simpl; lia|].
  split; [repeat split; simpl; try lia; reflexivity|]. split; [split; [left|right]; simpl; lia|].
  split; reflexivity.
Qed.

(** A change of the global configuration after the container was made reaches
    the local grids only; a missing refinement is an exception for the grids
    of the container and the number 8 for the local grids. *)
Example C85_later_change :
  let s := run (start (conf (Some [4%Q; 4%Q])))
             [NewContainer [0%Q; 0%Q] [3%Q; 3%Q]; SetVec key_micro [8%Q; 8%Q]] in
  exists g a b, snd (step s (FineGrid 0 0)) = Grid (Some (Created g)) /\ g_elements g = [12; 12]%Z /\
    snd (step s (LocalGrids 0 2 [1%Q; 0%Q] [2%Q; 1%Q])) = Locals [a; b] /\
    (width (local_axis a) == 1 # 8)%Q.
Proof.
  intros s. unfold s. eexists. eexists. eexists. split; [vm_compute; reflexivity|].
  split; [reflexivity|]. split; [vm_compute; reflexivity|]. reflexivity.
Qed.
Example C85_missing :
  let s := run (start (conf None)) [NewContainer [0%Q; 0%Q] [3%Q; 3%Q]] in
  snd (step s (FineGrid 0 0)) = Grid None /\ snd (step s (CoarseGrid 0 0 1 9 0)) = Grid None /\
  exists a b, snd (step s (LocalGrids 0 2 [1%Q; 0%Q] [2%Q; 1%Q])) = Locals [a; b] /\ a_micro a = 8%Q.
Proof.
  intros s. unfold s. split; [reflexivity|]. split; [reflexivity|].
  eexists. eexists. split; [vm_compute; reflexivity|]. reflexivity.
Qed.
