(** C114: largest random field. *)
From Coq Require Import ZArith List Arith Bool Lia.
From Verif Require Import Util RandModel RandSpec RandProofs IntModel IntSpec IntProofs.
Import ListNotations.
Open Scope nat_scope.

(** Up to the limit all sizes, ranges and loop counters of the initialisation
    are numbers of type int, on every process and for every number of rows it
    gets, and they are those of the mathematical description (C55-C57) ... *)
Theorem C114_sizes_up_to_the_limit_are_right :
  forall dim k ov nProc pp iProc n0, (dim = 2 \/ dim = 3) -> partition dim nProc = Some pp ->
  (forall p, In p pp -> p <= 2 ^ k) -> iProc < nProc -> (Z.of_nat ov + Z.of_nat (2 ^ k) <= 2147483647)%Z ->
  (1 <= n0 <= 2 * Z.of_nat (2 ^ k))%Z -> k <= limit dim ->
  exists rs, set_range dim (2 ^ k) nProc iProc ov = Some rs /\
    init_int dim (Z.of_nat k) (Z.of_nat ov) (grid_of pp iProc) n0 =
    Some (Z.of_nat (2 ^ k), (ranges_of rs, sizes rs), ((2 * Z.of_nat (2 ^ k)) ^ Z.of_nat dim)%Z).
Proof. exact init_fits. Qed.
Print Assumptions C114_sizes_up_to_the_limit_are_right.

(** ... beyond it the initialisation is undefined on every process, however
    many there are. *)
Theorem C114_larger_fields_are_undefined :
  forall dim k ov grid n0, (dim = 2 \/ dim = 3) -> limit dim < k -> init_int dim (Z.of_nat k) ov grid n0 = None.
Proof. exact init_overflows. Qed.
Print Assumptions C114_larger_fields_are_undefined.

(** Up to the limit the displacements of the redistribution and the indices of
    the evaluation are the intended ones, too. *)
Theorem C114_displacements_up_to_the_limit_are_right :
  (forall k n0 r1 i, k <= limit 2 -> 0 < n0 <= 2 * 2 ^ k -> proper (2 ^ k) r1 ->
     source2_int (Z.of_nat (2 ^ k)) (Z.of_nat n0) (Z.of_nat (fst r1)) (Z.of_nat i) =
     Some (Z.of_nat ((i mod n0) * (2 * 2 ^ k) + fst r1))) /\
  (forall k n0 r1 r2 i j, k <= limit 3 -> 0 < n0 <= 2 * 2 ^ k -> proper (2 ^ k) r1 -> proper (2 ^ k) r2 -> j < size r1 ->
     source3_int (Z.of_nat (2 ^ k)) (Z.of_nat n0) (Z.of_nat (fst r1)) (Z.of_nat (fst r2)) (Z.of_nat i) (Z.of_nat j) =
     Some (Z.of_nat ((i mod n0) * (4 * 2 ^ k * 2 ^ k) + 2 * 2 ^ k * fst r1 + fst r2 + j * (2 * 2 ^ k)))).
Proof. split; [exact source2_fits|exact source3_fits]. Qed.
Print Assumptions C114_displacements_up_to_the_limit_are_right.

(** A displacement whose increment is too large makes the redistribution
    undefined, even if the displacement itself is not. *)
Theorem C114_displacements_need_room_for_the_next :
  forall N n0 lo1 lo2 i j,
  (2147483647 < (i mod n0) * (4 * N * N) + 2 * N * lo1 + lo2 + j * (2 * N) + 2 * N)%Z -> source3_int N n0 lo1 lo2 i j = None.
Proof.
  intros N n0 lo1 lo2 i j B. unfold source3_int.
  assert (I : forall z (f : Z -> option Z), f z = None -> andthen (int z) f = None) by (intros z f E; unfold int; now destruct (_ && _)).
  do 5 apply I. rewrite int_none by lia. reflexivity.
Qed.
Print Assumptions C114_displacements_need_room_for_the_next.

Theorem C114_indices_up_to_the_limit_are_right :
  (forall k r0 r1 j0 j1, k <= limit 2 -> proper (2 ^ k) r0 -> proper (2 ^ k) r1 -> j0 < size r0 -> j1 < size r1 ->
     cell_int [(Z.of_nat (size r0), Z.of_nat j0); (Z.of_nat (size r1), Z.of_nat j1)] 0 = Some (Z.of_nat (j0 * size r1 + j1)) /\
     corner2_int (Z.of_nat (size r1)) (Z.of_nat (j0 * size r1 + j1)) = Some (map Z.of_nat (map (fun b => (j0 + fst b) * size r1 + (j1 + snd b)) [(0, 0); (0, 1); (1, 0); (1, 1)]))) /\
  (forall k r0 r1 r2 j0 j1 j2, k <= limit 3 -> proper (2 ^ k) r0 -> proper (2 ^ k) r1 -> proper (2 ^ k) r2 ->
     j0 < size r0 -> j1 < size r1 -> j2 < size r2 ->
     cell_int [(Z.of_nat (size r0), Z.of_nat j0); (Z.of_nat (size r1), Z.of_nat j1); (Z.of_nat (size r2), Z.of_nat j2)] 0 =
       Some (Z.of_nat ((j0 * size r1 + j1) * size r2 + j2)) /\
     corner3_int (Z.of_nat (size r1)) (Z.of_nat (size r2)) (Z.of_nat ((j0 * size r1 + j1) * size r2 + j2)) =
       Some (map Z.of_nat (map (fun b => ((j0 + fst (fst b)) * size r1 + (j1 + snd (fst b))) * size r2 + (j2 + snd b))
         [(0, 0, 0); (0, 0, 1); (0, 1, 0); (0, 1, 1); (1, 0, 0); (1, 0, 1); (1, 1, 0); (1, 1, 1)]))).
Proof. split; [exact corner2_fits|exact corner3_fits]. Qed.
Print Assumptions C114_indices_up_to_the_limit_are_right.

(** * Concrete cases *)
(** 512 segments in three dimensions on eight processes: defined on the second
    process; 1024 segments: not. *)
Example C114_case :
  partition 3 8 = Some [2; 2; 2] /\
  init_int 3 9 1 (grid_of [2; 2; 2] 1) 128 =
    Some (512, ([(255, 512); (0, 257); (0, 257)], 258 * 258 * 258), 1073741824)%Z /\
  init_int 3 10 1 (grid_of [2; 2; 2] 1) 256 = None /\
  init_int 2 14 1 (grid_of [1; 1] 0) 32768 = Some (16384, ([(0, 16384); (0, 16384)], 16385 * 16385), 1073741824)%Z /\
  init_int 2 15 1 (grid_of [1; 1] 0) 65536 = None.
Proof. repeat split; vm_compute; reflexivity. Qed.
(** Last row of the last layer, 64 processes. *)
Example C114_case_displacements :
  source3_int 512 16 255 255 1023 257 = Some 16253183%Z /\
  source3_int 2048 64 0 0 63 0 = Some 1056964608%Z /\
  source3_int 16384 2 0 0 1 0 = Some 1073741824%Z /\
  source3_int 16384 2 0 0 1 32766 = Some 2147418112%Z /\
  source3_int 16384 2 0 0 1 32767 = None /\
  source3_int 32768 2 0 0 0 0 = None.
Proof. repeat split; vm_compute; reflexivity. Qed.
