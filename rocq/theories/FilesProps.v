(** Theorems about picture file names: C87. *)
From Coq Require Import List Arith NArith Lia Bool Ascii String.
From Verif Require Import NamesModel NamesSpec NamesProofs FilesModel FilesSpec FilesProofs.
Import ListNotations.

Theorem C87_parts_have_their_own_files : forall datadir rank id rank' id',
  part_file datadir rank id = part_file datadir rank' id' -> rank = rank' /\ id = id'.
Proof. exact part_injective. Qed.
Print Assumptions C87_parts_have_their_own_files.

Theorem C87_corrections_have_their_own_files : forall datadir rank index rank' index',
  correction_file datadir rank index = correction_file datadir rank' index' -> rank = rank' /\ index = index'.
Proof. exact correction_injective. Qed.
Print Assumptions C87_corrections_have_their_own_files.

Theorem C87_parts_and_corrections_differ : forall datadir rank id rank' index',
  part_file datadir rank id <> correction_file datadir rank' index'.
Proof. exact families_differ. Qed.
Print Assumptions C87_parts_and_corrections_differ.

(** All files of a run: one per process and cell. *)
Theorem C87_one_file_per_part : forall datadir (runs : list (N * list N)),
  NoDup (map fst runs) -> (forall r, In r runs -> NoDup (snd r)) ->
  NoDup (List.concat (map (fun r => part_files datadir (fst r) (snd r)) runs)).
Proof.
  intros datadir. induction runs as [|(rank, ids) runs IH]; intros D A; simpl; [constructor|].
  inversion D as [|? ? N D']; subst. simpl in N.
  assert (X : forall f, In f (part_files datadir rank ids) ->
             ~ In f (List.concat (map (fun r => part_files datadir (fst r) (snd r)) runs))).
  { intros f I J. apply in_map_iff in I. destruct I as (i & <- & _).
    apply in_concat in J. destruct J as (l & J1 & J2). apply in_map_iff in J1.
    destruct J1 as ((rank', ids') & <- & J1). apply in_map_iff in J2. destruct J2 as (i' & E & _).
    apply part_injective in E. destruct E as (E & _). simpl in E. subst rank'.
    apply N. apply in_map_iff. exists (rank, ids'). auto. }
  assert (Y : NoDup (part_files datadir rank ids)).
  { specialize (A (rank, ids) (or_introl eq_refl)). simpl in A. clear - A.
    induction A as [|i ids I A IH]; simpl; constructor; auto.
    intros J. apply in_map_iff in J. destruct J as (j & E & J).
    apply part_injective in E. destruct E as (_ & ->). auto. }
  specialize (IH D' (fun r I => A r (or_intror I))). revert X Y IH.
  generalize (List.concat (map (fun r => part_files datadir (fst r) (snd r)) runs)) as rest.
  generalize (part_files datadir rank ids) as l. clear.
  induction l as [|f l IH]; intros rest X Y R; simpl; auto.
  inversion Y as [|? ? N Y']; subst. constructor.
  - rewrite in_app_iff. intros [I|I]; [auto|]. apply (X f); simpl; auto.
  - apply IH; auto. intros g I. apply X. simpl. auto.
Qed.
Print Assumptions C87_one_file_per_part.

(** The names: file in the data directory, prefix, process number of at least
    four digits, cell number of at least eight, or three, digits. *)
Theorem C87_part_name : forall datadir rank id,
  exists a b, numeral a rank /\ 4 <= List.length a /\ ((rank < 10 ^ 4)%N -> List.length a = 4) /\
    numeral b id /\ 8 <= List.length b /\ ((id < 10 ^ 8)%N -> List.length b = 8) /\
    file_in datadir (list_ascii_of_string "rank_" ++ a ++ list_ascii_of_string "_msfemsolution_parts_" ++ b)
            (part_file datadir rank id).
Proof.
  intros d r i. exists (padded 4 r), (padded 8 i).
  repeat (split; [first [apply padded_numeral|apply padded_min|intros L; apply padded_len; [exact L|discriminate]]|]).
  apply join_in. intros I. apply in_app_or in I. destruct I as [I|I]; [simpl in I; intuition discriminate|].
  apply in_app_or in I. destruct I as [I|I]; [now apply digits_no_slash in I; auto using padded_digits|].
  apply in_app_or in I. destruct I as [I|I]; [simpl in I; intuition discriminate|].
  now apply digits_no_slash in I; auto using padded_digits.
Qed.
Print Assumptions C87_part_name.

Theorem C87_correction_name : forall datadir rank index,
  exists a b, numeral a rank /\ 4 <= List.length a /\ ((rank < 10 ^ 4)%N -> List.length a = 4) /\
    numeral b index /\ 3 <= List.length b /\ ((index < 10 ^ 3)%N -> List.length b = 3) /\
    correction_file datadir rank index =
    datadir ++ list_ascii_of_string "/local_" ++ a ++ list_ascii_of_string "_correction_" ++ b ++
      list_ascii_of_string "__correction".
Proof.
  intros d r i. exists (padded 4 r), (padded 3 i).
  repeat (split; [first [apply padded_numeral|apply padded_min|intros L; apply padded_len; [exact L|discriminate]]|]).
  unfold correction_file. rewrite <- !app_assoc. reflexivity.
Qed.
Print Assumptions C87_correction_name.

(** A sorted listing of the files is ordered by process, then by cell, up to
    9999 processes and eight, or three, digits for the cells. *)
Theorem C87_listing_is_in_order : forall datadir rank id rank' id',
  (rank < 10 ^ 4)%N -> (rank' < 10 ^ 4)%N ->
  ((id < 10 ^ 8)%N -> (id' < 10 ^ 8)%N ->
   (listed_before (part_file datadir rank id) (part_file datadir rank' id') <->
    (rank < rank')%N \/ rank = rank' /\ (id < id')%N)) /\
  ((id < 10 ^ 3)%N -> (id' < 10 ^ 3)%N ->
   (listed_before (correction_file datadir rank id) (correction_file datadir rank' id') <->
    (rank < rank')%N \/ rank = rank' /\ (id < id')%N)).
Proof. intros. split; intros; [apply part_order|apply correction_order]; auto. Qed.
Print Assumptions C87_listing_is_in_order.

(** With 10000 processes it is not. *)
Example C87_listing_out_of_order :
  listed_before (part_file (str "d") 10000 0) (part_file (str "d") 9999 0).
Proof. vm_compute. do 7 apply lb_same. apply lb_char. reflexivity. Qed.
Example C87_case :
  part_file (str "data/") 3 12 = str "data/rank_0003_msfemsolution_parts_00000012" /\
  part_file (str "out") 12345 7 = str "out/rank_12345_msfemsolution_parts_00000007" /\
  correction_file (str "data") 3 12 = str "data/local_0003_correction_012__correction".
Proof. vm_compute. repeat split. Qed.
