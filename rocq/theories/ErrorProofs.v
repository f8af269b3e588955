(** Proofs for C36-C39 and C68. *)
From Coq Require Import List Arith Ascii String Bool Sorted QArith Lqa.
From Verif Require Import Util ErrorModel ErrorSpec.
Import ListNotations.
Open Scope string_scope.

Section P.
Variables F V : Type.
Variables (diff : F -> F -> F) (l2 h1s : F -> V) (zero : F).

Lemma collect_spec : forall exact msfem fem coarse,
  exists csv, collect F V diff l2 h1s exact msfem fem coarse = Some csv /\
    (forall k v, In (k, v) csv <-> entry F V diff l2 h1s exact msfem fem coarse k v) /\
    StronglySorted key_lt (map fst csv).
Proof.
  intros [u|] [f|] [g|] coarse;
    (eexists; split; [vm_compute; reflexivity|]; split;
     [intros k v; split;
      [simpl; intros H;
       repeat match goal with H : _ \/ _ |- _ => destruct H end;
       try contradiction;
       match goal with H : (_, _) = (_, _) |- _ => injection H as <- <- end;
       econstructor; reflexivity
      |intros H; inversion H; subst;
       repeat match goal with H : Some _ = Some _ |- _ => injection H as <- | H : None = Some _ |- _ => discriminate end;
       simpl; tauto]
     |simpl; repeat constructor]).
Qed.
End P.

(** splitting *)
Lemma split_cons : forall c s t, has_char c s = false ->
  split_at c (s ++ String c t) = s :: split_at c t.
Proof.
  induction s as [|x s IH]; simpl; intros t H.
  - rewrite Ascii.eqb_refl. reflexivity.
  - apply orb_false_iff in H. destruct H as (H1 & H2). rewrite H1, IH by auto. reflexivity.
Qed.

Lemma has_char_app : forall c a b, has_char c (a ++ b) = has_char c a || has_char c b.
Proof. induction a as [|x a IH]; simpl; intros b; auto. rewrite IH. apply orb_assoc. Qed.

Lemma app_assoc_s : forall a b c : string, (a ++ b) ++ c = a ++ b ++ c.
Proof. induction a as [|x a IH]; simpl; intros; auto. now rewrite IH. Qed.

(** One line of cells, each followed by a comma. *)
Definition cells_line (cells : list string) : string :=
  fold_right (fun s r => s ++ "," ++ r) "" cells.

Lemma line_eq : forall A (cell : A -> string) l e,
  fold_right (fun kv s => cell kv ++ "," ++ s) e l = cells_line (map cell l) ++ e.
Proof.
  induction l as [|x l IH]; intros e; [reflexivity|].
  cbn [map]. unfold cells_line. cbn [fold_right]. fold (cells_line (map cell l)).
  rewrite IH, !app_assoc_s. reflexivity.
Qed.

Lemma split_cells : forall cells, Forall plain cells ->
  split_at comma (cells_line cells) = (cells ++ [""])%list /\ has_char newline (cells_line cells) = false.
Proof.
  induction 1 as [|s l (P1 & P2) H (IH1 & IH2)]; [split; reflexivity|].
  unfold cells_line. cbn [fold_right]. fold (cells_line l). split.
  - change (s ++ "," ++ cells_line l) with (s ++ String comma (cells_line l)).
    rewrite split_cons by auto. rewrite IH1. reflexivity.
  - rewrite has_char_app, P2. simpl. exact IH2.
Qed.

Lemma csv_spec : forall V (show : V -> string) csv,
  Forall plain (map fst csv) -> Forall plain (map (fun kv => show (snd kv)) csv) ->
  exists header values,
    split_at newline (csv_text V show csv) = [header; values; ""] /\
    split_at comma header = (map fst csv ++ [""])%list /\
    split_at comma values = (map (fun kv => show (snd kv)) csv ++ [""])%list.
Proof.
  intros V show csv H1 H2.
  exists (cells_line (map fst csv)), (cells_line (map (fun kv => show (snd kv)) csv)).
  destruct (split_cells _ H1) as (A1 & B1). destruct (split_cells _ H2) as (A2 & B2).
  split; [|auto]. unfold csv_text. rewrite !line_eq, app_assoc_s.
  set (h := cells_line (map fst csv)) in *.
  set (v := cells_line (map (fun kv => show (snd kv)) csv)) in *.
  change (split_at newline (h ++ String newline (v ++ String newline "")) = [h; v; ""]).
  rewrite split_cons, split_cons by auto. reflexivity.
Qed.

(** flow *)
Open Scope Q_scope.
Lemma jacobian_zero : forall n gr, jacobian0 (repeat 0 n) gr == 0.
Proof.
  induction n as [|n IH]; intros [|g gr]; try reflexivity.
  unfold jacobian0 in *. simpl. rewrite IH. ring.
Qed.

Lemma gauss_zero : forall n f flux, gauss_loop (repeat 0 n) f flux == flux.
Proof.
  intros n f. unfold gauss_loop. induction (f_gauss f) as [|[[w d] gr] l IH]; intros flux; simpl.
  - reflexivity.
  - rewrite IH. rewrite jacobian_zero. ring.
Qed.

Lemma fold_left_inv : forall A (f : Q -> A -> Q) l x,
  (forall a y, f y a == y) -> fold_left f l x == x.
Proof.
  induction l as [|a l IH]; intros x H; simpl; [reflexivity|]. rewrite IH by auto. apply H.
Qed.

Lemma local_zero : forall r, local_flux (map (fun c => (repeat 0 (fst c), snd c)) r) == 0.
Proof.
  intros r. unfold local_flux.
  induction r as [|[n fs] r IHr]; simpl; [reflexivity|].
  assert (G : forall x y l, x == y ->
    fold_left (fun acc (c : list Q * list face) =>
      fold_left (fun acc f => if f_boundary f && Qeq_bool (f_center0 f) 0
                              then gauss_loop (fst c) f acc else acc) (snd c) acc)
      (map (fun c => (repeat 0 (fst c), snd c)) l) x == y).
  { clear. intros x y l. revert x. induction l as [|[m gs] l IH]; intros x E; simpl; auto.
    apply IH. rewrite <- E. apply fold_left_inv. intros f z. destruct (_ && _); [apply gauss_zero|reflexivity]. }
  apply G. apply fold_left_inv. intros f z. destruct (_ && _); [apply gauss_zero|reflexivity].
Qed.

Lemma flow_zero : forall ranks, (forall r, In r ranks -> r <> []) ->
  exists q, reported_flow ranks = Some q /\ q == 0.
Proof.
  unfold reported_flow. induction ranks as [|r ranks IH]; intros H; [exists 0; split; reflexivity|].
  destruct IH as (q & E & Z); [intros x I; apply H; now right|].
  cbn [map surface_flow]. rewrite E.
  destruct r as [|c r]; [destruct (H []); [now left|reflexivity]|].
  eexists. split; [reflexivity|]. rewrite Z.
  rewrite (local_zero (c :: r)). reflexivity.
Qed.

Lemma flow_undefined : forall ranks, In [] ranks -> surface_flow ranks = None.
Proof.
  induction ranks as [|r ranks IH]; intros H; [destruct H|]. cbn [surface_flow].
  destruct r as [|c r]; [reflexivity|]. destruct H as [H|H]; [discriminate|].
  rewrite IH by auto. destruct (process_flux (c :: r)); reflexivity.
Qed.

Lemma flow_defined : forall ranks, (forall r, In r ranks -> r <> []) ->
  exists q, surface_flow ranks = Some q /\ q == fold_right Qplus 0 (map local_flux ranks).
Proof.
  induction ranks as [|r ranks IH]; intros H; [exists 0; split; reflexivity|].
  destruct IH as (q & E & Z); [intros x I; apply H; now right|].
  cbn [surface_flow map fold_right]. rewrite E.
  destruct r as [|c r]; [destruct (H []); [now left|reflexivity]|].
  eexists. split; [reflexivity|]. rewrite Z. reflexivity.
Qed.
