(** Vocabulary for C62-C65, C74. *)
From Coq Require Import ZArith String Ascii List Arith Bool.
From Verif Require Import Util AppModel.
Import ListNotations.
Open Scope string_scope.
Open Scope list_scope.

Definition known (name : string) : Prop :=
  name = "Synthetic" \/ name = "Random" \/ name = "SPE10" \/ name = "Tarbert" \/ name = "ER2007".

(** The problem a configuration asks for. *)
Definition selected (configured : option string) (name : string) : Prop :=
  configured = Some name \/ (configured = None /\ name = "Synthetic").

(** Objects alive after a sequence of events. *)
Fixpoint constructed (ev : list event) : list object :=
  match ev with [] => [] | Constructing o :: r => o :: constructed r | _ :: r => constructed r end.
Fixpoint deleted (ev : list event) : list object :=
  match ev with [] => [] | Deleted o :: r => o :: deleted r | _ :: r => deleted r end.

Fixpoint chars (s : string) : list ascii :=
  match s with EmptyString => [] | String c r => c :: chars r end.
Definition without (c : ascii) (s : string) : Prop := ~ In c (chars s).

(** [dir] and [file] are directory and last component of a path. *)
Definition splits (path dir file : string) : Prop :=
  (path = dir ++ "/" ++ file)%string /\ without "/"%char file.

Fixpoint zsum (l : list Z) : Z := match l with [] => 0%Z | a :: r => (a + zsum r)%Z end.
