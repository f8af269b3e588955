(** Vocabulary for C103. *)
From Coq Require Import List Arith String Bool Permutation.
From Verif Require Import ErrorModel ReportModel PrintModel.
Import ListNotations.
Open Scope string_scope.

Section Obs.
Variables F V : Type.

(** What a user finds after the call: the text, the pictures, the contents
    written to errors.csv. *)
Definition text_of (tr : list (event F V)) : list (line V) :=
  flat_map (fun e => match e with Line l => [l] | _ => [] end) tr.
Definition pictures_of (tr : list (event F V)) : list (string * F) :=
  flat_map (fun e => match e with Picture p f => [(p, f)] | _ => [] end) tr.
Definition files_of (tr : list (event F V)) : list (list (string * V)) :=
  flat_map (fun e => match e with File c => [c] | _ => [] end) tr.

(** How often the surface flow was logged. *)
Definition flows_of (tr : list (event F V)) : nat :=
  List.length (filter (fun e => match e with FlowLogged => true | _ => false end) tr).

(** The same situation with pictures switched on or off. *)
Definition with_pictures (b : bool) (s : situation F) : situation F :=
  {| s_exact := s_exact s; s_fem := s_fem s; s_msfem := s_msfem s; s_coarse := s_coarse s;
     s_prolonged := s_prolonged s; s_partial := s_partial s; s_vtk := b; s_fails := s_fails s;
     s_order := s_order s |}.

(** Nothing throws. *)
Definition smooth (s : situation F) : Prop := forall c, s_fails s c = None.

(** The pictures a user who switches them on expects. *)
Variable diff : F -> F -> F.
Variables (exact msfem fem : option F) (coarse prolonged : F).
Inductive expected : string -> F -> Prop :=
| X_coarse : expected "coarse-cg-fem_solution_" coarse
| X_exact u f : exact = Some u -> msfem = Some f -> expected "exact_solution" u
| X_msfem f : msfem = Some f -> expected "msfem_solution_" f
| X_fem f : fem = Some f -> expected "fine-cg-fem_solution_" f
| X_me u f : exact = Some u -> msfem = Some f -> expected "msfem_exact" (diff u f)
| X_fe u f : exact = Some u -> fem = Some f -> expected "fem_exact" (diff u f)
| X_ce u : exact = Some u -> expected "coarse_fem_exact" (diff u prolonged)
| X_mc f : msfem = Some f -> expected "msfem_coarse_fem" (diff f prolonged)
| X_mf f g : msfem = Some f -> fem = Some g -> expected "msfem_fem" (diff f g).

(** The pictures of the last stage, drawn after the text is complete. *)
Definition late (p : string) : bool :=
  existsb (String.eqb p) ["msfem_exact"; "fem_exact"; "coarse_fem_exact"; "msfem_coarse_fem"; "msfem_fem";
                          "fine-cg-fem_solution_"].
End Obs.
