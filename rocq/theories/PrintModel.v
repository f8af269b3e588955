(** The error calculation as a sequence of visible effects: text, pictures, the
    logged flow and the file errors.csv, with exceptions at every external call.

    /repo/dune/multiscale/common/error_calc.cc:52-84 (output of pictures),
    138-335 (print).  The entries and the text are those of ErrorModel.v and
    ReportModel.v.  Simplified: one process; a picture is named by its prefix,
    and a picture that fails leaves no file; all other external calls only
    succeed or throw. *)
From Coq Require Import List Arith String Bool.
From Verif Require Import Util ErrorModel ReportModel.
Import ListNotations.
Open Scope string_scope.

(** External calls of print that may throw: error_calc.cc:146, 164, 165-167,
    60/72/82, 177, 178, 186, 253, 323-324. *)
Inductive ext : Type :=
| MakeGrids | SolveCoarse | Prolong | Draw (prefix : string) | Match | Project | Flow | Assemble | OpenFile.

(** What can be thrown: line 170 catches the first kind only. *)
Inductive exn : Type := DuneExc | OtherExc.

Section Print.
Variables F V : Type.
Variables (diff : F -> F -> F) (l2 h1s : F -> V) (zero : F).
Variables (div : V -> V -> V) (exceeds : V -> bool).

(** Effects in the order in which they happen: lines 142-310 (text), 60, 72, 82
    (pictures), 187 (flow), 323-333 (file). *)
Inductive event : Type :=
| Line (l : line V) | Picture (prefix : string) (f : F) | FlowLogged | File (csv : list (string * V)).

(** How print ends: line 334 or an exception. *)
Inductive ending : Type := Returned (csv : list (string * V)) | Threw (e : exn).

(** The situation print (lines 138-335) is called in. *)
Record situation : Type := {
  s_exact : option F;              (* lines 79-80, 202-203 *)
  s_fem : option F;                (* fem_solution_, lines 101, 108 *)
  s_msfem : option F;              (* the projected multiscale solution, line 178 *)
  s_coarse : F;                    (* the coarse reference solution, line 164 *)
  s_prolonged : F;                 (* its prolongation, line 167 *)
  s_partial : F;                   (* what an interrupted prolongation leaves *)
  s_vtk : bool;                    (* global.vtk_output, lines 168, 179, 313 *)
  s_fails : ext -> option exn;     (* which calls throw *)
  s_order : list (string * F) -> list (string * F)   (* iteration order of unordered_map, lines 315, 317 *)
}.

(** A computation with effects that may throw (print, lines 138-335). *)
Definition comp (A : Type) : Type := (list event * (A + exn))%type.
(** Sequencing; the effects so far stay (lines 138-335). *)
Definition seq {A B} (x : comp A) (f : A -> comp B) : comp B :=
  match x with
  | (ev, inl a) => let '(ev', r) := f a in ((ev ++ ev')%list, r)
  | (ev, inr e) => (ev, inr e)
  end.
(** An external call (lines 146-324). *)
Definition invoke (s : situation) (c : ext) : comp unit :=
  match s_fails s c with None => ([], inl tt) | Some e => ([], inr e) end.
(** A visible effect without failure, e.g. line 142. *)
Definition emit (ev : list event) : comp unit := (ev, inl tt).

(** solution_output, data_output, lines 52-84. *)
Definition draw (s : situation) (p : string * F) : comp unit :=
  seq (invoke s (Draw (fst p))) (fun _ => emit [Picture (fst p) (snd p)]).
(** Several pictures, lines 181-182, 315-320. *)
Fixpoint draw_all (s : situation) (l : list (string * F)) : comp unit :=
  match l with [] => emit [] | p :: r => seq (draw s p) (fun _ => draw_all s r) end.

(** Lines 163-169: the try block; the function left in
    projected_coarse_fem_solution comes with the result. *)
Definition coarse_block (s : situation) : list event * F * option exn :=
  match s_fails s SolveCoarse with
  | Some e => ([], zero, Some e)
  | None =>
    match s_fails s Prolong with
    | Some e => ([], s_partial s, Some e)
    | None =>
      if s_vtk s then
        match draw s ("coarse-cg-fem_solution_", s_coarse s) with
        | (ev, inl _) => (ev, s_prolonged s, None)
        | (ev, inr e) => (ev, s_prolonged s, Some e)
        end
      else ([], s_prolonged s, None)
    end
  end.
(** Lines 161-173: the handler drops the fine reference solution; result: the
    fine and the prolonged coarse reference. *)
Definition coarse_reference (s : situation) : comp (option F * F) :=
  match coarse_block s with
  | (ev, f, None) => (ev, inl (s_fem s, f))
  | (ev, f, Some DuneExc) => (ev, inl (None, f))
  | (ev, _, Some OtherExc) => (ev, inr OtherExc)
  end.

(** Lines 175-188. *)
Definition msfem_part (s : situation) : comp unit :=
  match s_msfem s with
  | None => emit []
  | Some f =>
    seq (invoke s Match) (fun _ =>
    seq (invoke s Project) (fun _ =>
    seq (if s_vtk s then
           draw_all s ((match s_exact s with Some u => [("exact_solution", u)] | None => [] end) ++
                       [("msfem_solution_", f)])%list
         else emit []) (fun _ =>
    seq (invoke s Flow) (fun _ => emit [FlowLogged]))))
  end.

(** Lines 255-311; the entries are written down while the text is printed.
    Simplified: a lookup that fails in the middle (it never does) prints
    nothing. *)
Definition report_part (s : situation) (fem : option F) (coarse : F) : comp (list (string * V)) :=
  match analytical_text F V diff l2 h1s (s_exact s) (s_msfem s) fem coarse,
        discrete_text F V diff l2 h1s div exceeds (s_msfem s) fem coarse,
        collect F V diff l2 h1s (s_exact s) (s_msfem s) fem coarse with
  | Some a, Some d, Some csv => (map Line (a ++ d)%list, inl csv)
  | _, _, _ => ([], inr OtherExc)
  end.

(** Lines 313-321. *)
Definition difference_pictures (s : situation) (fem : option F) (coarse : F) : comp unit :=
  if s_vtk s then
    draw_all s (s_order s (register_analytical F diff (s_exact s) (s_msfem s) fem coarse) ++
                s_order s (register_discrete F diff (s_msfem s) fem coarse) ++
                match fem with Some g => [("fine-cg-fem_solution_", g)] | None => [] end)%list
  else emit [].

(** print, lines 138-335. *)
Definition run_print (s : situation) : list event * ending :=
  let '(ev, r) :=
    seq (emit (map Line (@heading V))) (fun _ =>
    seq (invoke s MakeGrids) (fun _ =>
    seq (coarse_reference s) (fun fc =>
    seq (msfem_part s) (fun _ =>
    seq (invoke s Assemble) (fun _ =>
    seq (report_part s (fst fc) (snd fc)) (fun csv =>
    seq (difference_pictures s (fst fc) (snd fc)) (fun _ =>
    seq (invoke s OpenFile) (fun _ =>
    (([File csv], inl csv) : comp (list (string * V)))))))))))
  in (ev, match r with inl csv => Returned csv | inr e => Threw e end).
End Print.

Arguments Line {F V}. Arguments Picture {F V}. Arguments FlowLogged {F V}. Arguments File {F V}.
Arguments Returned {V}. Arguments Threw {V}.
Arguments s_exact {F}. Arguments s_fem {F}. Arguments s_msfem {F}. Arguments s_coarse {F}.
Arguments s_prolonged {F}. Arguments s_partial {F}. Arguments s_vtk {F}. Arguments s_fails {F}. Arguments s_order {F}.
