(** The text of the error report and the writing of errors.csv by several
    processes.

    /repo/dune/multiscale/common/error_calc.cc:138-335.  The values are the
    ones of ErrorModel.v; here the lines written to [out] (lines 142, 258-311)
    and the system calls behind lines 323-333 are added.  [out] is the logger
    of process 0 in msfem/algorithm.cc:77 and fem/algorithm.cc:42; which
    process shows the text is not modelled. *)
From Coq Require Import List Arith Ascii String Bool Reals.
From Verif Require Import Util ErrorModel.
Import ListNotations.
Open Scope string_scope.

Section Text.
Variables F V : Type.
Variables (diff : F -> F -> F) (l2 h1s : F -> V) (zero : F).
Variable div : V -> V -> V.          (* operator/ for double, lines 291, 301 *)
Variable exceeds : V -> bool.        (* std::abs(norm) > 1e-12, line 300 *)

(** A line of the report: empty, the heading (line 142), or "label =  value"
    (259-310). *)
Inductive line : Type := Blank | Title (s : string) | Entry (label : string) (v : V).

(** Lines 258-261, 268-271, 276-279: both norms of a registered difference. *)
Definition both (reg : list (string * F)) (name label : string) : option (list line) :=
  bind (assoc_str name reg) (fun d =>
    Some [Entry (label ++ "_L2") (l2 d); Entry (label ++ "_H1s") (h1s d); Blank]).

(** Lines 256-283. *)
Definition analytical_text (exact msfem fem : option F) (coarse : F) : option (list line) :=
  let an := register_analytical F diff exact msfem fem coarse in
  match exact with
  | None => Some []
  | Some _ =>
    bind (match msfem with Some _ => both an "msfem_exact" "|| u_msfem - u_exact ||" | None => Some [] end)
      (fun t1 =>
    bind (match fem with Some _ => both an "fem_exact" "|| u_fem_h - u_exact ||" | None => Some [] end)
      (fun t2 =>
    bind (both an "coarse_fem_exact" "|| u_fem_H - u_exact ||") (fun t3 => Some (t1 ++ t2 ++ t3)%list)))
  end.

(** Lines 285-311. *)
Definition discrete_text (msfem fem : option F) (coarse : F) : option (list line) :=
  let di := register_discrete F diff msfem fem coarse in
  match msfem with
  | None => Some []
  | Some f =>
    let norm := l2 f in
    bind (assoc_str "msfem_coarse_fem" di) (fun d =>
    bind (match fem with
          | None => Some []
          | Some _ =>
            bind (assoc_str "msfem_fem" di) (fun e =>
              Some [if exceeds norm
                    then Entry "|| u_msfem - u_fem ||_L2 / || u_msfem ||_L2" (div (l2 e) norm)
                    else Entry "|| u_msfem - u_fem ||_L2" (l2 e);
                    Entry "|| u_msfem - u_fem ||_H1s" (h1s e); Blank])
          end) (fun rest =>
      Some ([Entry "|| u_msfem ||_L2" norm;
             Entry "|| u_fem_H - u_msfem ||_L2" (l2 d);
             Entry "|| u_fem_H - u_msfem ||_L2 / || u_msfem ||_L2" (div (l2 d) norm);
             Entry "|| u_fem_H - u_msfem ||_H1s" (h1s d); Blank] ++ rest)%list))
  end.

(** Line 142. *)
Definition heading : list line := [Blank; Title "The L2 errors:"; Blank].

(** What print (lines 138-335) has written to [out] when it returns or is left by an
    exception; arguments as for [ErrorModel.print].  Simplified: a lookup that
    fails in the middle of the text (it never does) gives the heading only. *)
Definition printed (exact fem : option F) (coarse_solve : attempt F)
    (msfem : option (attempt F)) (matched : bool) : list line :=
  match (match coarse_solve with
         | Done f => Some (fem, f)
         | DuneError => Some (None, zero)
         | OtherError => None end) with
  | None => heading
  | Some (fem', coarse) =>
    let fin ms :=
      match analytical_text exact ms fem' coarse, discrete_text ms fem' coarse with
      | Some a, Some d => (heading ++ a ++ d)%list
      | _, _ => heading
      end in
    match msfem with
    | None => fin None
    | Some p => if matched then match p with Done f => fin (Some f) | _ => heading end else heading
    end
  end.
End Text.
Arguments Blank {V}. Arguments Title {V}. Arguments Entry {V}.

(** Numbers of type double as far as the divisions of lines 291 and 301 need
    them: exact reals, infinities and NaN.  Simplified: no rounding, no
    negative zero (the operands are square roots). *)
Inductive num : Type := Fin (r : R) | Inf (negative : bool) | NaN.

(** Operator/ for double, lines 291 and 301. *)
Definition num_div (a b : num) : num :=
  match a, b with
  | NaN, _ | _, NaN => NaN
  | Fin x, Fin y =>
      if Req_EM_T y 0 then (if Req_EM_T x 0 then NaN else Inf (if Rlt_dec x 0 then true else false))
      else Fin (x / y)
  | Fin _, Inf _ => Fin 0
  | Inf s, Fin y => Inf (xorb s (if Rlt_dec y 0 then true else false))
  | Inf _, Inf _ => NaN
  end.

(** std::abs(norm) > 1e-12, line 300. *)
Definition num_exceeds (a : num) : bool :=
  match a with
  | Fin x => if Rlt_dec (/ 10 ^ 12) (Rabs x) then true else false
  | Inf _ => true
  | NaN => false
  end.

(** * errors.csv on disk *)

(** A process on its way through lines 323-333: the file is not open yet, or it
    is open with a write position and the pieces of text that are still to be
    handed to the operating system.  How the stream buffer cuts the text into
    pieces is left open. *)
Inductive writer : Type :=
| Waiting (pieces : list (list ascii))
| Writing (pos : nat) (pieces : list (list ascii)).

(** write at a position (POSIX; error_calc.cc:323-333): bytes between the end of the file and the
    position become zero. *)
Definition write_at (file : list ascii) (pos : nat) (bs : list ascii) : list ascii :=
  match bs with
  | [] => file
  | _ => (firstn pos (file ++ repeat Ascii.zero (pos - List.length file))%list ++ bs ++
          skipn (pos + List.length bs) file)%list
  end.

(** One system call of a process: opening truncates the file (make_ofstream
    with mode out, lines 323-324), then piece after piece is written at the
    process' own position (lines 326-333). *)
Definition call (file : list ascii) (w : writer) : list ascii * writer :=
  match w with
  | Waiting ps => ([], Writing 0 ps)
  | Writing pos [] => (file, w)
  | Writing pos (p :: ps) => (write_at file pos p, Writing (pos + List.length p) ps)
  end.

(** All processes work on the same file (lines 323-324 name it by the
    configuration only); the schedule says which process makes the next call. *)
Fixpoint writes (sched : list nat) (file : list ascii) (ws : list writer) : list ascii * list writer :=
  match sched with
  | [] => (file, ws)
  | i :: r =>
    match nth_error ws i with
    | None => writes r file ws
    | Some w => let '(file', w') := call file w in writes r file' (upd ws i w')
    end
  end.
