(** The error calculation.

    /repo/dune/multiscale/common/error_calc.cc:86-136 (constructors, match
    check), 138-335 (print), 337-384 (surface_flow_gdt).
    Functions, norms and numbers are parameters: [l2 f], [h1s f] stand for the
    square root of the assembled product (lines 258-305), [diff f g] for the
    difference function.  Simplified: the text written to [out] (see ReportModel.v), VTK output
    (lines 168-169, 179-183, 313-321; see PrintModel.v) and timings are left
    out; prolongation and file opening succeed. *)
From Coq Require Import List Arith Ascii String Bool QArith.
From Verif Require Import Util.
Import ListNotations.

(** Lookup by name: std::unordered_map::at (lines 258-305). *)
Fixpoint assoc_str {A : Type} (k : string) (m : list (string * A)) : option A :=
  match m with
  | [] => None
  | (k', x) :: r => if String.eqb k k' then Some x else assoc_str k r
  end.

Section Error.
Variables F V : Type.
Variables (diff : F -> F -> F) (l2 h1s : F -> V) (zero : F).

(** Outcome of a solver or projection call, lines 107-112, 163-173, 178. *)
Inductive attempt : Type :=
| Done (f : F)
| DuneError        (* Dune::Exception: caught by lines 109, 170 *)
| OtherError.      (* any other exception: not caught *)

(** std::unordered_map: [map_emplace] does not overwrite (lines 208-249);
    [at] (lines 258-305) throws std::out_of_range if the key is missing. *)
Definition emplace {A} (m : list (string * A)) (k : string) (x : A) : list (string * A) :=
  match assoc_str k m with Some _ => m | None => (k, x) :: m end.

(** std::map<std::string, double> csv, lines 255-311: sorted by key, operator[] assigns. *)
Fixpoint put (m : list (string * V)) (k : string) (v : V) : list (string * V) :=
  match m with
  | [] => [(k, v)]
  | (k', v') :: r =>
    match String.compare k k' with
    | Lt => (k, v) :: m
    | Eq => (k, v) :: r
    | Gt => (k', v') :: put r k v
    end
  end.

Open Scope string_scope.

(** Lines 202-227: registered differences with the exact solution. *)
Definition register_analytical (exact msfem fem : option F) (coarse : F) : list (string * F) :=
  match exact with
  | None => []
  | Some u =>
    let m0 := [] in
    let m1 := match msfem with Some f => emplace m0 "msfem_exact" (diff u f) | None => m0 end in
    let m2 := match fem with Some f => emplace m1 "fem_exact" (diff u f) | None => m1 end in
    emplace m2 "coarse_fem_exact" (diff u coarse)
  end.

(** Lines 229-251: registered differences of discrete functions. *)
Definition register_discrete (msfem fem : option F) (coarse : F) : list (string * F) :=
  match msfem with
  | None => []
  | Some f =>
    let m1 := emplace [] "msfem_coarse_fem" (diff f coarse) in
    match fem with Some g => emplace m1 "msfem_fem" (diff f g) | None => m1 end
  end.

(** One pair of entries, e.g. lines 258-264. *)
Definition report (reg : list (string * F)) (name : string) (csv : list (string * V))
  : option (list (string * V)) :=
  match assoc_str name reg with
  | None => None
  | Some d => Some (put (put csv (name ++ "_L2") (l2 d)) (name ++ "_H1s") (h1s d))
  end.

(** An exception leaves print: the rest of lines 255-311 is not run. *)
Definition bind {A B} (x : option A) (f : A -> option B) : option B :=
  match x with None => None | Some a => f a end.

(** Lines 255-311; None: std::out_of_range. *)
Definition collect (exact msfem fem : option F) (coarse : F) : option (list (string * V)) :=
  let an := register_analytical exact msfem fem coarse in
  let di := register_discrete msfem fem coarse in
  bind (match exact with
        | None => Some []
        | Some _ =>
          bind (match msfem with Some _ => report an "msfem_exact" [] | None => Some [] end) (fun c1 =>
          bind (match fem with Some _ => report an "fem_exact" c1 | None => Some c1 end) (fun c2 =>
          report an "coarse_fem_exact" c2))
        end) (fun c3 =>
  match msfem with
  | None => Some c3
  | Some f =>
    bind (report di "msfem_coarse_fem" (put c3 "msfem_L2" (l2 f))) (fun c4 =>
    match fem with Some _ => report di "msfem_fem" c4 | None => Some c4 end)
  end).

(** How the constructor and print end, lines 97-114, 128, 138-334. *)
Inductive eresult : Type :=
| Report (csv : list (string * V))
| Mismatch            (* match_check, line 128 *)
| Raised.             (* any other exception leaving print or the constructor *)

(** print, lines 138-334.  [fem]: the member fem_solution_ on entry; [msfem]:
    the multiscale solution, if any, with the outcome of its projection (line
    178); [matched]: result of match_check (line 177). *)
Definition print (exact fem : option F) (coarse_solve : attempt)
    (msfem : option attempt) (matched : bool) : eresult :=
  match (match coarse_solve with
         | Done f => Some (fem, f)
         | DuneError => Some (None, zero)        (* 170-173; the projected function stays zero *)
         | OtherError => None end) with
  | None => Raised
  | Some (fem', coarse) =>
    let fin ms := match collect exact ms fem' coarse with
                  | Some csv => Report csv | None => Raised end in
    match msfem with
    | None => fin None
    | Some p =>
      if matched then match p with Done f => fin (Some f) | _ => Raised end
      else Mismatch
    end
  end.

(** Second constructor, lines 97-114, followed by print (msfem/algorithm.cc:77).
    [compare]: msfem.fem_comparison. *)
Definition msfem_report (compare : bool) (exact : option F) (fine_solve coarse_solve : attempt)
    (msfem : attempt) (matched : bool) : eresult :=
  if compare then
    match fine_solve with
    | Done f => print exact (Some f) coarse_solve (Some msfem) matched
    | DuneError => print exact None coarse_solve (Some msfem) matched
    | OtherError => Raised
    end
  else print exact None coarse_solve (Some msfem) matched.

(** First constructor, lines 86-95, as used by fem/algorithm.cc:42. *)
Definition fem_report (exact : option F) (fem : F) (coarse_solve : attempt) : eresult :=
  print exact (Some fem) coarse_solve None true.

(** The file errors.csv, lines 323-333; [show]: operator<< for double. *)
Definition csv_text (show : V -> string) (csv : list (string * V)) : string :=
  let nl := String (ascii_of_nat 10) EmptyString in
  let line (cell : string * V -> string) := fold_right (fun kv s => cell kv ++ "," ++ s) nl csv in
  line fst ++ line (fun kv => show (snd kv)).
End Error.

Arguments Done {F}. Arguments DuneError {F}. Arguments OtherError {F}.
Arguments Report {V}. Arguments Mismatch {V}. Arguments Raised {V}.

(** surface_flow_gdt, lines 337-384, for exact numbers.  A face: boundary
    flag, first coordinate of its centre, area, and per Gauss point weight,
    diffusion entry [0][0] and the first gradient component of each basis
    function of the cell. *)
Record face := { f_boundary : bool; f_center0 : Q; f_area : Q;
                 f_gauss : list (Q * Q * list Q) }.

Open Scope Q_scope.
(** local_solution->jacobian, line 376: linear in the coefficients. *)
Definition jacobian0 (coeffs grads : list Q) : Q :=
  fold_right Qplus 0 (map (fun p => fst p * snd p) (combine coeffs grads)).

(** Lines 371-378. *)
Definition gauss_loop (coeffs : list Q) (f : face) (flux : Q) : Q :=
  fold_left (fun acc g => let '(w, d, gr) := g in
                          acc - w * f_area f * d * jacobian0 coeffs gr) (f_gauss f) flux.

(** Lines 362-381: cells with their coefficients and faces. *)
Definition local_flux (cells : list (list Q * list face)) : Q :=
  fold_left (fun acc c =>
    fold_left (fun acc f => if f_boundary f && Qeq_bool (f_center0 f) 0
                            then gauss_loop (fst c) f acc else acc) (snd c) acc) cells 0.

(** Lines 356-381 on one process: line 357 looks at the faces of the first
    interior cell before the loop; without any the behaviour is undefined
    ([None]). *)
Definition process_flux (cells : list (list Q * list face)) : option Q :=
  match cells with [] => None | _ => Some (local_flux cells) end.

(** Line 382: sum over all processes. *)
Fixpoint surface_flow (ranks : list (list (list Q * list face))) : option Q :=
  match ranks with
  | [] => Some 0
  | r :: rs =>
    match process_flux r, surface_flow rs with
    | Some x, Some y => Some (x + y)
    | _, _ => None
    end
  end.

(** Lines 184-187: the function handed over is freshly constructed, all its
    coefficients are zero; [cells] gives number of basis functions and faces. *)
Definition reported_flow (ranks : list (list (nat * list face))) : option Q :=
  surface_flow (map (map (fun c => (repeat 0 (fst c), snd c))) ranks).

(** First gradient components of the four bilinear basis functions (corners
    00, 10, 01, 11) of a cell of width [hx] at second local coordinate [eta]: what [jacobian]
    (error_calc.cc:376, external) combines. *)
Definition q1_grad0 (hx eta : Q) : list Q :=
  [- (1 - eta) / hx; (1 - eta) / hx; - eta / hx; eta / hx].

(** Lines 369-377 in two dimensions for a cell of size [hx] times [hy] on the
    plane x = 0 that begins at [y0]: the points of [rule] are mapped to the
    face (372), the diffusion is evaluated there (375), but [jacobian] (376),
    which takes local coordinates, gets the global position. *)
Definition q1_face (hx hy y0 : Q) (diffusion00 : Q -> Q) (rule : list (Q * Q)) : face :=
  {| f_boundary := true; f_center0 := 0; f_area := hy;
     f_gauss := map (fun p => let y := y0 + snd p * hy in (fst p, diffusion00 y, q1_grad0 hx y)) rule |}.
