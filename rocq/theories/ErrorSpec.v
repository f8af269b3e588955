(** Vocabulary for C36-C39 and C68. *)
From Coq Require Import List Arith Ascii String Bool Sorted QArith.
Import ListNotations.
Open Scope string_scope.

(** Which entries a report must have, given the functions at hand. *)
Section Entries.
Variables F V : Type.
Variables (diff : F -> F -> F) (l2 h1s : F -> V).
Variables (exact msfem fem : option F) (coarse : F).

Inductive entry : string -> V -> Prop :=
| E_me_l u f : exact = Some u -> msfem = Some f -> entry "msfem_exact_L2" (l2 (diff u f))
| E_me_h u f : exact = Some u -> msfem = Some f -> entry "msfem_exact_H1s" (h1s (diff u f))
| E_fe_l u f : exact = Some u -> fem = Some f -> entry "fem_exact_L2" (l2 (diff u f))
| E_fe_h u f : exact = Some u -> fem = Some f -> entry "fem_exact_H1s" (h1s (diff u f))
| E_ce_l u : exact = Some u -> entry "coarse_fem_exact_L2" (l2 (diff u coarse))
| E_ce_h u : exact = Some u -> entry "coarse_fem_exact_H1s" (h1s (diff u coarse))
| E_m_l f : msfem = Some f -> entry "msfem_L2" (l2 f)
| E_mc_l f : msfem = Some f -> entry "msfem_coarse_fem_L2" (l2 (diff f coarse))
| E_mc_h f : msfem = Some f -> entry "msfem_coarse_fem_H1s" (h1s (diff f coarse))
| E_mf_l f g : msfem = Some f -> fem = Some g -> entry "msfem_fem_L2" (l2 (diff f g))
| E_mf_h f g : msfem = Some f -> fem = Some g -> entry "msfem_fem_H1s" (h1s (diff f g)).
End Entries.

(** Entries that involve the fine reference solution. *)
Definition reference_key (k : string) : bool :=
  existsb (String.eqb k) ["fem_exact_L2"; "fem_exact_H1s"; "msfem_fem_L2"; "msfem_fem_H1s"].

(** Names promised by error_calc.hh:36-45. *)
Definition documented_l2 : list string := ["msfem_exact_L2"; "fem_exact_L2"; "msfem_fem_L2"].
Definition documented_h1 : list string := ["msfem_exact_H1"; "fem_exact_H1"].

(** Strictly increasing keys. *)
Definition key_lt (a b : string) : Prop := String.compare a b = Lt.

(** Splitting a text at every occurrence of a character. *)
Fixpoint split_at (c : ascii) (s : string) : list string :=
  match s with
  | EmptyString => [""]
  | String x r =>
    if Ascii.eqb x c then "" :: split_at c r
    else match split_at c r with
         | [] => [String x ""]
         | h :: t => String x h :: t
         end
  end.

Fixpoint has_char (c : ascii) (s : string) : bool :=
  match s with EmptyString => false | String x r => Ascii.eqb x c || has_char c r end.

Definition comma : ascii := "," % char.
Definition newline : ascii := ascii_of_nat 10.
Definition plain (s : string) : Prop := has_char comma s = false /\ has_char newline s = false.

Definition ends_with (suffix s : string) : Prop := exists p, s = p ++ suffix.

(** The bilinear function on [0, hx] x [y0, y0 + hy] with the given corner
    values, and minus its flux through the side x = 0 by a quadrature rule
    (weight, position) on [0, 1]. *)
Section Bilinear.
Open Scope Q_scope.
Variables (hx hy y0 u00 u10 u01 u11 : Q).
Definition bilinear (x y : Q) : Q :=
  let s := x / hx in let t := (y - y0) / hy in
  u00 * (1 - s) * (1 - t) + u10 * s * (1 - t) + u01 * (1 - s) * t + u11 * s * t.
(** The derivative in the first direction: difference quotient of a function
    that is linear in this direction. *)
Definition slope (y : Q) : Q := (bilinear hx y - bilinear 0 y) / hx.
Definition minus_flux (diffusion00 : Q -> Q) (rule : list (Q * Q)) : Q :=
  fold_right Qplus 0 (map (fun p => let y := y0 + snd p * hy in - (fst p * hy * diffusion00 y * slope y)) rule).
End Bilinear.
