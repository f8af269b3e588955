(** Error norms as quadratures, and the comparison tests.

    /repo/dune/multiscale/common/error_calc.cc:38-45 (types of the products),
    258-305 (square roots), /repo/dune/multiscale/test/compare_msfem.cc:15-28,
    compare_cgfem.cc:15-27.
    Simplified: exact real numbers; a function is given by its value and its
    gradient at the quadrature points, and its order is one number for all cells; the external products are sums over the
    quadrature points of all interior cells (of all processes). *)
From Coq Require Import Reals List Arith Bool String.
From Verif Require Import RSum ErrorModel.
Import ListNotations.
Open Scope R_scope.

(** A function at the points of a reference set: value, gradient and the order
    it reports for quadratures (LocalfunctionInterface::order, external); the
    arguments of the products, error_calc.cc:258-305. *)
Record func : Type := { fv : nat -> R; fg : nat -> nat -> R; fo : nat }.
(** Stuff::Functions::Difference, error_calc.cc:38-40 (external). *)
Definition fdiff (f g : func) : func :=
  {| fv := fun q => fv f q - fv g q; fg := fun q k => fg f q k - fg g q k;
     fo := Nat.max (fo f) (fo g) |}.
(** A newly created discrete function, error_calc.cc:161. *)
Definition fzero (order : nat) : func := {| fv := fun _ => 0; fg := fun _ _ => 0; fo := order |}.

Section Norms.
Variable d : nat.                             (* space directions *)
Variable quad : nat -> list (nat * R).        (* quadrature of an order: points, weight times integration element *)
Variable over : nat.                          (* global.error.over_integrate, error_calc.cc:144 *)

(** Products::L2Localizable and H1SemiLocalizable, error_calc.cc:41-45
    (external): the integrand has twice the order of the function. *)
Definition l2_product (f : func) : R :=
  lsum (quad (2 * fo f + over)) (fun q => snd q * (fv f (fst q) * fv f (fst q))).
(** H1SemiLocalizable, error_calc.cc:43-45: gradients. *)
Definition h1s_product (f : func) : R :=
  lsum (quad (2 * (fo f - 1) + over)) (fun q => snd q * dot d (fg f (fst q)) (fg f (fst q))).
(** std::sqrt(….apply2()), error_calc.cc:258-305. *)
Definition l2_error (f : func) : R := sqrt (l2_product f).
(** std::sqrt of the H1 product, error_calc.cc:258-305. *)
Definition h1s_error (f : func) : R := sqrt (h1s_product f).
End Norms.

(** ** The comparison tests. *)
Section Test.
Variable float_eq : R -> R -> bool.  (* FloatCmp::eq, external *)
(** std::map<std::string, double>, error_calc.hh:61. *)
Definition errors : Type := list (string * R).

(** std::map operator[], as used in compare_msfem.cc:20-21,25: a missing key is inserted with value zero. *)
Definition at_or_zero (m : errors) (k : string) : R :=
  match assoc_str k m with Some v => v | None => 0 end.
(** The map after operator[] (compare_msfem.cc:20-21,25). *)
Definition touch (m : errors) (k : string) : errors :=
  match assoc_str k m with Some _ => m | None => (k, 0) :: m end.

(** EXPECT_GT, compare_msfem.cc:20-21. *)
Definition gt (a b : R) : bool := if Rlt_dec b a then true else false.

(** compare_msfem.cc:15-28 and compare_cgfem.cc:15-27: [keys] are the two
    keys, [expected] the configured values (default -1), [first] and [second]
    the results of the two runs. True: all expectations hold. *)
Definition compare_test (keys : list string) (expected : string -> option R) (first second : errors) : bool :=
  let limit k := match expected k with Some e => e | None => -1 end in
  let ok := forallb (fun k => gt (limit k) (at_or_zero first k)) keys in
  let first' := fold_left touch keys first in
  ok && forallb (fun p => float_eq (snd p) (at_or_zero second (fst p))) first'.

(** The keys of compare_msfem.cc:20-21. *)
Definition msfem_keys : list string := ["msfem_exact_L2"; "msfem_exact_H1s"]%string.
(** compare_cgfem.cc:20-21. *)
Definition cgfem_keys : list string := ["fem_exact_L2"; "fem_exact_H1s"]%string.
End Test.
