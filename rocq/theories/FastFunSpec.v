(* The functions that fast_fun approximates, and what "accurate to" means. *)
From Coq Require Import Reals.
Local Open Scope R_scope.

(* Logarithm to base 2 of v > 0. *)
Definition log2 (v : R) : R := ln v / ln 2.
(* 2^x and x^y for real exponents. *)
Definition exp2 (x : R) : R := exp (x * ln 2).
Definition power (x y : R) : R := exp (y * ln x).

(* approx is within tol of exact / within the fraction tol of exact. *)
Definition abs_error_le (tol approx exact : R) : Prop := Rabs (approx - exact) <= tol.
Definition rel_error_le (tol approx exact : R) : Prop :=
  0 < exact /\ Rabs (approx - exact) <= tol * exact.
