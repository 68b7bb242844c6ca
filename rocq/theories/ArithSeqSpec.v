(* What the documentation of ArithmeticSequence (audio/dsp/number_util.h:70-100) promises. *)
From Verif Require Import Common RealUtil.
Local Open Scope R_scope.

(* double epsilon *)
Definition dbl_eps : R := / 2 ^ 52.
(* "tol = min(epsilon*(5*(|base| + |limit|) + 7*|limit - base|, |step|/3)" *)
Definition doc_tol (base step limit : R) : R :=
  Rmin (dbl_eps * (5 * (Rabs base + Rabs limit) + 7 * Rabs (limit - base))) (Rabs step / 3).
(* n is the number of elements: the n-th element is within tol of not passing the limit, and one
   more would pass it *)
Definition doc_size (base step limit : R) (n : Z) : Prop :=
  let tol := doc_tol base step limit in
  (0 <= n)%Z /\
  (0 < step -> ((0 < n)%Z -> base + step * (IZR n - 1) <= limit + tol) /\ limit + tol < base + step * IZR n) /\
  (step < 0 -> ((0 < n)%Z -> limit - tol <= base + step * (IZR n - 1)) /\ base + step * IZR n < limit - tol).
(* within 4 epsilon relative difference of the intended value *)
Definition intended (x x' : R) : Prop := Rabs (x - x') <= 4 * dbl_eps * Rabs x'.
