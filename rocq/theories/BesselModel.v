(* Model of audio/dsp/bessel_functions.cc.  Doubles are real numbers, so the
   series are summed exactly, with the same stopping rule as the code. *)
From Verif Require Import Common RealUtil.
Local Open Scope R_scope.

(* DBL_EPSILON of <cfloat> *)
Definition DBL_EPSILON : R := / 2 ^ 52.

(* bessel_functions.cc:43-51.  [fuel] counts the remaining values of k below
   kMaxTerms. *)
Fixpoint series_loop (fuel k n : nat) (q term sum : R) : R :=
  match fuel with
  | O => sum
  | S fuel' =>
      let term' := term * (q / INR (k * (k + n))) in
      if Rltb term' (DBL_EPSILON * sum) then sum
      else series_loop fuel' (S k) n q term' (sum + term')
  end.

(* bessel_functions.cc:34-53 *)
Definition bessel_i_series (n : nat) (x : R) : R :=
  let sum := match n with O => 1 | _ => x / 2 end in
  series_loop 39 1 n (x * x / 4) sum sum.

(* bessel_functions.cc:67-75 *)
Fixpoint asymptotic_loop (fuel k n : nat) (x term sum : R) : R :=
  match fuel with
  | O => sum
  | S fuel' =>
      let term' := term * (((2 * INR k - 1) * (2 * INR k - 1) - 4 * INR (n * n))
                           / (8 * INR k * x)) in
      if Rltb (Rabs term') (DBL_EPSILON * sum) then sum
      else asymptotic_loop fuel' (S k) n x term' (sum + term')
  end.

(* bessel_functions.cc:62-77 *)
Definition bessel_i_asymptotic (n : nat) (x : R) : R :=
  let sum := exp x / sqrt (2 * PI * x) in
  asymptotic_loop 39 1 n x sum sum.

(* bessel_functions.cc:81-90 *)
Definition bessel_i0 (x : R) : R :=
  let x := Rabs x in
  if Rltb x 21 then bessel_i_series 0 x else bessel_i_asymptotic 0 x.

(* bessel_functions.cc:92-100 *)
Definition bessel_i1 (x : R) : R :=
  let sign := if Rltb x 0 then -1 else 1 in
  let x := Rabs x in
  if Rltb x 21 then sign * bessel_i_series 1 x else sign * bessel_i_asymptotic 1 x.
