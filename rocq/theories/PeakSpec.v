(* Frequency response of a second order section, its poles and how fast it decays. *)
From Verif Require Import Common RealUtil BiquadModel DesignSpec CascadeSpec.
From Coquelicot Require Import Complex.
Local Open Scope R_scope.

(* the gain at w radians per sample is g *)
Definition gain_at (c : coeffs R) (w g : R) : Prop :=
  exists h, has_value c (cos w, sin w) h /\ Cmod h = g.
Definition cascade_gain_at (cs : list (coeffs R)) (w g : R) : Prop :=
  exists h, cascade_value cs (cos w, sin w) h /\ Cmod h = g.
(* no pole on the unit circle *)
Definition circle_free (c : coeffs R) : Prop :=
  forall w, denominator c (cos w, sin w) <> RtoC 0.
(* g is the largest gain and w the lowest frequency in [0, pi] that has it *)
Definition lowest_peak (c : coeffs R) (w g : R) : Prop :=
  0 <= w <= PI /\ gain_at c w g /\
  (forall w' g', gain_at c w' g' -> g' <= g) /\
  (forall w', 0 <= w' -> gain_at c w' g -> w <= w').

(* g rises strictly up to p and falls strictly from p on, inside (lo, hi); p may be an end *)
Definition single_peak (g : R -> R) (lo hi p : R) : Prop :=
  lo <= p <= hi /\
  (forall x y, lo < x -> x < y -> y <= p -> y < hi -> g x < g y) /\
  (forall x y, p <= x -> lo < x -> x < y -> y < hi -> g y < g x).

(* impulse response of the filter: the series in z^-1 of numerator / denominator *)
Fixpoint impulse (c : coeffs R) (n : nat) : R * R :=   (* (h n, h (n - 1)) *)
  match n with
  | O => (b0 c / a0 c, 0)
  | S m => let '(h1, h2) := impulse c m in
      (((match m with O => b1 c | 1%nat => b2 c | _ => 0 end) - a1 c * h1 - a2 c * h2) / a0 c, h1)
  end.
Definition impulse_response (c : coeffs R) (n : nat) : R := fst (impulse c n).

(* With y = cos w the squared gain is N(y) / D(y) for two quadratics N and D; its
   slope has the sign of the quadratic with these coefficients, half of
   N'(y) D(y) - N(y) D'(y). *)
Definition slope (c : coeffs R) : R * R * R :=
  let '(n2, n1, n0) := (4 * (b0 c * b2 c), 2 * (b0 c * b1 c + b1 c * b2 c), (b0 c - b2 c) ^ 2 + b1 c ^ 2) in
  let '(d2, d1, d0) := (4 * (a0 c * a2 c), 2 * (a0 c * a1 c + a1 c * a2 c), (a0 c - a2 c) ^ 2 + a1 c ^ 2) in
  ((n2 * d1 - n1 * d2) / 2, n2 * d0 - n0 * d2, (n1 * d0 - n0 * d1) / 2).
(* the discriminant of the slope is zero or clearly different from zero in double precision *)
Definition clear_cut (c : coeffs R) : Prop :=
  let '(s2, s1, s0) := slope c in
  let d := s1 ^ 2 - 4 * s2 * s0 in
  d = 0 \/ 2 * s1 ^ 2 < 4503599627370496 * Rabs d /\ 4 * Rabs (s2 * s0) < 4503599627370496 * Rabs d.

(* the discriminant of the denominator is zero or clearly different from zero in double precision *)
Definition clear_poles (c : coeffs R) : Prop :=
  let d := a1 c ^ 2 - 4 * a0 c * a2 c in
  d = 0 \/ 2 * a1 c ^ 2 < 4503599627370496 * Rabs d /\ 4 * Rabs (a0 c * a2 c) < 4503599627370496 * Rabs d.
(* p and q are the two poles *)
Definition poles (c : coeffs R) (p q : C) : Prop :=
  forall z : C, denominator c z = (RtoC (a0 c) * (z - p) * (z - q))%C.
