(* Transfer function, frequency response and stability of a second order section. *)
From Verif Require Import Common RealUtil BiquadModel.
From Coquelicot Require Import Complex Derive Hierarchy ElemFct.
Local Open Scope C_scope.

(* H(z) = (b0 + b1 z^-1 + b2 z^-2) / (a0 + a1 z^-1 + a2 z^-2), multiplied out by z^2 *)
Definition numerator (c : coeffs R) (z : C) : C := RtoC (b0 c) * z * z + RtoC (b1 c) * z + RtoC (b2 c).
Definition denominator (c : coeffs R) (z : C) : C := RtoC (a0 c) * z * z + RtoC (a1 c) * z + RtoC (a2 c).
(* has_value c z h: H(z) is defined and equal to h *)
Definition has_value (c : coeffs R) (z h : C) : Prop :=
  denominator c z <> RtoC 0 /\ numerator c z / denominator c z = h.
(* the point of the unit circle for a frequency f at sample rate fs *)
Definition on_circle (f fs : R) : C := (cos (2 * PI * f / fs), sin (2 * PI * f / fs)).
(* every pole is strictly inside the unit circle (and there are two of them) *)
Definition stable (c : coeffs R) : Prop :=
  (a0 c <> 0)%R /\ forall z : C, denominator c z = RtoC 0 -> (Cmod z < 1)%R.
(* phase response near the angular frequency w0 (rad/s): a phase function that gives the unit
   magnitude response on a neighbourhood, its value at w0 and its derivative there; the group
   delay is minus the derivative *)
Definition phase_at (c : coeffs R) (fs w0 phase slope : R) : Prop :=
  exists phi : R -> R,
    locally w0 (fun w => has_value c (cos (w / fs), sin (w / fs)) (cos (phi w), sin (phi w))) /\
    cos (phi w0) = cos phase /\ sin (phi w0) = sin phase /\ is_derive phi w0 slope.

(* The documented parameter ranges. *)
Local Open Scope R_scope.
Definition valid_design (fs f q : R) : Prop := 0 < f /\ f < fs / 2 /\ 0 < q.
Definition valid_edges (fs lo hi : R) : Prop := 0 < lo /\ lo < hi /\ hi < fs / 2.
(* the phase is not a multiple of pi and the group delay is larger than |sin phase| / (fs sin w) *)
Definition valid_allpass (fs f phase delay : R) : Prop :=
  0 < f /\ f < fs / 2 /\ / 100000 < Rabs phase /\ / 100000 < Rabs (sin phase) /\
  Rabs (sin phase) / fs / sin (2 * PI * f / fs) < delay.
