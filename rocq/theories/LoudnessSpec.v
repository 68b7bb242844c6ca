(* Specification of the loudness meter: what ITU-R BS.1771 prescribes. *)
From Verif Require Import Common RealUtil BiquadModel BiquadSpec.
Local Open Scope R_scope.

(* the weighted sum of the squares of the samples of one frame *)
Fixpoint weighted_power (ws frame : list R) : R :=
  match ws, frame with
  | w :: ws', x :: fr' => w * (x * x) + weighted_power ws' fr'
  | _, _ => 0
  end.
(* exponential average: p[k] = p[k-1] + c (x[k] - p[k-1]), from p0 *)
Fixpoint exponential_average (c p0 : R) (x : list R) : list R :=
  match x with
  | [] => []
  | v :: x' => let p := p0 + c * (v - p0) in p :: exponential_average c p x'
  end.
(* every channel of y is the channel of x filtered by the cascade cs *)
Definition frames_filtered (n : nat) (cs : list (coeffs R)) (x y : list (list R)) : Prop :=
  length y = length x /\ Forall (fun fr => length fr = n) y /\
  forall i, (i < n)%nat -> cascade_filters 0 Rplus Rminus Rmult cs (channel 0 i x) (channel 0 i y).
(* consecutive groups of n samples *)
Fixpoint groups (n k : nat) (xs : list R) : list (list R) :=
  match k with O => [] | S k' => firstn n xs :: groups n k' (skipn n xs) end.

From Coquelicot Require Import Coquelicot.
(* mean power and second harmonic of channels with amplitudes As *)
Fixpoint mean_power (ws : list R) (As : list C) : R :=
  match ws, As with w :: ws', A :: As' => w * (Cmod A * Cmod A / 2) + mean_power ws' As' | _, _ => 0 end.
Fixpoint second_harmonic (ws : list R) (As : list C) : C :=
  match ws, As with
  | w :: ws', A :: As' => Cplus (Cmult (RtoC w) (Cmult (RtoC (1 / 2)) (Cmult A A))) (second_harmonic ws' As')
  | _, _ => RtoC 0
  end.
