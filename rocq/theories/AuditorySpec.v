(* What an auditory filterbank is: an ERB frequency scale, a rate for each stage,
   resonators, unit peak gain, and signals that run through the stages. *)
From Verif Require Import Common RealUtil BiquadModel BiquadSpec FirSpec DesignSpec CascadeSpec SteadySpec PeakSpec AuditoryModel.
From Coquelicot Require Import Complex.
Local Open Scope R_scope.

(* what Init requires of the parameters *)
Definition valid_parameters (p : params) (allow : bool) (rate : R) : Prop :=
  0 < rate /\ 0 < highest_pole_frequency p /\ 0 <= max_pole_nyquist_fraction p <= 1 /\ 0 < step_erbs p < 2 /\
  0 < pole_zeta p < 1 / 2 /\ 0 < min_pole_frequency p /\
  (use_all_channels p = false -> (0 <= first_channel p /\ 0 < skip_every_n p /\ 0 < max_channels p)%Z) /\
  (allow = true -> 6 < max_samples_per_cycle p /\ 0 < min_sample_rate p).

(* equivalent rectangular bandwidth in Hz, Glasberg and Moore 1990 *)
Definition erb (f : R) : R := 247 / 10 * (1 + 437 / 100 * f / 1000).
(* fs is f, f - step ERBs, ... as long as the values are above lowest *)
Fixpoint erb_scale (lowest step f : R) (fs : list R) : Prop :=
  match fs with
  | [] => f <= lowest
  | g :: r => g = f /\ lowest < f /\ erb_scale lowest step (f - step * erb f) r
  end.

(* the sample rate of each stage: halved before a stage, other than the first, whose
   cycle has more than max_per_cycle samples, if the halved rate is at least min_rate *)
Fixpoint stage_rates (allow first : bool) (max_per_cycle min_rate rate : R) (poles rates : list R) : Prop :=
  match poles, rates with
  | [], [] => True
  | p :: ps, r :: rs =>
      let halve := allow = true /\ first = false /\ max_per_cycle * p < rate /\ min_rate <= rate / 2 in
      (halve -> r = rate / 2) /\ (~ halve -> r = rate) /\
      stage_rates allow false max_per_cycle min_rate r ps rs
  | _, _ => False
  end.

(* s^2/(w0^2) + 2 zeta s/w0 + 1 *)
Definition quadratic_factor (frequency zeta : R) (s : C) : C :=
  let w := 2 * PI * frequency in
  (s * s / RtoC (w * w) + RtoC (2 * zeta / w) * s + RtoC 1)%C.
(* the analog resonator with its zeros half an octave above its poles *)
Definition resonance (pole zeta : R) (s : C) : C :=
  (quadratic_factor (pole * sqrt 2) (zeta / sqrt 2) s / quadratic_factor pole zeta s)%C.
(* c is the bilinear transform of the resonator, up to gain *)
Definition is_resonator (pole zeta rate : R) (c : coeffs R) : Prop :=
  exists g K, g <> 0 /\ 0 < K /\
    (rate / 10000000 <= pole -> K * tan (PI * pole / rate) = 2 * PI * pole) /\
    forall z : C, z <> RtoC (-1) -> denominator c z <> RtoC 0 ->
      let s := (RtoC K * (z - RtoC 1) / (z + RtoC 1))%C in
      quadratic_factor pole zeta s <> RtoC 0 /\ has_value c z (RtoC g * resonance pole zeta s)%C.

(* one resonator for each pole, at the rate of its stage *)
Fixpoint resonators (zeta : R) (poles rates : list R) (cs : list (coeffs R)) : Prop :=
  match poles, rates, cs with
  | [], [], [] => True
  | p :: ps, r :: rs, c :: cs' => 0 < p < r / 2 /\ is_resonator p zeta r c /\ stable c /\ resonators zeta ps rs cs'
  | _, _, _ => False
  end.

(* the stages in a row at f Hz, each at its own sample rate *)
Fixpoint response (cs : list (coeffs R)) (rates : list R) (f : R) (h : C) : Prop :=
  match cs, rates with
  | [], [] => h = RtoC 1
  | c :: cs', r :: rates' => exists h1 h2, has_value c (on_circle f r) h1 /\ response cs' rates' f h2 /\ h = (h1 * h2)%C
  | _, _ => False
  end.
(* channel k: the first k + 1 stages followed by a difference of successive samples *)
Definition channel_response (cs : list (coeffs R)) (rates : list R) (k : nat) (f : R) (h : C) : Prop :=
  exists h1 r, response (firstn (S k) cs) (firstn (S k) rates) f h1 /\ nth_error rates k = Some r /\
    h = (h1 * (RtoC 1 - / on_circle f r))%C.

(* The gain of channel k at `peak` is one; it is at most one at 98 equally spaced
   frequencies; and if the gain rises to a single maximum and then falls, the maximum
   is near `peak`. *)
Definition unit_peak (cs : list (coeffs R)) (rates : list R) (k : nat) (peak : R) : Prop :=
  exists r h, nth_error rates k = Some r /\ 0 < peak < r / 2 /\
    channel_response cs rates k peak h /\ Cmod h = 1 /\
    (forall (j : Z) h', (1 <= j <= 98)%Z -> channel_response cs rates k (IZR j * (r / 2 / 99)) h' -> Cmod h' <= 1) /\
    forall gain p, (forall f, 0 < f < r / 2 -> exists h', channel_response cs rates k f h' /\ Cmod h' = gain f) ->
      single_peak gain 0 (r / 2) p ->
      Rabs (p - peak) <= r / 2 / 99 / 1048576 \/ Rabs (p - peak) < 1 / 1000000000 + 5 / 1000000 * peak.

(* no coefficient of z^-2 in a numerator is negligible for the code that simplifies cascades *)
Definition clear_numerators (cs : list (coeffs R)) : Prop := List.Forall (fun c => / 10000000000 < Rabs (b2 c)) cs.

(* indices first, first + skip, ... below n, at most `count` of them *)
Definition selected (first skip count n : Z) (l : list nat) : Prop :=
  (forall k, (k < length l)%nat -> Z.of_nat (nth k l 0%nat) = first + Z.of_nat k * skip)%Z /\
  (forall k : Z, (0 <= k)%Z -> (first + k * skip < n)%Z -> (k < count)%Z -> (k < Z.of_nat (length l))%Z) /\
  (forall k : Z, (0 <= k < Z.of_nat (length l))%Z -> (first + k * skip < n)%Z /\ (k < count)%Z).

(* x[n] - x[n-1] *)
Definition difference (x : list R) : list R := map (fun n => nth n x 0 - match n with O => 0 | S m => nth m x 0 end) (seq 0 (length x)).
(* the signals of one microphone: outs holds the outputs of the stages *)
Fixpoint bank (prev_rate : R) (cs : list (coeffs R)) (rates : list R) (x : list R) (outs : list (list R)) : Prop :=
  match cs, rates, outs with
  | [], [], [] => True
  | c :: cs', r :: rates', y :: outs' =>
      exists w, BiquadSpec.filters 0 Rplus Rminus Rmult c (if Rle_dec prev_rate r then x else evens x) w /\
        y = difference w /\ bank r cs' rates' w outs'
  | _, _, _ => False
  end.
