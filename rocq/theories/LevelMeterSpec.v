(* What the level meter is documented to report. *)
From Verif Require Import Common RealUtil BiquadModel BiquadSpec DesignModel LoudnessSpec ResamplerModel ResamplerSpec ResamplerProofs EnvDetectModel BackgroundModel BackgroundSpec.
Local Open Scope R_scope.

(* a level in decibels relative to full scale, with the offset that keeps silence finite *)
Definition dbfs (v : R) : R := 20 * (ln (v + 1 / 10 ^ 12) / ln 10).
Definition squares (frames : list (list R)) : list (list R) := map (map (fun v => v * v)) frames.
Definition roots (frames : list (list R)) : list (list R) := map (map (fun v => sqrt (Rabs v))) frames.

(* The instantaneous level of [input]: every channel is filtered by the weighting filter [cs], squared,
   smoothed by the documented lowpass filter and, if the rates differ, resampled. *)
Definition rms_envelope (ri : R -> R -> option (@config R * Z)) (n : nat) (fs cutoff env : R) (cs : list (coeffs R)) (input fast : list (list R)) : Prop :=
  exists c y e, lowpass fs cutoff (1 / 2) = Ok c /\ frames_filtered n cs input y /\ frames_filtered n [c] (squares y) e /\
    (env = fs -> fast = roots e) /\
    (env <> fs -> exists rc radius, ri fs env = Some (rc, radius) /\
       fast = roots (resampled (frame_dot n) (numer rc) (denom rc) (Z.to_nat (taps rc)) (ResamplerModel.filters rc) (repeat (repeat 0 n) (Z.to_nat radius) ++ e))).

(* The level [back] tracks the envelope [fast] according to the documentation of the parameters [p]. *)
Definition tracks (p : bg_params) (n : nat) (fast slow back : list (list R)) : Prop :=
  length back = length fast /\ Forall (fun fr => length fr = n) back /\
  forall k, (k < n)%nat ->
    background_law (1 - exp (-10 / (time_constant p * envelope_rate p))) (1 - exp (-1 / (time_constant p * envelope_rate p)))
      (sensitivity p) (Int_part (rejection_time p * envelope_rate p)) (length fast)
      (fun i => nth i (0 :: channel 0 k back) 0) (fun i => nth k (nth i fast []) 0) (fun i => nth k (nth i slow []) 0).

(* The resampler that Init sets up, if one is needed. *)
Definition resampler_ready (ri : R -> R -> option (@config R * Z)) (fs env : R) : Prop :=
  env = fs \/ exists rc radius, ri fs env = Some (rc, radius) /\ valid_config rc /\ taps rc = (2 * radius + 1)%Z /\ (0 <= radius)%Z.
(* The documented conditions on the parameters, with a slow smoother below a quarter of the envelope rate. *)
Definition usable (p : bg_params) (fs : R) : Prop := valid_params p fs /\ slow_cutoff p < envelope_rate p / 4.
