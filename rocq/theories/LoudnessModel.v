(* Model of audio/dsp/loudness/streaming_loudness_1771.{h,cc}.

   Numbers are elements of any type F with the C++ operators as parameters; [colsum] is the sum of a
   column (Eigen's colwise().sum(); the order of the additions is left open) and [db] is
   PowerRatioToDecibels.  The coefficients of the K-weighting filter are an argument of Init: they
   are computed by PerceptualLoudnessFilterCoefficients, see PerceptualModel.v. *)
From Verif Require Import Common RealUtil BiquadModel DesignModel.

Section Loudness.
Context {F D : Type} (zero one : F) (add sub mul div : F -> F -> F) (is_zero : F -> bool)
        (colsum : list F -> F) (db : F -> D).

(* streaming_loudness_1771.h:225-235; the averaging coefficients kept in params_ are not used after Init *)
Record meter := { weights : list F; k_filter : list (biquad F); averager : biquad F }.
(* streaming_loudness_1771.h:167: no weights, filters not initialized (no stages, no channels) *)
Definition meter_new : meter :=
  {| weights := []; k_filter := [];
     averager := {| ff0 := zero; ff1 := zero; ff2 := zero; fb1 := zero; fb2 := zero; rows := [] |} |}.

(* streaming_loudness_1771.cc:26-43; the comparison converts a negative num_channels to a large
   unsigned number *)
Definition meter_init (m : meter) (ws : list F) (averaging : coeffs F) (num_channels : Z) (k_coeffs : list (coeffs F))
    : outcome (meter * bool) :=
  if negb (Z.of_nat (length ws) =? num_channels)%Z then
    Ok ({| weights := ws; k_filter := k_filter m; averager := averager m |}, false)
  else
    obind (cascade_init zero one mul div is_zero (Z.to_nat num_channels) k_coeffs) (fun ks =>
    obind (biquad_init zero one mul div is_zero 1 averaging) (fun a =>
    Ok ({| weights := ws; k_filter := ks; averager := a |}, true))).

(* streaming_loudness_1771.cc:45-48 *)
Definition meter_reset (m : meter) : outcome meter :=
  obind (cascade_reset zero (k_filter m)) (fun ks =>
  obind (biquad_reset zero (averager m)) (fun a =>
  Ok {| weights := weights m; k_filter := ks; averager := a |})).

(* streaming_loudness_1771.h:193-200: square, weight and add the channels of one column *)
Definition column_power (ws : list F) (frame : list F) : F :=
  colsum (map (fun p => mul (mul (fst p) (fst p)) (snd p)) (combine frame ws)).

(* streaming_loudness_1771.h:184-207: [frames] are the columns of [input], each with [channels] =
   input.rows() samples; channel_weights[i] is read for every row *)
Definition meter_block (channels : nat) (m : meter) (frames : list (list F)) : outcome (meter * list D) :=
  oguard (forallb (fun fr => length fr =? channels)%nat frames)
  (obind (cascade_block add sub mul (k_filter m) frames) (fun p =>
   oguard (channels <=? length (weights m))%nat
   (obind (biquad_block add sub mul (averager m) (map (fun fr => [column_power (weights m) fr]) (snd p))) (fun q =>
    Ok ({| weights := weights m; k_filter := fst p; averager := fst q |},
        map (fun fr => db (hd zero fr)) (snd q)))))).

(* streaming_loudness_1771.h:213-222: the columns of Eigen::Map(input.data(), num_channels, num_frames) *)
Definition columns (rows cols : nat) (xs : list F) : list (list F) :=
  map (fun j => slice (j * rows) rows xs) (seq 0 cols).
Definition meter_vector (m : meter) (xs : list F) : outcome (meter * list D) :=
  let n := length (weights m) in
  oguard (1 <=? n)%nat (meter_block n m (columns n (length xs / n) xs)).
End Loudness.
Arguments meter : clear implicits.

Local Open Scope R_scope.
(* The instance over the real numbers. *)
(* the result of 10 / ln 10 * ln x: a number, minus infinity for 0, NaN for a negative x (decibels.h:64-69) *)
Inductive level := Level (x : R) | MinusInfinity | NotANumber.
Definition loudness_db (p : R) : level :=
  if Rltb 0 p then Level (10 / ln 10 * ln p) else if Rltb p 0 then NotANumber else MinusInfinity.
Definition rsum (l : list R) : R := fold_right Rplus 0 l.

(* streaming_loudness_1771.h:136-144, conversions to float not modelled; a zero or negative product
   of time constant and rate is outside the model (see EnvelopeModel.coefficient_of) *)
Definition first_order_lowpass (time_constant fs : R) : coeffs R :=
  let c := first_order_coefficient time_constant fs in
  {| b0 := c; b1 := 0; b2 := 0; a0 := 1; a1 := c - 1; a2 := 0 |}.
(* streaming_loudness_1771.h:60-68, 80-90, 111-122: weights and averaging coefficients *)
Definition mono_params (t fs : R) : list R * coeffs R := ([1], first_order_lowpass t fs).
Definition stereo_params (t fs : R) : list R * coeffs R := ([1; 1], first_order_lowpass t fs).
Definition surround_params (t fs : R) : list R * coeffs R :=
  ([1; 1; 1; 0; 141 / 100; 141 / 100], first_order_lowpass t fs).
