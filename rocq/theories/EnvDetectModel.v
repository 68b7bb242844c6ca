(* Model of audio/dsp/envelope_detector.{h,cc}.

   Numbers are elements of any type F with the C++ operators as parameters.  Two calls are left to
   parameters: [design] is LowpassBiquadFilterCoefficients(sample_rate, cutoff, 0.5) (see DesignModel.v) and
   [resampler_init] is QResampler::Init with max_denominator 500, which gives the resampling filters
   and their radius, or None if it refuses the rates (see ResamplerModel.v and C53). *)
From Verif Require Import Common CInt RealUtil BiquadModel DesignModel ResamplerModel.

Section Detector.
Context {F : Type} (zero one : F) (add sub mul div : F -> F -> F) (is_zero : F -> bool) (leb ltb eqb : F -> F -> bool)
        (half root : F -> F)                                  (* x / 2; std::sqrt(std::abs(x)) *)
        (dot : list F -> list (list F) -> list F)             (* a resampling filter times a window of frames *)
        (plus : list F -> list F -> list F)
        (design : F -> F -> outcome (coeffs F))
        (resampler_init : F -> F -> option (@config F * Z)).

(* envelope_detector.h:81-95; [channels] = 0 means not initialized; the rates are kept only to decide
   whether they are equal (cc:68) *)
Record detector := {
  channels : nat; same_rate : bool; recent : list F;
  prefilter : list (biquad F); smoother : biquad F;
  downsampler : option (@config F * Z * @rstate (list F)) }.
(* envelope_detector.h:40-41 *)
Definition detector_new : detector :=
  {| channels := 0; same_rate := false; recent := []; prefilter := [];
     smoother := {| ff0 := zero; ff1 := zero; ff2 := zero; fb1 := zero; fb2 := zero; rows := [] |};
     downsampler := None |}.

(* envelope_detector.cc:26-54 *)
Definition detector_init (num_channels : Z) (fs cutoff env_fs : F) (cs : list (coeffs F)) : outcome detector :=
  ocheck (leb env_fs fs)
  (ocheck (ltb cutoff (half env_fs))
  (ocheck (ltb zero cutoff)
  (ocheck (0 <? num_channels)%Z
  (let n := Z.to_nat num_channels in
   obind (cascade_init zero one mul div is_zero n cs) (fun pre =>
   obind (design fs cutoff) (fun c =>
   obind (biquad_init zero one mul div is_zero n c) (fun sm =>
   Ok {| channels := n; same_rate := eqb env_fs fs; recent := repeat zero n; prefilter := pre; smoother := sm;
         downsampler := match resampler_init fs env_fs with
                        | Some (c, r) => Some (c, r, reset (repeat zero n) r)
                        | None => None
                        end |}))))))).

(* envelope_detector.cc:56-60; most_recent_output_ is not cleared.  Resetting a resampler that refused its
   rates has no effect that can be observed. *)
Definition detector_reset (d : detector) : outcome detector :=
  obind (cascade_reset zero (prefilter d)) (fun pre =>
  obind (biquad_reset zero (smoother d)) (fun sm =>
  Ok {| channels := channels d; same_rate := same_rate d; recent := recent d; prefilter := pre; smoother := sm;
        downsampler := match downsampler d with
                       | Some (c, r, _) => Some (c, r, reset (repeat zero (channels d)) r)
                       | None => None
                       end |})).

(* envelope_detector.cc:62-87: None is a return value of false; resampler_q.h:546 is the CHECK *)
Definition resample (ds : option (@config F * Z * @rstate (list F))) (frames : list (list F)) :=
  match ds with
  | Some (c, r, s) => obind (q_process dot plus c s frames) (fun p => Ok (Some (c, r, fst p), snd p))
  | None => CheckFail
  end.
Definition detector_block (d : detector) (frames : list (list F)) : outcome (detector * option (list (list F))) :=
  if (channels d =? 0)%nat then Ok (d, None)
  else
  obind (cascade_block add sub mul (prefilter d) frames) (fun p =>
  let squared := map (map (fun x => mul x x)) (snd p) in
  obind (biquad_block add sub mul (smoother d) squared) (fun q =>
  obind (if same_rate d then Ok (downsampler d, snd q) else resample (downsampler d) (snd q)) (fun r =>
  let out := map (map root) (snd r) in
  Ok ({| channels := channels d; same_rate := same_rate d;
         recent := match out with [] => recent d | _ => last out [] end;
         prefilter := fst p; smoother := fst q; downsampler := fst r |}, Some out)))).

(* envelope_detector.h:74-76 *)
Definition most_recent (d : detector) : list F := recent d.
End Detector.
Arguments detector : clear implicits.

Local Open Scope R_scope.
(* The instance over the real numbers: envelope_detector.cc:43-47 and 79; resampler_q.h:727-731, 776-779 for
   n channels (a filter times a matrix with one row per channel). *)
Definition rms_root (x : R) : R := sqrt (Rabs x).
Definition frame_dot (n : nat) (f : list R) (w : list (list R)) : list R :=
  map (fun i => fold_right Rplus 0 (map (fun p => fst p * nth i (snd p) 0) (combine f w))) (seq 0 n).
Definition frame_plus (n : nat) (u v : list R) : list R := map (fun i => nth i u 0 + nth i v 0) (seq 0 n).
Definition smoother_design (fs cutoff : R) : outcome (coeffs R) := lowpass fs cutoff (1 / 2).
