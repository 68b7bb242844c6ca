(* Model of audio/dsp/loudness/background_level_detector.{h,cc} as a whole: the weighting filter and the
   envelope detector, the slow smoother applied to its output, the tracking of the background level and
   the conversion to decibels.  The parts are the models of those components: EnvDetectModel.v,
   PerceptualModel.v, LadderModel.v, BackgroundModel.v and DecibelsModel.v.

   Over the real numbers; rounding is not modelled.  [eps], [smoothing] and [samples_max] belong to the
   ladder filter (see LadderModel.v) and [resampler_init] to the envelope detector (see EnvDetectModel.v). *)
From Verif Require Import Common CInt RealUtil BiquadModel DesignModel CascadeModel PerceptualModel ResamplerModel EnvDetectModel LadderModel DecibelsModel BackgroundModel.
Local Open Scope R_scope.

Section Meter.
Variable eps : R.
Variables (smoothing : coeffs R) (samples_max : nat).
Variable resampler_init : R -> R -> option (@config R * Z).

(* background_level_detector.h:157-195.  [m_level] holds params_ without the weighting, the coefficients,
   transient_counters_, background_previous_samples_ and burn_in_stage_; [m_slow] is None before Init;
   [m_instantaneous] is fast_envelope_ and [m_background] is background_, one list of channels per frame.
   slow_envelope_ is only used within a call. *)
Record meter := {
  m_weighting : weighting; m_level : bg; m_detector : detector R; m_slow : option ladder;
  m_instantaneous : list (list R); m_background : list (list R) }.
(* background_level_detector.h:40-48 and the default constructors of the members *)
Definition meter_new : meter :=
  {| m_weighting := A_weighting; m_level := bg_new; m_detector := detector_new 0; m_slow := None;
     m_instantaneous := []; m_background := [] |}.

(* background_level_detector.cc:67-75.  Before Init the ladder filter refuses to be reset
   (ladder_filter-inl.h:193). *)
Definition meter_reset (m : meter) : outcome meter :=
  d <- detector_reset 0 (m_detector m) ;;
  sl <- match m_slow m with Some f => ladder_reset f | None => CheckFail end ;;
  Ok {| m_weighting := m_weighting m; m_level := bg_reset (m_level m); m_detector := d; m_slow := Some sl;
        m_instantaneous := []; m_background := [] |}.

(* background_level_detector.cc:29-65.  The tests of bg_init include the first six CHECKs and those of the
   setters; which of several failing CHECKs comes first is not modelled. *)
Definition meter_init (m : meter) (w : weighting) (p : bg_params) (n : nat) (fs : R) : outcome meter :=
  b <- bg_init (m_level m) p n fs ;;
  cs <- perceptual_coefficients w fs ;;
  d <- detector_init 0 1 Rmult Rdiv (fun v => Reqb v 0) Rleb Rltb Reqb (fun x => x / 2) smoother_design resampler_init
         (Z.of_nat n) fs (fast_cutoff p) (envelope_rate p) cs ;;
  c <- lowpass (envelope_rate p) (slow_cutoff p) (1 / 2) ;;
  sl <- ladder_init_tf eps smoothing n (vec_b c) (vec_a c) ;;
  meter_reset {| m_weighting := w; m_level := b; m_detector := d; m_slow := Some sl;
                 m_instantaneous := m_instantaneous m; m_background := m_background m |}.

(* background_level_detector.cc:156-158 *)
Fixpoint frames_to_db (frames : list (list R)) : outcome (list (list R)) :=
  match frames with
  | [] => Ok []
  | fr :: r => a <- amplitude_to_db_array (map (fun v => v + 1 / 10 ^ 12) fr) ;; b <- frames_to_db r ;; Ok (a :: b)
  end.

(* background_level_detector.cc:77-160 *)
Definition meter_block (m : meter) (input : list (list R)) : outcome (meter * bool) :=
  let n := EnvDetectModel.channels (m_detector m) in
  dr <- detector_block Rplus Rminus Rmult rms_root (frame_dot n) (frame_plus n) (m_detector m) input ;;
  match snd dr with
  | None => Ok ({| m_weighting := m_weighting m; m_level := m_level m; m_detector := fst dr; m_slow := m_slow m;
                   m_instantaneous := m_instantaneous m; m_background := m_background m |}, false)
  | Some fast =>
      sr <- match m_slow m with Some f => run (ladder_sample eps) f fast | None => Undef end ;;
      br <- bg_block (m_level m) (map (fun q => combine (fst q) (snd q)) (combine fast (snd sr))) ;;
      match snd br with
      | None => Undef
      | Some back =>
          i <- frames_to_db fast ;;
          k <- frames_to_db back ;;
          Ok ({| m_weighting := m_weighting m; m_level := fst br; m_detector := fst dr; m_slow := Some (fst sr);
                 m_instantaneous := i; m_background := k |}, true)
      end
  end.

(* background_level_detector.h:113-134 *)
Definition instantaneous_estimate (m : meter) : list (list R) := m_instantaneous m.
Definition background_estimate (m : meter) : list (list R) := m_background m.
Definition most_recent_background (m : meter) : list R := map background (BackgroundModel.channels (m_level m)).

(* background_level_detector.cc:162-169 *)
Definition meter_set_slow_cutoff (m : meter) (v : R) : outcome meter :=
  b <- set_slow_cutoff (m_level m) v ;;
  c <- lowpass (envelope_rate (bparams (m_level m))) v (1 / 2) ;;
  sl <- match m_slow m with Some f => ladder_change_tf eps samples_max f (vec_b c) (vec_a c) | None => CheckFail end ;;
  Ok {| m_weighting := m_weighting m; m_level := b; m_detector := m_detector m; m_slow := Some sl;
        m_instantaneous := m_instantaneous m; m_background := m_background m |}.
(* background_level_detector.cc:171-194 *)
Definition with_level (m : meter) (b : bg) : meter :=
  {| m_weighting := m_weighting m; m_level := b; m_detector := m_detector m; m_slow := m_slow m;
     m_instantaneous := m_instantaneous m; m_background := m_background m |}.
Definition meter_set_time_constant (m : meter) (t : R) : outcome meter := omap (with_level m) (set_time_constant (m_level m) t).
Definition meter_set_sensitivity (m : meter) (v : R) : meter := with_level m (set_sensitivity (m_level m) v).
Definition meter_set_rejection_time (m : meter) (t : R) : outcome meter := omap (with_level m) (set_rejection_time (m_level m) t).

(* ProcessBlock followed by the two getters; None if ProcessBlock returns false *)
Definition meter_process (m : meter) (input : list (list R)) : outcome (meter * option (list (list R) * list (list R))) :=
  omap (fun r : meter * bool => (fst r, if snd r then Some (instantaneous_estimate (fst r), background_estimate (fst r)) else None)) (meter_block m input).
End Meter.
