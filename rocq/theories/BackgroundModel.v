(* Model of audio/dsp/loudness/background_level_detector.{h,cc} over the real numbers.  The fast
   envelope (EnvelopeDetector: weighting filter, squaring, smoothing, resampling, square root) and
   the slow envelope (a ladder filter applied to it) are not modelled here: every block comes with
   the two envelopes they produced.  The conversion of the results to decibels
   (background_level_detector.cc:156-158) is left out, so the outputs below are the linear levels.
   LevelMeterModel.v adds these parts. *)
From Verif Require Import Common RealUtil DesignModel EnvelopeModel.
Local Open Scope R_scope.

(* background_level_detector.h:40-85, without the weighting *)
Record bg_params := { slow_cutoff : R; fast_cutoff : R; time_constant : R; sensitivity : R; rejection_time : R; envelope_rate : R }.
(* background_level_detector.h:41-48 *)
Definition default_bg : bg_params :=
  {| slow_cutoff := 1; fast_cutoff := 16; time_constant := 1; sensitivity := 7 / 10; rejection_time := 8 / 10; envelope_rate := 100 |}.

(* background_previous_samples_, transient_counters_ and burn_in_stage_ of one channel *)
Record bg_channel := { background : R; counter : Z; burn_in : bool }.
Record bg := { bparams : bg_params; coeff : R; burn_in_coeff : R; rejection_samples : Z; channels : list bg_channel }.

Definition fresh_channel : bg_channel := {| background := 0; counter := 0; burn_in := true |}.
(* a default-constructed object; its uninitialised members are not used before Init *)
Definition bg_new : bg := {| bparams := default_bg; coeff := 0; burn_in_coeff := 0; rejection_samples := 0; channels := [] |}.

(* conversion of a float to int: truncation, undefined out of range *)
Definition truncate (x : R) : outcome Z :=
  oguard (Rltb (-2147483649) x && Rltb x 2147483648) (Ok (if Rltb x 0 then - Int_part (- x) else Int_part x)%Z).

(* background_level_detector.cc:171-183 *)
Definition set_time_constant (s : bg) (t : R) : outcome bg :=
  ocheck (Rltb (1 / (2 * PI * envelope_rate (bparams s))) t)
  (let p := bparams s in
   Ok {| bparams := {| slow_cutoff := slow_cutoff p; fast_cutoff := fast_cutoff p; time_constant := t; sensitivity := sensitivity p; rejection_time := rejection_time p; envelope_rate := envelope_rate p |};
         coeff := first_order_coefficient t (envelope_rate p); burn_in_coeff := first_order_coefficient (t / 10) (envelope_rate p);
         rejection_samples := rejection_samples s; channels := channels s |}).
(* background_level_detector.cc:185-187 *)
Definition set_sensitivity (s : bg) (v : R) : bg :=
  let p := bparams s in
  {| bparams := {| slow_cutoff := slow_cutoff p; fast_cutoff := fast_cutoff p; time_constant := time_constant p; sensitivity := v; rejection_time := rejection_time p; envelope_rate := envelope_rate p |};
     coeff := coeff s; burn_in_coeff := burn_in_coeff s; rejection_samples := rejection_samples s; channels := channels s |}.
(* background_level_detector.cc:189-194 *)
Definition set_rejection_time (s : bg) (t : R) : outcome bg :=
  let p := bparams s in
  obind (truncate (t * envelope_rate p)) (fun n =>
  Ok {| bparams := {| slow_cutoff := slow_cutoff p; fast_cutoff := fast_cutoff p; time_constant := time_constant p; sensitivity := sensitivity p; rejection_time := t; envelope_rate := envelope_rate p |};
        coeff := coeff s; burn_in_coeff := burn_in_coeff s; rejection_samples := n; channels := channels s |}).
(* background_level_detector.cc:67-75 *)
Definition bg_reset (s : bg) : bg :=
  {| bparams := bparams s; coeff := coeff s; burn_in_coeff := burn_in_coeff s; rejection_samples := rejection_samples s;
     channels := repeat fresh_channel (length (channels s)) |}.

(* background_level_detector.cc:29-65, with the CHECKs of EnvelopeDetector::Init
   (envelope_detector.cc:30-34) and of the slow filter's design; the design of the weighting filter
   is assumed to succeed.  The first six CHECKs read params_, the parameters of the previous Init. *)
Definition bg_init (s : bg) (p : bg_params) (n : nat) (fs : R) : outcome bg :=
  let old := bparams s in
  ocheck (Rltb (fast_cutoff old) (envelope_rate old / 2)) (ocheck (Rltb (slow_cutoff old) (envelope_rate old / 2))
  (ocheck (Rltb 0 (fast_cutoff old)) (ocheck (Rltb 0 (slow_cutoff old)) (ocheck (Rltb 0 (sensitivity old)) (ocheck (Rleb (sensitivity old) 1)
  (ocheck (Rleb (envelope_rate p) fs) (ocheck (Rltb (fast_cutoff p) (envelope_rate p / 2)) (ocheck (Rltb 0 (fast_cutoff p)) (ocheck (0 <? n)%nat
  (obind (lowpass (envelope_rate p) (slow_cutoff p) (1 / 2)) (fun _ =>
  let s1 := {| bparams := p; coeff := coeff s; burn_in_coeff := burn_in_coeff s; rejection_samples := rejection_samples s; channels := repeat fresh_channel n |} in
  obind (set_time_constant s1 (time_constant p)) (fun s2 =>
  obind (set_rejection_time (set_sensitivity s2 (sensitivity p)) (rejection_time p)) (fun s3 => Ok (bg_reset s3)))))))))))))).

(* background_level_detector.cc:110-153: one sample of one channel; decrementing INT_MIN overflows *)
Definition channel_sample (s : bg) (factor : R) (c : bg_channel) (fast slow : R) : outcome bg_channel :=
  let exceeds := Rltb fast (background c - 1 / 10000) in
  let '(co, cnt, burn) :=
    if burn_in c then (burn_in_coeff s, 0%Z, negb exceeds)
    else if Rltb (factor * slow) fast then (coeff s, rejection_samples s, false)
    else if exceeds then (coeff s, 0%Z, false)
    else (coeff s, counter c, false) in
  if (cnt =? 0)%Z
  then Ok {| background := background c + co * (Rmin slow fast - background c); counter := cnt; burn_in := burn |}
  else oguard (-2147483648 <? cnt)%Z (Ok {| background := background c; counter := cnt - 1; burn_in := burn |}).

(* the inner loop over the channels; a frame has one (fast, slow) pair per channel *)
Fixpoint frame_channels (s : bg) (factor : R) (cs : list bg_channel) (fr : list (R * R)) : outcome (list bg_channel) :=
  match cs, fr with
  | [], [] => Ok []
  | c :: cs', (f, sl) :: fr' => obind (channel_sample s factor c f sl) (fun c' => obind (frame_channels s factor cs' fr') (fun r => Ok (c' :: r)))
  | _, _ => Undef
  end.
(* the outer loop; the result is background_ (one list of levels per frame) *)
Fixpoint block_frames (s : bg) (factor : R) (cs : list bg_channel) (frs : list (list (R * R))) : outcome (list bg_channel * list (list R)) :=
  match frs with
  | [] => Ok (cs, [])
  | fr :: r => obind (frame_channels s factor cs fr) (fun cs1 => obind (block_frames s factor cs1 r) (fun p => Ok (fst p, map background cs1 :: snd p)))
  end.
(* background_level_detector.cc:77-160; before Init there are no channels and ProcessBlock returns
   false: None *)
Definition bg_block (s : bg) (frs : list (list (R * R))) : outcome (bg * option (list (list R))) :=
  if (length (channels s) =? 0)%nat then Ok (s, None)
  else oguard (negb (Reqb (sensitivity (bparams s)) 0))
    (let factor := 1 / sensitivity (bparams s) in
     obind (block_frames s factor (channels s) frs) (fun p =>
     Ok ({| bparams := bparams s; coeff := coeff s; burn_in_coeff := burn_in_coeff s; rejection_samples := rejection_samples s; channels := fst p |}, Some (snd p)))).

(* background_level_detector.cc:162-169; the new coefficients only affect the slow envelope, which is
   an input here *)
Definition set_slow_cutoff (s : bg) (v : R) : outcome bg :=
  let p := bparams s in
  ocheck (Rltb v (envelope_rate p / 2)) (obind (lowpass (envelope_rate p) v (1 / 2)) (fun _ =>
  Ok {| bparams := {| slow_cutoff := v; fast_cutoff := fast_cutoff p; time_constant := time_constant p; sensitivity := sensitivity p; rejection_time := rejection_time p; envelope_rate := envelope_rate p |};
        coeff := coeff s; burn_in_coeff := burn_in_coeff s; rejection_samples := rejection_samples s; channels := channels s |})).

(* the calls *)
Inductive bg_op := BgInit (p : bg_params) (n : nat) (fs : R) | BgReset | BgBlock (frs : list (list (R * R)))
  | SetSlowCutoff (v : R) | SetTimeConstant (t : R) | SetSensitivity (v : R) | SetRejectionTime (t : R).
Definition bg_step (s : bg) (o : bg_op) : outcome (bg * option (list (list R))) :=
  match o with
  | BgInit p n fs => omap (fun s' => (s', None)) (bg_init s p n fs)
  | BgReset => Ok (bg_reset s, None)
  | BgBlock frs => bg_block s frs
  | SetSlowCutoff v => omap (fun s' => (s', None)) (set_slow_cutoff s v)
  | SetTimeConstant t => omap (fun s' => (s', None)) (set_time_constant s t)
  | SetSensitivity v => Ok (set_sensitivity s v, None)
  | SetRejectionTime t => omap (fun s' => (s', None)) (set_rejection_time s t)
  end.
