(* Model of audio/linear_filters/filterbanks/auditory_cascade_filterbank.{h,cc},
   over the real numbers; float and double rounding is not modelled.  A frame
   holds one sample per microphone. *)
From Verif Require Import Common CInt RealUtil BiquadModel FirModel CascadeModel DesignModel PeakModel.
From Coquelicot Require Import Complex.
Local Open Scope R_scope.

(* auditory_cascade_filterbank_params.proto:21-66 *)
Record params := {
  highest_pole_frequency : R;
  max_pole_nyquist_fraction : R;
  step_erbs : R;
  max_samples_per_cycle : R;
  min_sample_rate : R;
  pole_zeta : R;
  min_pole_frequency : R;
  use_all_channels : bool;
  first_channel : Z;
  skip_every_n : Z;
  max_channels : Z }.

(* auditory_cascade_filterbank.h:115-164.  bandwidth_hz_, peak_frequencies_,
   sample_rates_, exposed_filter_indices_, biquad_coefficients_, filters_,
   diff_filters_, decimators_ (skip_next_sample_ of each).  filtered_output_ is
   the result of process_block below. *)
Record filterbank := {
  fb_params : params;
  fb_allow : bool;
  fb_mics : nat;
  fb_coeffs : list (coeffs R);
  fb_rates : list R;
  fb_peaks : list R;
  fb_bandwidths : list R;
  fb_filters : list (biquad R);
  fb_diffs : list (two_tap (V := list R) (G := R));
  fb_decimators : list bool;
  fb_exposed : list nat }.

(* auditory_cascade_filterbank.h:44-50; biquad_coefficients_ is one identity stage
   (biquad_filter_coefficients.h:155-161) *)
Definition construct (p : params) (allow : bool) : filterbank :=
  {| fb_params := p; fb_allow := allow; fb_mics := 0; fb_coeffs := [identity_coeffs]; fb_rates := [];
     fb_peaks := []; fb_bandwidths := []; fb_filters := []; fb_diffs := []; fb_decimators := []; fb_exposed := [] |}.

(* auditory_cascade_filterbank.cc:34-38 *)
Definition laplace (natural_frequency zeta : R) : poly :=
  let omega := 2 * PI * natural_frequency in (1 / (omega * omega), 2 * zeta / omega, 1).
(* auditory_cascade_filterbank.cc:42-55 *)
Definition resonator (p : params) (rate pole : R) : outcome (coeffs R) :=
  let zero_zeta := pole_zeta p / sqrt 2 in
  let zero_frequency := pole * sqrt 2 in
  bilinear_transform (laplace zero_frequency zero_zeta) (laplace pole (pole_zeta p)) rate pole.

(* auditory_cascade_filterbank.cc:57-77 and 205 *)
Definition check_parameters {A} (p : params) (allow : bool) (rate : R) (k : outcome A) : outcome A :=
  ocheck (Rltb 0 rate)
  (ocheck (Rltb 0 (highest_pole_frequency p))
  (ocheck (Rleb 0 (max_pole_nyquist_fraction p))
  (ocheck (Rleb (max_pole_nyquist_fraction p) 1)
  (ocheck (Rltb 0 (step_erbs p))
  (ocheck (Rltb (step_erbs p) 2)
  (ocheck (Rltb 0 (pole_zeta p))
  (ocheck (Rltb (pole_zeta p) (1 / 2))
  (ocheck (Rltb 0 (min_pole_frequency p))
  (ocheck (use_all_channels p || (0 <=? first_channel p)%Z)
  (ocheck (use_all_channels p || (0 <? skip_every_n p)%Z)
  (ocheck (use_all_channels p || (0 <? max_channels p)%Z)
  (ocheck (negb allow || Rltb 6 (max_samples_per_cycle p))
  (ocheck (negb allow || Rltb 0 (min_sample_rate p)) k))))))))))))).

(* auditory_cascade_filterbank.cc:92-96; num counts down from max_channels.  Adding
   beyond INT_MAX is undefined.  The number of rounds is bounded by the number of
   stages. *)
Fixpoint select (fuel : nat) (i stages skip left : Z) : outcome (list nat) :=
  match fuel with
  | O => Ok []
  | S fuel' =>
      if ((i <? stages) && (0 <? left))%Z then
        oguard (i + skip <=? INT_MAX)%Z
        (r <- select fuel' (i + skip)%Z stages skip (left - 1)%Z ;; Ok (Z.to_nat i :: r))
      else Ok []
  end.
(* auditory_cascade_filterbank.cc:79-107 *)
Definition handle_channel_selection (p : params) (stages : nat) : outcome (list nat) :=
  if use_all_channels p then Ok (seq 0 stages)
  else
    r <- select (S stages) (first_channel p) (Z.of_nat stages) (skip_every_n p) (max_channels p) ;;
    ocheck (negb (length r =? 0)%nat) (Ok r).

(* auditory_cascade_filterbank.cc:116-117, the float literals as exact decimals *)
Definition break_frequency_hz : R := 1000 / (437 / 100).
Definition ear_quality_factor : R := break_frequency_hz / (247 / 10).
Definition auditory_bandwidth_hz (f : R) : R := (break_frequency_hz + f) / ear_quality_factor.
(* auditory_cascade_filterbank.cc:123-129; the loop runs at most `fuel` times, and
   running out of fuel is Undef (poles_ok in AuditoryProofs3.v: it does not happen) *)
Fixpoint pole_loop (p : params) (fuel : nat) (f : R) : outcome (list R) :=
  if Rltb (min_pole_frequency p) f then
    match fuel with
    | O => Undef
    | S fuel' =>
        r <- pole_loop p fuel' (f - step_erbs p * auditory_bandwidth_hz f) ;; Ok (f :: r)
    end
  else Ok [].
(* auditory_cascade_filterbank.cc:119-121 *)
Definition highest_frequency (p : params) (rate : R) : R :=
  Rmin (highest_pole_frequency p) (max_pole_nyquist_fraction p * rate / 2).
Definition pole_frequencies (p : params) (rate : R) : outcome (list R) :=
  let f := highest_frequency p rate in
  pole_loop p (Z.to_nat (up (f / (step_erbs p * (247 / 10))))) f.

(* auditory_cascade_filterbank.cc:246-250; sample_rates_[j] must exist *)
Fixpoint response_at (cs : list (coeffs R)) (rates : list R) (f : R) (acc : C) : outcome C :=
  match cs, rates with
  | [], _ => Ok acc
  | _ :: _, [] => Undef
  | c :: cs', r :: rates' =>
      h <- eval_transfer c (unit_polar (2 * PI * f / r)) ;; response_at cs' rates' f (acc * h)%C
  end.
(* auditory_cascade_filterbank.cc:244-255 *)
Definition gain_magnitude_hz (cs : list (coeffs R)) (rates : list R) (f : R) : outcome R :=
  h <- response_at cs rates f (RtoC 1) ;;
  Ok (Cmod h * Cmod (RtoC 1 - unit_polar (2 * PI * (f / last rates 0)))%C).

(* what DesignFilterbankStage appends to *)
Record design := {
  d_coeffs : list (coeffs R); d_rates : list R; d_peaks : list R;
  d_filters : list (biquad R); d_diffs : list (two_tap (V := list R) (G := R)); d_decimators : list bool }.

(* biquad_coefficients_[size() - 1].AdjustGain *)
Fixpoint adjust_last (g : R) (cs : list (coeffs R)) : list (coeffs R) :=
  match cs with
  | [] => []
  | [c] => [adjust_stage g c]
  | c :: r => c :: adjust_last g r
  end.

(* auditory_cascade_filterbank.cc:258-262 *)
Definition decimate_first (p : params) (allow : bool) (stage : nat) (rate pole : R) : bool :=
  (0 <? stage)%nat && Rltb (max_samples_per_cycle p) (rate / pole) &&
  Rleb (2 * min_sample_rate p) rate && allow.
(* auditory_cascade_filterbank.cc:240-292; n is num_mics_ *)
Definition design_stage (p : params) (allow : bool) (n stage : nat) (rate pole : R) (d : design)
    : outcome (design * R) :=
  let dec := decimate_first p allow stage rate pole in
  let rate := if dec then rate / 2 else rate in
  let rates := d_rates d ++ [rate] in
  c <- resonator p rate pole ;;
  cs <- append_biquad tolerance (d_coeffs d) c ;;
  '(peak, gain) <- find_peak_by_bisection (gain_magnitude_hz cs rates) 0 (rate / 2) ;;
  oguard (negb (Reqb gain 0))
  (let cs := adjust_last (1 / gain) cs in
   f <- biquad_init 0 1 Rmult Rdiv (fun x => Reqb x 0) n (last cs identity_coeffs) ;;
   Ok ({| d_coeffs := cs; d_rates := rates; d_peaks := d_peaks d ++ [peak];
          d_filters := d_filters d ++ [f];
          d_diffs := d_diffs d ++ [tt_init (repeat 0 n) (-1, 1)];
          d_decimators := if dec then d_decimators d ++ [false] else d_decimators d |}, rate)).
(* auditory_cascade_filterbank.cc:225-233 *)
Fixpoint design_stages (p : params) (allow : bool) (n stage : nat) (rate : R) (poles : list R) (d : design)
    : outcome design :=
  match poles with
  | [] => Ok d
  | pole :: r =>
      '(d', rate') <- design_stage p allow n stage rate pole d ;;
      design_stages p allow n (S stage) rate' r d'
  end.

(* auditory_cascade_filterbank.cc:134-143 and 204-238: everything is cleared except
   biquad_coefficients_ *)
Definition init (fb : filterbank) (n : nat) (rate : R) : outcome filterbank :=
  let p := fb_params fb in
  oguard (0 <? n)%nat
  (check_parameters p (fb_allow fb) rate
  (poles <- pole_frequencies p rate ;;
   d <- design_stages p (fb_allow fb) n 0 rate poles
     {| d_coeffs := fb_coeffs fb; d_rates := []; d_peaks := []; d_filters := []; d_diffs := []; d_decimators := [] |} ;;
   exposed <- handle_channel_selection p (length poles) ;;
   Ok {| fb_params := p; fb_allow := fb_allow fb; fb_mics := n; fb_coeffs := d_coeffs d; fb_rates := d_rates d;
         fb_peaks := d_peaks d; fb_bandwidths := map auditory_bandwidth_hz poles; fb_filters := d_filters d;
         fb_diffs := d_diffs d; fb_decimators := d_decimators d; fb_exposed := exposed |})).

(* elementwise operations on frames *)
Definition vadd (x y : list R) : list R := map (fun q => fst q + snd q) (combine x y).
Definition vscale (g : R) (x : list R) : list R := map (Rmult g) x.
Notation frames := (list (list R)).
Notation rblock := (biquad_block Rplus Rminus Rmult).

(* auditory_cascade_filterbank.cc:168-185, the stages from 1 on *)
Fixpoint later_stages (prev_rate : R) (fs : list (biquad R)) (rates : list R) (decs : list bool) (x : frames)
    : outcome (list (biquad R) * list bool * list frames) :=
  match fs, rates with
  | [], _ => Ok ([], decs, [])
  | _ :: _, [] => Undef
  | f :: fs', r :: rates' =>
      if Reqb r prev_rate then
        '(f1, y) <- rblock f x ;;
        '(fs1, decs1, ys) <- later_stages r fs' rates' decs y ;;
        Ok (f1 :: fs1, decs1, y :: ys)
      else match decs with
      | [] => Undef
      | d :: decs' =>
          '(d1, x1) <- decimate d x ;;
          '(f1, y) <- rblock f x1 ;;
          '(fs1, decs1, ys) <- later_stages r fs' rates' decs' y ;;
          Ok (f1 :: fs1, d1 :: decs1, y :: ys)
      end
  end.
(* auditory_cascade_filterbank.cc:186-189, in place *)
Fixpoint differences (ds : list (two_tap (V := list R) (G := R))) (ys : list frames)
    : outcome (list (two_tap (V := list R) (G := R)) * list frames) :=
  match ys, ds with
  | [], _ => Ok (ds, [])
  | _ :: _, [] => Undef
  | y :: ys', d :: ds' =>
      let '(d1, o) := tt_process vadd vscale d y in
      '(ds1, os) <- differences ds' ys' ;; Ok (d1 :: ds1, o :: os)
  end.
(* auditory_cascade_filterbank.cc:161-190; the result is filtered_output_.  filters_[0]
   must exist. *)
Definition process_block (fb : filterbank) (x : frames) : outcome (filterbank * list frames) :=
  match fb_filters fb, fb_rates fb with
  | f :: fs, r :: rates =>
      '(f1, y) <- rblock f x ;;
      '(fs1, decs, ys) <- later_stages r fs rates (fb_decimators fb) y ;;
      '(ds, outs) <- differences (fb_diffs fb) (y :: ys) ;;
      Ok ({| fb_params := fb_params fb; fb_allow := fb_allow fb; fb_mics := fb_mics fb; fb_coeffs := fb_coeffs fb;
             fb_rates := fb_rates fb; fb_peaks := fb_peaks fb; fb_bandwidths := fb_bandwidths fb;
             fb_filters := f1 :: fs1; fb_diffs := ds; fb_decimators := decs; fb_exposed := fb_exposed fb |}, outs)
  | _, _ => Undef
  end.
(* auditory_cascade_filterbank.h:69-75, after process_block gave outs *)
Definition filtered_output (fb : filterbank) (outs : list frames) (channel : nat) : outcome frames :=
  match nth_error (fb_exposed fb) channel with
  | None => Undef
  | Some i => match nth_error outs i with None => Undef | Some y => Ok y end
  end.
(* auditory_cascade_filterbank.h:82-113 *)
Definition filterbank_size (fb : filterbank) : nat := length (fb_exposed fb).
Definition channel_value (fb : filterbank) (values : list R) (channel : nat) : outcome R :=
  match nth_error (fb_exposed fb) channel with
  | None => Undef
  | Some i => match nth_error values i with None => Undef | Some v => Ok v end
  end.
Definition sample_rate_of fb channel := channel_value fb (fb_rates fb) channel.
Definition peak_frequency_hz fb channel := channel_value fb (fb_peaks fb) channel.
Definition bandwidth_hz fb channel := channel_value fb (fb_bandwidths fb) channel.

(* auditory_cascade_filterbank.cc:145-155 *)
Definition reset (fb : filterbank) : outcome filterbank :=
  fs <- cascade_reset 0 (fb_filters fb) ;;
  Ok {| fb_params := fb_params fb; fb_allow := fb_allow fb; fb_mics := fb_mics fb; fb_coeffs := fb_coeffs fb;
        fb_rates := fb_rates fb; fb_peaks := fb_peaks fb; fb_bandwidths := fb_bandwidths fb;
        fb_filters := fs;
        fb_diffs := map (fun d => {| gain_prev := gain_prev d; gain_now := gain_now d; tstate := repeat 0 (fb_mics fb) |}) (fb_diffs fb);
        fb_decimators := map (fun _ => false) (fb_decimators fb); fb_exposed := fb_exposed fb |}.
