(* Model of audio/dsp/loudness/loudness_1771_two_way_compressor.{h,cc} over the real numbers (rounding is
   not modelled).  A frame is one column of the input.  [k_coeffs fs] are the coefficients of the
   K-weighting filter for a sample rate (perceptual_filter_design.cc, see PerceptualModel.v). *)
From Verif Require Import Common RealUtil BiquadModel DesignModel FixedDelayLineModel EnvelopeModel DecibelsModel DrcCurveModel LoudnessModel.
From Verif Require DrcModel.
Local Open Scope R_scope.

(* loudness_1771_two_way_compressor.h:72-131 *)
Record lc_params := {
  lc_in_db : R; lc_out_db : R; lc_weights : list R; lc_averaging : coeffs R; lc_curve : two_way;
  lc_attack : R; lc_release : R; lc_lookahead : R }.
(* loudness_1771_two_way_compressor.h:219-233.  [lc_dims]: number of channels and largest block, None while
   these members are uninitialised (sample_rate_hz_ is used only by Init); [lc_env]: None is the null
   pointer; its flag tells whether envelope_ has become NaN.  The workspaces hold no state. *)
Record lcomp := {
  lc_par : lc_params; lc_dims : option (nat * nat); lc_meter : meter R;
  lc_env : option (envelope * bool); lc_delay : dline (list R) }.
Definition lc_new (p : lc_params) : lcomp :=
  {| lc_par := p; lc_dims := None; lc_meter := meter_new 0; lc_env := None;
     lc_delay := {| delay_samples := 0; last_frame := 0; last_request := 0; buffer := [] |} |}.

Section Compressor.
Variable junk : nat -> list R.      (* content of uninitialised memory in the delay line *)
Variable k_coeffs : R -> list (coeffs R).

(* loudness_1771_two_way_compressor.cc:27-57 *)
Definition lc_verify (p : lc_params) (num_channels max_block : Z) (fs : R) : bool :=
  negb (Rleb (lc_attack p) 0) && negb (Rleb (lc_release p) 0) && negb (num_channels <=? 0)%Z &&
  negb (max_block <=? 0)%Z && negb (Rleb fs 0).

(* loudness_1771_two_way_compressor.cc:61-88; 200 Hz is the envelope's default interpolation rate *)
Definition lc_init (s : lcomp) (p : lc_params) (num_channels max_block : Z) (fs : R) : outcome (lcomp * bool) :=
  if negb (lc_verify p num_channels max_block fs) then
    Ok ({| lc_par := p; lc_dims := lc_dims s; lc_meter := lc_meter s; lc_env := lc_env s; lc_delay := lc_delay s |}, false)
  else
    let n := Z.to_nat num_channels in let m := Z.to_nat max_block in
    obind (meter_init 0 1 Rmult Rdiv (fun v => Reqb v 0) (lc_meter s) (lc_weights p) (lc_averaging p) num_channels (k_coeffs fs)) (fun r =>
    if negb (snd r) then
      Ok ({| lc_par := p; lc_dims := Some (n, m); lc_meter := fst r; lc_env := lc_env s; lc_delay := lc_delay s |}, false)
    else
      obind (env_make (lc_attack p) (lc_release p) 200 fs) (fun e =>
      obind (dl_init (repeat 0 n) junk (DrcModel.std_round (lc_lookahead p * fs)) m) (fun d =>
      Ok ({| lc_par := p; lc_dims := Some (n, m); lc_meter := fst r; lc_env := Some (e, false); lc_delay := d |}, true)))).

(* loudness_1771_two_way_compressor.cc:90-93 *)
Definition lc_reset (s : lcomp) : outcome lcomp :=
  obind (meter_reset 0 (lc_meter s)) (fun m =>
  match lc_env s with
  | None => Undef
  | Some (e, _) => obind (env_reset e) (fun e' =>
      Ok {| lc_par := lc_par s; lc_dims := lc_dims s; lc_meter := m; lc_env := Some (e', false); lc_delay := lc_delay s |})
  end).

(* decibels.h:77-82 on the result of the meter: exp of minus infinity is 0, of NaN is NaN (None) *)
Definition power_of (l : level) : option R :=
  match l with Level x => Some (exp (ln 10 / 10 * x)) | MinusInfinity => Some 0 | NotANumber => None end.
(* loudness_1771_two_way_compressor.cc:99-103, one sample.  A NaN makes envelope_ NaN for good (both the
   comparison and the sum in attack_release_envelope.cc:66-68), and std::max(1e-12f, NaN) is 1e-12f.  The
   argument 0 below only advances the coefficient smoothers. *)
Definition lc_detect (st : envelope * bool) (l : level) : outcome ((envelope * bool) * R) :=
  match power_of l, snd st with
  | Some p, false => obind (env_output (fst st) p) (fun r => Ok ((fst r, false), Rmax (1 / 10 ^ 12) (snd r)))
  | _, _ => obind (env_output (fst st) 0) (fun r => Ok ((fst r, true), 1 / 10 ^ 12))
  end.
(* loudness_1771_two_way_compressor.cc:105-124, one sample; the DCHECK on finiteness holds for real numbers *)
Definition lc_gain (p : lc_params) (power : R) : outcome R :=
  obind (on_positive power (10 / ln 10 * ln power)) (fun level =>
  obind (two_way_compressor (lc_curve p) (level + lc_in_db p)) (fun o =>
  Ok (exp (ln 10 / 20 * (o - level + lc_out_db p))))).

(* loudness_1771_two_way_compressor.h:179-189: [channels] = input.rows() *)
Definition lc_compute (channels : nat) (s : lcomp) (frames : list (list R)) : outcome (lcomp * list R) :=
  match lc_dims s with
  | None => Undef
  | Some (_, m) =>
    obind (meter_block 0 Rplus Rminus Rmult rsum loudness_db channels (lc_meter s) frames) (fun r =>
    match lc_env s with
    | None => Undef
    | Some e =>
      obind (run lc_detect e (snd r)) (fun q =>
      oguard (length frames <=? m)%nat
      (ocheck (verify_params (lc_curve (lc_par s)))
      (obind (map_outcome (lc_gain (lc_par s)) (snd q)) (fun gains =>
       Ok ({| lc_par := lc_par s; lc_dims := lc_dims s; lc_meter := fst r; lc_env := Some (fst q); lc_delay := lc_delay s |}, gains)))))
    end)
  end.

(* loudness_1771_two_way_compressor.h:151-173 and 198-212; the output has the shape of the input *)
Definition lc_process (channels : nat) (s : lcomp) (frames : list (list R)) : outcome (lcomp * list (list R)) :=
  match lc_dims s with
  | None => Undef
  | Some (n, m) =>
    ocheck (1 <=? length frames)%nat (ocheck (length frames <=? m)%nat (ocheck (channels =? n)%nat
    (obind (lc_compute channels s frames) (fun r =>
     obind (dl_process junk (lc_delay (fst r)) frames) (fun q =>
     Ok ({| lc_par := lc_par (fst r); lc_dims := lc_dims (fst r); lc_meter := lc_meter (fst r); lc_env := lc_env (fst r); lc_delay := fst q |},
         map (fun cg => map (fun x => x * snd cg) (fst cg)) (combine (snd q) (snd r))))))))
  end.
End Compressor.
