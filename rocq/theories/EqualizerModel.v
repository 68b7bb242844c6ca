(* Model of audio/linear_filters/parametric_equalizer.{h,cc} and equalizer_filter_params.h over the
   real numbers, on top of the models of the filter designs and of AppendBiquad.  ToString is
   not modelled; the least squares solution and FitParametricEqualizer are in EqualizerFitModel.v. *)
From Verif Require Import Common RealUtil BiquadModel DesignModel CascadeModel.
Local Open Scope R_scope.

(* equalizer_filter_params.h:29-36 and 81-100 *)
Inductive stage_type := Lowpass | LowShelf | Peak | HighShelf | Highpass.
Record stage := { type : stage_type; frequency_hz : R; quality_factor : R; stage_gain_db : R }.
(* parametric_equalizer.h:92-96: all_stages_ and stages_enabled_ always have the same length, so a
   list of pairs (stage, enabled) *)
Record equalizer := { gain_db : R; stages : list (stage * bool) }.

(* parametric_equalizer.cc:155-157 *)
Definition db_to_linear (g : R) : R := Rpower 10 (g / 20).

(* parametric_equalizer.cc:163-189 *)
Definition design_stage (fs : R) (s : stage) : outcome (coeffs R) :=
  match type s with
  | Lowpass => lowpass fs (frequency_hz s) (quality_factor s)
  | LowShelf => low_shelf fs (frequency_hz s) (quality_factor s) (db_to_linear (stage_gain_db s))
  | Peak => peak_symmetric fs (frequency_hz s) (quality_factor s) (db_to_linear (stage_gain_db s))
  | HighShelf => high_shelf fs (frequency_hz s) (quality_factor s) (db_to_linear (stage_gain_db s))
  | Highpass => highpass fs (frequency_hz s) (quality_factor s)
  end.
(* parametric_equalizer.cc:160-193 *)
Fixpoint append_stages (fs : R) (cs : list (coeffs R)) (l : list (stage * bool)) : outcome (list (coeffs R)) :=
  match l with
  | [] => Ok cs
  | (s, enabled) :: r =>
      obind (if enabled then design_stage fs s else Ok identity_coeffs) (fun c =>
      obind (append_biquad tolerance cs c) (fun cs' => append_stages fs cs' r))
  end.
(* parametric_equalizer.cc:151-197; the cascade starts as one identity stage
   (biquad_filter_coefficients.h:158-159) *)
Definition get_coefficients (e : equalizer) (fs : R) : outcome (list (coeffs R)) :=
  ocheck (Rltb 0 fs)
  (obind (append_stages fs [identity_coeffs] (stages e)) (fun cs => Ok (adjust_gain (db_to_linear (gain_db e)) cs))).

(* parametric_equalizer.cc:221-231 *)
Definition add_stage (e : equalizer) (s : stage) : equalizer := {| gain_db := gain_db e; stages := stages e ++ [(s, true)] |}.
(* parametric_equalizer.cc:200 *)
Definition set_gain_db (e : equalizer) (g : R) : equalizer := {| gain_db := g; stages := stages e |}.
(* parametric_equalizer.cc:206-209 *)
Definition set_stage_enabled (e : equalizer) (i : nat) (b : bool) : outcome equalizer :=
  match nth_error (stages e) i with
  | Some (s, _) => Ok {| gain_db := gain_db e; stages := splice i [(s, b)] (stages e) |}
  | None => CheckFail
  end.
Definition with_gain (s : stage) (g : R) : stage :=
  {| type := type s; frequency_hz := frequency_hz s; quality_factor := quality_factor s; stage_gain_db := g |}.
(* parametric_equalizer.cc:233-242 *)
Definition clear_all_gains (e : equalizer) : equalizer :=
  {| gain_db := 0;
     stages := map (fun p => (with_gain (fst p) 0, match type (fst p) with Lowpass | Highpass => false | _ => snd p end)) (stages e) |}.
(* parametric_equalizer.cc:244-253 *)
Definition num_enabled (e : equalizer) : nat := length (filter snd (stages e)).
Definition num_stages (e : equalizer) : nat := length (stages e).

(* parametric_equalizer.cc:41-61 *)
Definition set_gains (e : equalizer) (gains : list R) : outcome equalizer :=
  ocheck (length gains =? num_stages e + 1)%nat
  (Ok {| gain_db := last gains 0; stages := map (fun p => (with_gain (fst (fst p)) (snd p), snd (fst p))) (combine (stages e) gains) |}).

(* parametric_equalizer.cc:300-343: the solution of the least squares problem (an array of the same
   size as the previous gains) is an oracle [solve]; [max_iterations] bounds the loop, [stop] is the
   convergence test.  coeffs[k] is read for every k below the number of enabled stages. *)
Fixpoint fit_loop (solve : list (coeffs R) -> list R -> list R) (stop : list R -> list R -> bool)
    (iterations : nat) (fs : R) (gains : list R) (e : equalizer) : outcome equalizer :=
  match iterations with
  | O => Ok e
  | S it =>
      let e1 := set_gain_db e 0 in
      obind (get_coefficients e1 fs) (fun cs =>
      oguard (length gains - 1 <=? length cs)%nat
      (let g := solve cs gains in
       oguard (length g =? length gains)%nat
       (obind (set_gains e1 g) (fun e2 => if stop g gains then Ok e2 else fit_loop solve stop it fs g e2))))
  end.
(* parametric_equalizer.cc:270-344; n_points and n_targets are the sizes of the two spans *)
Definition fit_gains (solve : list (coeffs R) -> list R -> list R) (stop : list R -> list R -> bool)
    (n_points n_targets iterations : nat) (fs : R) (e : equalizer) : outcome equalizer :=
  ocheck (n_points =? n_targets)%nat
  (let gains := repeat 6 (1 + num_enabled e) in
   obind (set_gains e gains) (fit_loop solve stop iterations fs gains)).
