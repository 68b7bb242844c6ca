(* Model of audio/dsp/attack_release_envelope.{h,cc} over the real numbers (rounding, overflow
   and NaN are not modelled). *)
From Verif Require Import Common RealUtil BiquadModel DesignModel.
Local Open Scope R_scope.

(* discretization.h:58-61 as IEEE division evaluates it when the time constant is zero: -1/0 is
   minus infinity, whose exponential is 0.  A negative zero is not modelled. *)
Definition coefficient_of (time_constant fs : R) : R :=
  if Reqb (time_constant * fs) 0 then 1 else first_order_coefficient time_constant fs.

(* attack_release_envelope.h:78-86; the smoothers are biquads with one channel *)
Record envelope := {
  env : R; attack : R; release : R; sample_rate : R;
  attack_smoother : biquad R; release_smoother : biquad R }.

(* attack_release_envelope.h:69-73 *)
Definition env_reset (e : envelope) : outcome envelope :=
  obind (set_steady_state 1 Rplus Rdiv (attack_smoother e) [attack e]) (fun sa =>
  obind (set_steady_state 1 Rplus Rdiv (release_smoother e) [release e]) (fun sr =>
  Ok {| env := 0; attack := attack e; release := release e; sample_rate := sample_rate e;
        attack_smoother := sa; release_smoother := sr |})).

(* attack_release_envelope.cc:30-47; 0.49 is the value of kOverdamped before its rounding to
   float *)
Definition env_make (attack_s release_s interpolation_rate fs : R) : outcome envelope :=
  obind (lowpass fs interpolation_rate (49 / 100)) (fun c =>
  obind (biquad_init 0 1 Rmult Rdiv (fun x => Reqb x 0) 1 c) (fun sa =>
  obind (biquad_init 0 1 Rmult Rdiv (fun x => Reqb x 0) 1 c) (fun sr =>
  env_reset {| env := 0; attack := coefficient_of attack_s fs; release := coefficient_of release_s fs;
               sample_rate := fs; attack_smoother := sa; release_smoother := sr |}))).

(* attack_release_envelope.cc:49-51 and 53-55 *)
Definition set_attack (e : envelope) (s : R) : envelope :=
  {| env := env e; attack := coefficient_of s (sample_rate e); release := release e; sample_rate := sample_rate e;
     attack_smoother := attack_smoother e; release_smoother := release_smoother e |}.
Definition set_release (e : envelope) (s : R) : envelope :=
  {| env := env e; attack := attack e; release := coefficient_of s (sample_rate e); sample_rate := sample_rate e;
     attack_smoother := attack_smoother e; release_smoother := release_smoother e |}.

(* attack_release_envelope.cc:57-71 *)
Definition env_output (e : envelope) (x : R) : outcome (envelope * R) :=
  let rectified := Rabs x in
  obind (biquad_sample Rplus Rminus Rmult (attack_smoother e) [attack e]) (fun pa =>
  obind (biquad_sample Rplus Rminus Rmult (release_smoother e) [release e]) (fun pr =>
  let coefficient := if Rltb (env e) rectified then nth 0 (snd pa) 0 else nth 0 (snd pr) 0 in
  let y := env e + coefficient * (rectified - env e) in
  Ok ({| env := y; attack := attack e; release := release e; sample_rate := sample_rate e;
         attack_smoother := fst pa; release_smoother := fst pr |}, y))).

(* the calls a client can make; only Input returns a sample *)
Inductive env_op := SetAttack (s : R) | SetRelease (s : R) | EnvReset | Input (x : R).
Definition env_step (e : envelope) (o : env_op) : outcome (envelope * option R) :=
  match o with
  | SetAttack s => Ok (set_attack e s, None)
  | SetRelease s => Ok (set_release e s, None)
  | EnvReset => obind (env_reset e) (fun e' => Ok (e', None))
  | Input x => obind (env_output e x) (fun p => Ok (fst p, Some (snd p)))
  end.
