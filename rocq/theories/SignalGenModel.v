(* Model of audio/dsp/signal_generator.{h,cc} over exact real numbers. *)
From Coq Require Import ZArith Reals List.
From Coquelicot Require Import Complex.
From Verif Require Import Common CInt RealUtil.
Import ListNotations.
Local Open Scope R_scope.
Local Notation C := Complex.C.

(* std::polar; a negative magnitude is undefined *)
Definition polar (rho theta : R) : outcome C := if Rltb rho 0 then Undef else Ok (rho * cos theta, rho * sin theta).
(* signal_generator.h:52-55 *)
Fixpoint sine_loop (rotator phasor : C) (n : nat) : list R :=
  match n with O => [] | S m => snd phasor :: sine_loop rotator (phasor * rotator)%C m end.
(* signal_generator.h:35-58; [cast] converts double to the type of the samples.  A negative length makes
   std::vector throw, a sample rate of zero gives values that are not numbers; both are Undef. *)
Definition generate_sine {V} (cast : R -> V) (num_samples : Z) (sample_rate frequency amplitude phase_begin : R) : outcome (list V) :=
  if Reqb sample_rate 0 then Undef else
  rotator <- polar 1 (2 * PI * frequency / sample_rate) ;;
  phasor <- polar amplitude phase_begin ;;
  if (num_samples <? 0)%Z then Undef else
  Ok (map cast (sine_loop rotator phasor (Z.to_nat num_samples))).

(* Eigen::ArrayXf::LinSpaced(n, low, high): one point is high *)
Definition lin_spaced (n : nat) (low high : R) : list R :=
  if (n =? 1)%nat then [high] else map (fun k => low + INR k * ((high - low) / (INR n - 1))) (seq 0 n).
(* signal_generator.cc:23-32 *)
Definition generate_sine_eigen (num_samples : Z) (sample_rate frequency amplitude phase_begin : R) : outcome (list R) :=
  if Reqb sample_rate 0 then Undef else
  if (num_samples <? 0)%Z then Undef else
  let w := 2 * PI * frequency / sample_rate in
  Ok (map (fun t => sin (t * w - phase_begin) * amplitude) (lin_spaced (Z.to_nat num_samples) 0 (IZR num_samples - 1))).

(* signal_generator.h:79-82: set one entry of each row *)
Fixpoint set_entries (data : list (list R)) (rows col : nat) : list (list R) :=
  match rows with O => data | S i => splice i [splice col [1] (nth i data [])] (set_entries data i col) end.
(* signal_generator.h:69-84: a list of rows *)
Definition broadside_impulse (num_channels block_size impulse_time : Z) : outcome (list (list R)) :=
  if negb (0 <? num_channels)%Z then CheckFail else
  if negb (0 <=? block_size)%Z then CheckFail else
  if negb (0 <=? impulse_time)%Z then CheckFail else
  if negb (impulse_time <? block_size)%Z then CheckFail else
  let zero := repeat (repeat 0 (Z.to_nat block_size)) (Z.to_nat num_channels) in
  Ok (set_entries zero (Z.to_nat num_channels) (Z.to_nat impulse_time)).
