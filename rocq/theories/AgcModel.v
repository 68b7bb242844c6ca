(* Model of audio/dsp/portable/auto_gain_control.{h,c}.  Floats are real
   numbers; every float operation is followed by the rounding rd, so that
   rd = identity is exact arithmetic and rd = rnd32 is binary32 arithmetic.
   exp is the exact function (its double rounding is not modelled). *)
From Coq Require Import ZArith Reals List.
From Flocq Require Import Core.
From Verif Require Import Common CInt RealUtil MfccModel FastFunModel.
Import ListNotations.
Local Open Scope R_scope.

(* auto_gain_control.h:64-71 *)
Record agc := mkAgc {
  ag_coeff : R; ag_exponent : R; ag_smoothed : R; ag_floor : R;
  ag_warm_up : Z; ag_counter : Z
}.

Section Agc.
Context (rd : R -> R).

(* auto_gain_control.c:31-34 *)
Definition agc_reset (st : agc) : agc :=
  mkAgc (ag_coeff st) (ag_exponent st) 1 (ag_floor st) (ag_warm_up st) 1.

(* auto_gain_control.c:8-29; None is the return value 0.  When the float
   product underflows to zero, -1 / 0 is -inf and exp gives 0. *)
Definition agc_init (sample_rate_hz time_constant_s agc_strength power_floor : R)
    : outcome (option agc) :=
  if negb (Rltb 0 sample_rate_hz) || negb (Rltb 0 time_constant_s)
     || negb (Rleb 0 agc_strength && Rleb agc_strength 1)
     || negb (Rltb 0 power_floor) then Ok None
  else
    obind (cast_int (rd (rd (sample_rate_hz * time_constant_s) + 1 / 2))) (fun n =>
    let p := rd (time_constant_s * sample_rate_hz) in
    let coeff := if Reqb p 0 then rd (1 - 0) else rd (1 - exp (rd (-1 / p))) in
    Ok (Some (agc_reset (mkAgc coeff (rd (- (1 / 2) * agc_strength)) 0 power_floor n 0)))).

(* auto_gain_control.c:45-57; the int division operand is exact in float as
   long as it is below 2^24, and rounded otherwise. *)
Definition agc_warm_up_process (st : agc) (power_sample : R) : agc :=
  let counter := (ag_counter st + 1)%Z in
  let smoothed := rd (ag_smoothed st + power_sample) in
  mkAgc (ag_coeff st) (ag_exponent st)
    (if (ag_warm_up st <? counter)%Z then rd (smoothed / rd (IZR counter)) else smoothed)
    (ag_floor st) (ag_warm_up st) counter.

(* auto_gain_control.h:121-140 *)
Definition agc_process (st : agc) (power_sample : R) : agc :=
  if (ag_counter st <=? ag_warm_up st)%Z then agc_warm_up_process st power_sample
  else mkAgc (ag_coeff st) (ag_exponent st)
         (rd (ag_smoothed st + rd (ag_coeff st * rd (power_sample - ag_smoothed st))))
         (ag_floor st) (ag_warm_up st) (ag_counter st).

(* auto_gain_control.c:68-70 *)
Definition agc_level (st : agc) : R :=
  if (ag_counter st <=? ag_warm_up st)%Z then rd (ag_smoothed st / rd (IZR (ag_counter st)))
  else ag_smoothed st.

(* auto_gain_control.c:59-73 *)
Definition agc_gain (st : agc) : R :=
  fast_pow (bits_of_float (rd (ag_floor st + agc_level st))) (ag_exponent st).

(* A call of AutoGainControlProcessSample per element. *)
Definition agc_run (st : agc) (power : list R) : agc := fold_left agc_process power st.
End Agc.
