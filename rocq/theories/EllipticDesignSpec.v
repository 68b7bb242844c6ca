(* The two ripples of an elliptic filter. *)
From Coq Require Import Reals.
Local Open Scope R_scope.

(* The stopband is attenuated by at least twice (as amplitudes, k1 <= 1/2), and by not more than 2^26.5 times,
   what the passband ripple is. *)
Definition ripples_apart (passband_db stopband_db : R) : Prop :=
  0 < passband_db /\
  4 * (Rpower 10 (passband_db / 10) - 1) <= Rpower 10 (stopband_db / 10) - 1 /\
  Rpower 10 (stopband_db / 10) - 1 <= 2 ^ 53 * (Rpower 10 (passband_db / 10) - 1).
