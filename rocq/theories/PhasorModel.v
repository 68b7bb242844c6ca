(* Model of audio/dsp/portable/phasor_rotator.{h,c} in exact arithmetic: floats
   are real numbers. *)
From Verif Require Import Common RealUtil.
From Coq Require Import Rtrigo1.
Local Open Scope R_scope.

(* phasor_rotator.h:38-42 *)
Record phasor := mkPhasor { ph_rot : R * R; ph_ph : R * R; ph_count : Z }.

(* phasor_rotator.c:7-15; division by a zero sample rate is undefined here. *)
Definition phasor_init (frequency_hz sample_rate_hz : R) : outcome phasor :=
  oguard (negb (Reqb sample_rate_hz 0))
    (let radians_per_sample := 2 * PI * frequency_hz / sample_rate_hz in
     Ok (mkPhasor (cos radians_per_sample, sin radians_per_sample) (1, 0) 0)).

(* phasor_rotator.c:17-27; a zero phasor divides by zero. *)
Definition phasor_renormalize (o : phasor) : outcome phasor :=
  let '(p0, p1) := ph_ph o in
  let s := sqrt (p0 * p0 + p1 * p1) in
  oguard (negb (Reqb s 0))
    (let normalization := 1 / s in
     Ok (mkPhasor (ph_rot o) (p0 * normalization, p1 * normalization) 0)).

(* phasor_rotator.h:66-84 *)
Definition phasor_next (o : phasor) : outcome phasor :=
  let '(r0, r1) := ph_rot o in
  let '(p0, p1) := ph_ph o in
  let o' := mkPhasor (ph_rot o) (r0 * p0 - r1 * p1, r1 * p0 + r0 * p1) (ph_count o + 1) in
  if (1000 <=? ph_count o')%Z then phasor_renormalize o' else Ok o'.

(* phasor_rotator.h:49-56 *)
Definition phasor_cos (o : phasor) : R := fst (ph_ph o).
Definition phasor_sin (o : phasor) : R := snd (ph_ph o).

(* n calls of PhasorRotatorNext. *)
Fixpoint phasor_steps (n : nat) (o : phasor) : outcome phasor :=
  match n with
  | O => Ok o
  | S m => obind (phasor_steps m o) phasor_next
  end.
