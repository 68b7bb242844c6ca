(* Model of audio/dsp/portable/butterworth.c over the real numbers.  The casts to float are not
   modelled.  The NULL test on coeffs is the caller's pointer and is taken to be non-null.
   None is the return value 0. *)
From Verif Require Import Common RealUtil BiquadModel ComplexModel.
Local Open Scope R_scope.

(* butterworth.c:10-12 *)
Definition prewarp (f fs : R) : R := 2 * fs * tan (PI * f / fs).
(* butterworth.c:15-19 *)
Definition bilinear_pole (K : R) (s : cplx) : cplx :=
  let denom := (K - fst s) * (K - fst s) + snd s * snd s in
  ((K * K - fst s * fst s - snd s * snd s) / denom, 2 * K * snd s / denom).
Definition portable_coeffs (b0 b1 b2 a1 a2 : R) : coeffs R :=
  {| b0 := b0; b1 := b1; b2 := b2; a0 := 1; a1 := a1; a2 := a2 |}.
Definition corner_pole (f fs : R) : cplx :=
  bilinear_pole (2 * fs) (- (1 / sqrt 2) * prewarp f fs, 1 / sqrt 2 * prewarp f fs).
(* butterworth.c:21-56 *)
Definition butterworth_lowpass (f fs : R) : option (coeffs R) :=
  if (Rltb 0 f && Rltb f (fs / 2))%bool then
    let p := corner_pole f fs in
    let gain := 1 / 4 * cabs2 (fst p - 1, snd p) in
    Some (portable_coeffs gain (2 * gain) gain (-2 * fst p) (cabs2 p))
  else None.
(* butterworth.c:58-93 *)
Definition butterworth_highpass (f fs : R) : option (coeffs R) :=
  if (Rltb 0 f && Rltb f (fs / 2))%bool then
    let p := corner_pole f fs in
    let gain := - (1 / 4) * (1 + 2 * fst p + cabs2 p) in
    Some (portable_coeffs (- gain) (2 * gain) (- gain) (-2 * fst p) (cabs2 p))
  else None.

Section Bandpass.
Variable ex : R -> Z.
(* butterworth.c:95-158 *)
Definition butterworth_bandpass (lo hi fs : R) : option (coeffs R * coeffs R) :=
  if (Rltb 0 lo && Rltb lo hi && Rltb hi (fs / 2))%bool then
    let w1 := prewarp lo fs in
    let w2 := prewarp hi fs in
    let bw := w2 - w1 in
    let pole := (- ((1 / 2) / sqrt 2) * bw, (1 / 2) / sqrt 2 * bw) in
    let d := csqrt ex (csub (csquare pole) (w2 * w1, 0)) in
    let s0 := cadd pole d in
    let s1 := csub pole d in
    let K := 2 * fs in
    let p0 := bilinear_pole K s0 in
    let p1 := bilinear_pole K s1 in
    let gain := bw * K * (bw * K) / cabs2 (fst s0 - K, snd s0) / cabs2 (fst s1 - K, snd s1) in
    Some (portable_coeffs gain (-2 * gain) gain (-2 * fst p0) (cabs2 p0),
          portable_coeffs 1 2 1 (-2 * fst p1) (cabs2 p1))
  else None.
End Bandpass.
