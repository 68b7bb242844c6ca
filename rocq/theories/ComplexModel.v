(* Model of audio/dsp/portable/complex.{h,c} over the real numbers.  A ComplexDouble is a pair
   (real, imag).  Rounding, overflow, signed zeros and NaN are not modelled. *)
From Verif Require Import Common RealUtil.
Local Open Scope R_scope.

Definition cplx := (R * R)%type.
(* complex.h:78-118, 121-125, 139-149 *)
Definition cconj (z : cplx) : cplx := (fst z, - snd z).
Definition cneg (z : cplx) : cplx := (- fst z, - snd z).
Definition cadd (w z : cplx) : cplx := (fst w + fst z, snd w + snd z).
Definition csub (w z : cplx) : cplx := (fst w - fst z, snd w - snd z).
Definition cmul (w z : cplx) : cplx := (fst w * fst z - snd w * snd z, fst w * snd z + snd w * fst z).
Definition cmul_real (z : cplx) (x : R) : cplx := (fst z * x, snd z * x).
Definition cabs2 (z : cplx) : R := fst z * fst z + snd z * snd z.
Definition csquare (z : cplx) : cplx := (fst z * fst z - snd z * snd z, 2 * fst z * snd z).

(* atan2 of libm *)
Definition atan2 (y x : R) : R :=
  if Rltb 0 x then atan (y / x)
  else if Rltb x 0 then (if Rleb 0 y then atan (y / x) + PI else atan (y / x) - PI)
  else if Rltb 0 y then PI / 2 else if Rltb y 0 then - (PI / 2) else 0.
(* complex.h:131-133 *)
Definition carg (z : cplx) : R := atan2 (snd z) (fst z).

Section Scaled.
(* the exponent chosen by frexp; no property of it is used *)
Variable exponent : R -> Z.
(* ldexp(x, e); frexp x returns ldexp x (- exponent x) *)
Definition ldexp (x : R) (e : Z) : R := x * powerRZ 2 e.

(* complex.c:9-27; division by zero gives NaN or infinity *)
Definition cdiv (w z : cplx) : outcome cplx :=
  let e := if Rleb (Rabs (snd z)) (Rabs (fst z)) then exponent (fst z) else exponent (snd z) in
  let x := ldexp (fst z) (- e) in
  let y := ldexp (snd z) (- e) in
  let denom := x * x + y * y in
  oguard (negb (Reqb denom 0))
  (Ok (ldexp ((fst w * x + snd w * y) / denom) (- e), ldexp ((snd w * x - fst w * y) / denom) (- e))).

(* complex.c:29-45 *)
Definition cabs (z : cplx) : R :=
  let x := Rabs (fst z) in
  let y := Rabs (snd z) in
  let a := if Rltb x y then y else x in
  let b := if Rltb x y then x else y in
  let e := exponent a in
  let a' := ldexp a (- e) in
  let b' := ldexp b (- e) in
  ldexp (sqrt (a' * a' + b' * b')) e.

(* complex.c:47-86 *)
Definition csqrt (z : cplx) : cplx :=
  if Reqb (fst z) 0 then
    let q := sqrt (Rabs (snd z) / 2) in (q, if Rltb (snd z) 0 then - q else q)
  else
    let q := sqrt ((cabs z + Rabs (fst z)) / 2) in
    if Rltb 0 (fst z) then (q, snd z / (2 * q))
    else (Rabs (snd z) / (2 * q), if Rltb (snd z) 0 then - q else q).

(* complex.c:88-94 *)
Definition cexp (z : cplx) : cplx := (exp (fst z) * cos (snd z), exp (fst z) * sin (snd z)).
(* complex.c:96-101; log 0 is minus infinity *)
Definition clog (z : cplx) : outcome cplx :=
  oguard (negb (Reqb (cabs z) 0)) (Ok (ln (cabs z), carg z)).
(* complex.c:110-136 *)
Definition ccosh (z : cplx) : cplx := (cosh (fst z) * cos (snd z), sinh (fst z) * sin (snd z)).
Definition csinh (z : cplx) : cplx := (sinh (fst z) * cos (snd z), cosh (fst z) * sin (snd z)).
Definition ccos (z : cplx) : cplx := (cos (fst z) * cosh (snd z), - sin (fst z) * sinh (snd z)).
Definition csin (z : cplx) : cplx := (sin (fst z) * cosh (snd z), cos (fst z) * sinh (snd z)).
(* complex.c:4-7 *)
Definition copy_sign (x y : R) : R := if Rltb y 0 then - Rabs x else Rabs x.
(* complex.c:140-142, 160-162 and 150-152 *)
Definition log_minus (z : cplx) : outcome cplx :=
  clog (cadd z (csqrt (fst z * fst z - snd z * snd z - 1, 2 * fst z * snd z))).
Definition log_plus (z : cplx) : outcome cplx :=
  clog (cadd z (csqrt (fst z * fst z - snd z * snd z + 1, 2 * fst z * snd z))).
(* complex.c:138-170 *)
Definition cacosh (z : cplx) : outcome cplx :=
  omap (fun r => (Rabs (fst r), copy_sign (snd r) (snd z))) (log_minus z).
Definition casinh (z : cplx) : outcome cplx :=
  omap (fun r => (copy_sign (fst r) (fst z), copy_sign (snd r) (snd z))) (log_plus z).
Definition cacos (z : cplx) : outcome cplx :=
  omap (fun r => (Rabs (snd r), copy_sign (fst r) (- snd z))) (log_minus z).
Definition casin (z : cplx) : outcome cplx :=
  omap (fun w => (snd w, - fst w)) (casinh (- snd z, fst z)).
End Scaled.
