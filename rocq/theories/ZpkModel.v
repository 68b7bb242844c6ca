(* Model of audio/dsp/portable/iir_design.{h,c}: the Zpk utilities and the Butterworth and
   Chebyshev designs.  The elliptic designs (iir_design.c:788-968) are in EllipticDesignModel.v.
   Numbers are real numbers: rounding (also the conversion of the results to float), overflow,
   NaN and signed zeros are not modelled, and an operation that would give NaN or an infinity is
   the outcome Undef.  Error messages are not modelled. *)
From Verif Require Import Common RealUtil BiquadModel ComplexModel.
Local Open Scope R_scope.

(* iir_design.h:101, 110-116: the first num_zeros elements of zeros and the first num_poles
   elements of poles, and the gain.  Elements past the counts are never to be read. *)
Definition max_degree : nat := 30.
Record zpk : Type := { z_zeros : list cplx; z_poles : list cplx; z_gain : R }.
(* iir_design.c:31-35 *)
Definition zpk_init : zpk := {| z_zeros := []; z_poles := []; z_gain := 1 |}.

(* iir_design.c:17-21 *)
Definition warp_root (K : R) (s : cplx) : outcome cplx :=
  let denom := (K - fst s) * (K - fst s) + snd s * snd s in
  oguard (negb (Reqb denom 0))
  (Ok ((K * K - fst s * fst s - snd s * snd s) / denom, 2 * K * snd s / denom)).
(* iir_design.c:27-29; only called with a frequency below half the sample rate *)
Definition prewarp (f fs : R) : R := 2 * fs * tan (PI * f / fs).

(* for (i = 0; i < n; ++i) { x[i] = f(x[i]); } *)
Fixpoint map_outcome {A B} (f : A -> outcome B) (l : list A) : outcome (list B) :=
  match l with
  | [] => Ok []
  | x :: l' => obind (f x) (fun y => obind (map_outcome f l') (fun l'' => Ok (y :: l'')))
  end.
(* pow(x, n) with an integer n *)
Definition int_power (x : R) (n : Z) : outcome R :=
  oguard ((0 <=? n)%Z || negb (Reqb x 0)) (Ok (powerRZ x n)).

Section Zpk.
(* the exponents chosen by frexp inside the complex functions *)
Variable exponent : R -> Z.
(* qsort with the comparator order_complex below *)
Variable qsort : list cplx -> list cplx.

(* iir_design.c:37-53 *)
Definition zpk_eval (f : zpk) (s : cplx) : outcome cplx :=
  let numerator := fold_left (fun acc r => cmul acc (csub s r)) (z_zeros f) (z_gain f, 0) in
  let denom := fold_left (fun acc r => cmul acc (csub s r)) (z_poles f) (1, 0) in
  cdiv exponent numerator denom.

(* pads a list of roots with the value x up to the length n *)
Definition pad (n : nat) (x : cplx) (l : list cplx) : list cplx := l ++ repeat x (n - length l).

(* iir_design.c:55-105 *)
Definition zpk_bilinear (f : zpk) (fs : R) : outcome (bool * zpk) :=
  if negb (Rltb 0 fs) then Ok (false, f) else
  let K := 2 * fs in
  obind (zpk_eval f (K, 0)) (fun h =>
  obind (map_outcome (warp_root K) (z_zeros f)) (fun zs =>
  obind (map_outcome (warp_root K) (z_poles f)) (fun ps =>
  let max_num := Nat.max (length ps) (length zs) in
  Ok (true, {| z_zeros := pad max_num (-1, 0) zs; z_poles := pad max_num (-1, 0) ps; z_gain := fst h |})))).

(* iir_design.c:132-140 and 143-151: the roots that take the place of root number i, at the
   positions 2 i and 2 i + 1.  The loop runs downwards, so that no root is overwritten before it
   is used. *)
Definition shift_root (center_sq : R) (root : cplx) : list cplx :=
  let temp := csqrt exponent (fst root * fst root - snd root * snd root - center_sq, 2 * fst root * snd root) in
  [csub root temp; cadd root temp].
(* iir_design.c:122-162 *)
Definition shift_from_baseband (f : zpk) (center : R) : bool * zpk :=
  if (max_degree <? 2 * length (z_zeros f))%nat || (max_degree <? 2 * length (z_poles f))%nat then (false, f) else
  let relative_degree := (length (z_poles f) - length (z_zeros f))%nat in
  let zs := flat_map (shift_root (center * center)) (z_zeros f) in
  let ps := flat_map (shift_root (center * center)) (z_poles f) in
  (true, {| z_zeros := zs ++ repeat (0, 0) relative_degree; z_poles := ps; z_gain := z_gain f |}).

(* num_poles - num_zeros *)
Definition excess (f : zpk) : Z := (Z.of_nat (length (z_poles f)) - Z.of_nat (length (z_zeros f)))%Z.
(* iir_design.c:164-185 *)
Definition to_lowpass (f : zpk) (cutoff : R) : outcome zpk :=
  obind (int_power cutoff (excess f)) (fun p =>
  Ok {| z_zeros := map (fun r => cmul_real r cutoff) (z_zeros f);
        z_poles := map (fun r => cmul_real r cutoff) (z_poles f);
        z_gain := z_gain f * p |}).
(* iir_design.c:203-239 *)
Definition to_highpass (f : zpk) (cutoff : R) : outcome zpk :=
  obind (zpk_eval f (0, 0)) (fun h =>
  obind (map_outcome (cdiv exponent (cutoff, 0)) (z_zeros f)) (fun zs =>
  obind (map_outcome (cdiv exponent (cutoff, 0)) (z_poles f)) (fun ps =>
  Ok {| z_zeros := pad (length ps) (0, 0) zs; z_poles := ps; z_gain := fst h |}))).
(* sqrt of the product of the edges *)
Definition center_of (low high : R) : outcome R := oguard (Rleb 0 (low * high)) (Ok (sqrt (low * high))).
(* iir_design.c:257-270 *)
Definition to_bandpass (f : zpk) (low high : R) : outcome (bool * zpk) :=
  let bandwidth := high - low in
  obind (to_lowpass f (bandwidth / 2)) (fun f1 =>
  obind (int_power 2 (excess f1)) (fun p =>
  let f2 := {| z_zeros := z_zeros f1; z_poles := z_poles f1; z_gain := z_gain f1 * p |} in
  obind (center_of low high) (fun center => Ok (shift_from_baseband f2 center)))).
(* iir_design.c:292-304 *)
Definition to_bandstop (f : zpk) (low high : R) : outcome (bool * zpk) :=
  let bandwidth := high - low in
  obind (to_highpass f (bandwidth / 2)) (fun f1 =>
  obind (center_of low high) (fun center => Ok (shift_from_baseband f1 center))).

(* iir_design.c:330-340: OrderComplex(w, z) is negative, zero or positive *)
Definition order_complex (w z : cplx) : comparison :=
  if Rltb (fst w) (fst z) then Lt
  else if Rltb (fst z) (fst w) then Gt
  else if Rltb (Rabs (snd w)) (Rabs (snd z)) then Lt
  else if Rltb (Rabs (snd z)) (Rabs (snd w)) then Gt
  else Eq.

(* iir_design.c:351, kTol = 100 * DBL_EPSILON = 100 * 2^-52 *)
Definition root_tol : R := 100 / 4503599627370496.
Definition nearly_real (r : cplx) : bool := Rleb (Rabs (snd r)) (root_tol * cabs exponent r).
(* iir_design.c:352-364.  The array is represented by its first num_real elements, reals, the
   elements from there to i - 1, others, and the elements from i on.  Writing roots[num_real] to
   roots[i] and the root to roots[num_real] moves the first element of others to its end. *)
Fixpoint reals_first (l reals others : list cplx) : list cplx * list cplx :=
  match l with
  | [] => (reals, others)
  | r :: l' =>
      if nearly_real r then
        match others with
        | [] => reals_first l' (reals ++ [r]) []
        | o :: others' => reals_first l' (reals ++ [(fst r, 0)]) (others' ++ [o])
        end
      else reals_first l' reals (others ++ [r])
  end.
(* iir_design.c:380-388: the run of elements equal to root at the front of l, and what follows *)
Fixpoint split_run (root : cplx) (l : list cplx) : list cplx * list cplx :=
  match l with
  | [] => ([], [])
  | r :: l' =>
      match order_complex root r with
      | Eq => (r :: fst (split_run root l'), snd (split_run root l'))
      | _ => ([], l)
      end
  end.
(* iir_design.c:376-404; every iteration uses up at least one root, so that the number of roots
   is enough fuel.  A failure leaves the remaining roots as they are. *)
Fixpoint pair_runs (fuel : nat) (l : list cplx) : bool * list cplx :=
  match fuel, l with
  | S fuel', r :: _ =>
      let root := (fst r, Rabs (snd r)) in
      let (group, rest) := split_run root l in
      let num_neg := length (filter (fun x => Rltb (snd x) 0) group) in
      let num_pos := (length group - num_neg)%nat in
      if (length group =? 0)%nat || negb (num_pos =? num_neg)%nat then (false, l) else
      let (ok, tail) := pair_runs fuel' rest in
      (ok, concat (repeat [cconj root; root] num_neg) ++ tail)
  | _, _ => (true, l)
  end.
(* iir_design.c:345-406 *)
Definition roots_sort (l : list cplx) : bool * list cplx :=
  if (length l =? 0)%nat then (true, l) else
  let (reals, others) := reals_first l [] [] in
  let reals := qsort reals in
  if (length others =? 0)%nat then (true, reals) else
  let others := qsort others in
  let (ok, others) := pair_runs (length others) others in
  (ok, reals ++ others).
(* iir_design.c:408-411 *)
Definition zpk_sort (f : zpk) : bool * zpk :=
  let (okz, zs) := roots_sort (z_zeros f) in
  if okz then
    let (okp, ps) := roots_sort (z_poles f) in (okp, {| z_zeros := zs; z_poles := ps; z_gain := z_gain f |})
  else (false, {| z_zeros := zs; z_poles := z_poles f; z_gain := z_gain f |}).

(* iir_design.c:425-442.  The array and the index are represented by the list of the roots at
   the positions index, index - 1, ..., 0.  The result is (c1, c2) and the roots that remain. *)
Definition next_factor (l : list cplx) : (R * R) * list cplx :=
  match l with
  | [] => ((0, 0), [])
  | [r] => ((- fst r, 0), [])
  | r1 :: r2 :: l' => ((- fst r1 - fst r2, fst r1 * fst r2 - snd r1 * snd r2), l')
  end.
(* iir_design.c:467-486; n biquads are still to be made.  The struct has no a0, which is one. *)
Fixpoint make_biquads (n : nat) (gain : R) (zs ps : list cplx) : list (coeffs R) :=
  match n with
  | O => []
  | S n' =>
      let '((c1, c2), zs') := next_factor zs in
      let '((d1, d2), ps') := next_factor ps in
      (if (n' =? 0)%nat
       then {| b0 := 1 * gain; b1 := c1 * gain; b2 := c2 * gain; a0 := 1; a1 := d1; a2 := d2 |}
       else {| b0 := 1; b1 := c1; b2 := c2; a0 := 1; a1 := d1; a2 := d2 |})
      :: make_biquads n' gain zs' ps'
  end.
(* iir_design.c:444-489.  coeffs == NULL is represented by no room; the return value 0 is None,
   any other return value is the number of biquads written.  Reading roots past their count,
   which happens if the two counts differ, is undefined. *)
Definition to_biquads (f : zpk) (max_biquads : Z) : outcome (option (list (coeffs R))) :=
  if (max_biquads <=? 0)%Z then Ok None else
  let nz := length (z_zeros f) in
  let np := length (z_poles f) in
  if ((nz =? 0) && (np =? 0))%nat
  then Ok (Some [{| b0 := z_gain f; b1 := 0; b2 := 0; a0 := 1; a1 := 0; a2 := 0 |}]) else
  let degree := Nat.max nz np in
  let num_biquads := Nat.div2 (degree + 1) in
  if (max_biquads <? Z.of_nat num_biquads)%Z then Ok None else
  let (ok, f') := zpk_sort f in
  if negb ok then Ok None else
  oguard (nz =? np)%nat
  (Ok (Some (make_biquads num_biquads (z_gain f') (rev (z_zeros f')) (rev (z_poles f'))))).

(* iir_design.c:108-114 *)
Definition discretize_to_biquads (f : zpk) (fs : R) (max_biquads : Z) : outcome (option (list (coeffs R))) :=
  obind (zpk_bilinear f fs) (fun r => if fst r then to_biquads (snd r) max_biquads else Ok None).
(* iir_design.c:188-201, 242-255, 273-290, 307-324.  The results of the band mappings are ignored. *)
Definition design_lowpass (f : zpk) (fc fs : R) (max_biquads : Z) : outcome (option (list (coeffs R))) :=
  if negb (Rleb 0 fc && Rltb fc (fs / 2)) then Ok None else
  obind (to_lowpass f (prewarp fc fs)) (fun f1 => discretize_to_biquads f1 fs max_biquads).
Definition design_highpass (f : zpk) (fc fs : R) (max_biquads : Z) : outcome (option (list (coeffs R))) :=
  if negb (Rleb 0 fc && Rltb fc (fs / 2)) then Ok None else
  obind (to_highpass f (prewarp fc fs)) (fun f1 => discretize_to_biquads f1 fs max_biquads).
Definition design_bandpass (f : zpk) (low high fs : R) (max_biquads : Z) : outcome (option (list (coeffs R))) :=
  if negb (Rleb 0 low && Rleb low high && Rltb high (fs / 2)) then Ok None else
  obind (to_bandpass f (prewarp low fs) (prewarp high fs)) (fun r => discretize_to_biquads (snd r) fs max_biquads).
Definition design_bandstop (f : zpk) (low high fs : R) (max_biquads : Z) : outcome (option (list (coeffs R))) :=
  if negb (Rleb 0 low && Rleb low high && Rltb high (fs / 2)) then Ok None else
  obind (to_bandstop f (prewarp low fs) (prewarp high fs)) (fun r => discretize_to_biquads (snd r) fs max_biquads).

(* gain = 1 / |H(0)|, iir_design.c:527, 631 and 736 *)
Definition set_dc_gain (f : zpk) : outcome zpk :=
  obind (zpk_eval f (0, 0)) (fun h =>
  oguard (negb (Reqb (cabs exponent h) 0))
  (Ok {| z_zeros := z_zeros f; z_poles := z_poles f; z_gain := 1 / cabs exponent h |})).
Definition even_order (order : Z) : bool := (Z.rem order 2 =? 0)%Z.
(* theta for n = 1, ..., order / 2 *)
Definition design_thetas (order : Z) : list R :=
  map (fun n => PI / IZR order * (INR n - (if even_order order then 1 else 0) * (1 / 2)))
      (seq 1 (Z.to_nat (Z.quot order 2))).
(* *roots++ = ComplexDoubleConj(root); *roots++ = root *)
Definition conj_pair (r : cplx) : list cplx := [cconj r; r].

(* the result of making a prototype: failure, or the filter; writing past the end of the arrays is undefined *)
Definition prototype := outcome (option zpk).
Definition with_order (order : Z) (make : outcome zpk) : prototype :=
  if (order <? 1)%Z then Ok None else
  oguard (order <=? Z.of_nat max_degree)%Z (omap Some make).
(* iir_design.c:494-529 *)
Definition butterworth_zpk (order : Z) : prototype :=
  with_order order
  (let poles := flat_map (fun theta => conj_pair (- cos theta, sin theta)) (design_thetas order) in
   set_dc_gain {| z_zeros := []; z_poles := (if even_order order then [] else [(-1, 0)]) ++ poles; z_gain := 1 |}).
(* sqrt(exp((M_LN10 / 10) * ripple_db) - 1.0), iir_design.c:611 and 714 *)
Definition ripple_epsilon (ripple_db : R) : outcome R :=
  oguard (Rleb 0 (exp (ln 10 / 10 * ripple_db) - 1)) (Ok (sqrt (exp (ln 10 / 10 * ripple_db) - 1))).
(* iir_design.c:577-636 *)
Definition chebyshev1_zpk (order : Z) (ripple_db : R) : prototype :=
  with_order order
  (obind (ripple_epsilon ripple_db) (fun epsilon =>
   oguard (negb (Reqb epsilon 0))
   (let mu := ln ((1 + sqrt (1 + epsilon * epsilon)) / epsilon) / IZR order in
    let poles := flat_map (fun theta => conj_pair (cneg (csinh (mu, theta)))) (design_thetas order) in
    obind (set_dc_gain {| z_zeros := []; z_poles := (if even_order order then [] else [(- sinh mu, 0)]) ++ poles; z_gain := 1 |}) (fun f =>
    Ok (if even_order order
        then {| z_zeros := z_zeros f; z_poles := z_poles f; z_gain := z_gain f / sqrt (1 + epsilon * epsilon) |}
        else f))))).
(* iir_design.c:688-738 *)
Definition chebyshev2_zpk (order : Z) (ripple_db : R) : prototype :=
  with_order order
  (obind (ripple_epsilon ripple_db) (fun epsilon =>
   let mu := ln (epsilon + sqrt (1 + epsilon * epsilon)) / IZR order in
   oguard (even_order order || negb (Reqb (sinh mu) 0))
   (oguard (forallb (fun theta => negb (Reqb (sin theta) 0)) (design_thetas order))
   (let zeros := flat_map (fun theta => conj_pair (0, 1 / sin theta)) (design_thetas order) in
    obind (map_outcome (fun theta => cdiv exponent (-1, 0) (csinh (mu, theta))) (design_thetas order)) (fun ps =>
    let poles := flat_map conj_pair ps in
    set_dc_gain {| z_zeros := zeros; z_poles := (if even_order order then [] else [(-1 / sinh mu, 0)]) ++ poles; z_gain := 1 |}))))).

(* iir_design.c:531-574, 638-685, 740-786: Design{Butterworth,Chebyshev1,Chebyshev2}{Lowpass,...} *)
Definition from_prototype (p : prototype) (design : zpk -> outcome (option (list (coeffs R)))) : outcome (option (list (coeffs R))) :=
  obind p (fun r => match r with None => Ok None | Some f => design f end).
Definition butterworth_lowpass (order : Z) (fc fs : R) (max_biquads : Z) :=
  from_prototype (butterworth_zpk order) (fun f => design_lowpass f fc fs max_biquads).
Definition butterworth_highpass (order : Z) (fc fs : R) (max_biquads : Z) :=
  from_prototype (butterworth_zpk order) (fun f => design_highpass f fc fs max_biquads).
Definition butterworth_bandpass (order : Z) (low high fs : R) (max_biquads : Z) :=
  from_prototype (butterworth_zpk order) (fun f => design_bandpass f low high fs max_biquads).
Definition butterworth_bandstop (order : Z) (low high fs : R) (max_biquads : Z) :=
  from_prototype (butterworth_zpk order) (fun f => design_bandstop f low high fs max_biquads).
Definition chebyshev1_lowpass (order : Z) (db fc fs : R) (max_biquads : Z) :=
  from_prototype (chebyshev1_zpk order db) (fun f => design_lowpass f fc fs max_biquads).
Definition chebyshev1_highpass (order : Z) (db fc fs : R) (max_biquads : Z) :=
  from_prototype (chebyshev1_zpk order db) (fun f => design_highpass f fc fs max_biquads).
Definition chebyshev1_bandpass (order : Z) (db low high fs : R) (max_biquads : Z) :=
  from_prototype (chebyshev1_zpk order db) (fun f => design_bandpass f low high fs max_biquads).
Definition chebyshev1_bandstop (order : Z) (db low high fs : R) (max_biquads : Z) :=
  from_prototype (chebyshev1_zpk order db) (fun f => design_bandstop f low high fs max_biquads).
Definition chebyshev2_lowpass (order : Z) (db fc fs : R) (max_biquads : Z) :=
  from_prototype (chebyshev2_zpk order db) (fun f => design_lowpass f fc fs max_biquads).
Definition chebyshev2_highpass (order : Z) (db fc fs : R) (max_biquads : Z) :=
  from_prototype (chebyshev2_zpk order db) (fun f => design_highpass f fc fs max_biquads).
Definition chebyshev2_bandpass (order : Z) (db low high fs : R) (max_biquads : Z) :=
  from_prototype (chebyshev2_zpk order db) (fun f => design_bandpass f low high fs max_biquads).
Definition chebyshev2_bandstop (order : Z) (db low high fs : R) (max_biquads : Z) :=
  from_prototype (chebyshev2_zpk order db) (fun f => design_bandstop f low high fs max_biquads).
End Zpk.
