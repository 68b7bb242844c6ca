(* Model of audio/dsp/signal_vector_util.h.  Containers are lists; the class FIRFilter and the
   smoothers work on any sample type with arithmetic operations that need not satisfy any law (so
   floating point is included); everything else is over the real numbers.  DCHECKs are taken as
   checks.  The plain loops Sum, AddVectorIntoVector and the like are not modelled separately. *)
From Verif Require Import Common RealUtil ComplexModel.
Local Open Scope R_scope.

(* ---- FIRFilter, signal_vector_util.h:800-883 ---- *)
Section Fir.
Context {S H : Type} (zero : S) (add : S -> S -> S) (mul : S -> H -> S).
Record fir := { taps_of : list H; state_of : list S }.
(* signal_vector_util.h:824-826 *)
Definition fir_reset (f : fir) : fir := {| taps_of := taps_of f; state_of := repeat zero (length (taps_of f) - 1) |}.
(* signal_vector_util.h:806-810 *)
Definition fir_new (h : list H) : outcome fir :=
  ocheck (negb (length h =? 0)%nat) (Ok (fir_reset {| taps_of := h; state_of := [] |})).
(* signal_vector_util.h:867-870: [hs] are the coefficients from index k on, [st] the state from
   index k - 1 on; state_[k - 1] is overwritten from the old state_[k] *)
Fixpoint fir_shift (x : S) (hs : list H) (st : list S) : list S :=
  match hs with
  | [] => []
  | [h] => [mul x h]
  | h :: hs' => match st with _ :: ((s1 :: _) as st') => add (mul x h) s1 :: fir_shift x hs' st' | _ => [] end
  end.
(* signal_vector_util.h:863-876, one sample.  Coefficient and state lists that are too short are
   out of range accesses. *)
Definition fir_sample (f : fir) (x : S) : outcome (fir * S) :=
  match taps_of f with
  | [] => Undef
  | [h] => Ok (f, mul x h)
  | h :: hs =>
      oguard (length (state_of f) =? length hs)%nat
      (match state_of f with
       | s0 :: _ => Ok ({| taps_of := taps_of f; state_of := fir_shift x hs (state_of f) |}, add (mul x h) s0)
       | [] => Undef
       end)
  end.
(* signal_vector_util.h:860-877, a whole chunk *)
Definition fir_filter (f : fir) (signal : list S) : outcome (fir * list S) := run fir_sample f signal.
End Fir.
Arguments fir : clear implicits.

(* ---- one-pole smoothers, signal_vector_util.h:380-417 and 485-495 ---- *)
Section Smooth.
Context {S : Type} (add sub : S -> S -> S) (scale : S -> S).
(* signal_vector_util.h:381-390; [scale x] is coefficient * x *)
Fixpoint forward_smooth (state : S) (signal : list S) : S * list S :=
  match signal with
  | [] => (state, [])
  | x :: r => let s1 := add state (scale (sub x state)) in let (s2, out) := forward_smooth s1 r in (s2, s1 :: out)
  end.
(* signal_vector_util.h:393-402 *)
Definition backward_smooth (state : S) (signal : list S) : S * list S :=
  let (s, out) := forward_smooth state (rev signal) in (s, rev out).
(* signal_vector_util.h:486-495 *)
Fixpoint block_dc (state : S) (signal : list S) : list S :=
  match signal with
  | [] => []
  | x :: r => let s1 := add state (scale (sub x state)) in sub x s1 :: block_dc s1 r
  end.
End Smooth.
(* signal_vector_util.h:407-417; the first element of an empty container is read *)
Definition smooth_pass (c : R) (p : R * list R) : R * list R :=
  let (s1, x1) := forward_smooth Rplus Rminus (Rmult c) (fst p * (1 - c)) (snd p) in
  backward_smooth Rplus Rminus (Rmult c) (s1 * (1 - c)) x1.
Definition smooth_vector (c : R) (signal : list R) : outcome (list R) :=
  match signal with
  | [] => Undef
  | x :: _ => Ok (snd (smooth_pass c (smooth_pass c (x, signal))))
  end.
(* signal_vector_util.h:369-374 *)
Definition smoother_coefficient (scale : R) : R :=
  if Rleb scale (1 / 100) then 1
  else let t := scale * scale in sqrt ((1 + 2 / t) * (1 + 2 / t) - 1) - 2 / t.

(* ---- statistics ---- *)
Definition rsum (l : list R) : R := fold_left Rplus l 0.
(* signal_vector_util.h:113-136 for real elements: mean and variance *)
Definition second_order_stats (l : list R) : outcome (R * R) :=
  ocheck (negb (length l =? 0)%nat)
  (let n := INR (length l) in
   let mean := rsum l / n in
   Ok (mean, rsum (map (fun x => x * x) l) / n - mean * mean)).
(* signal_vector_util.h:332-353 for real elements; dividing by zero gives infinity or NaN *)
Definition z_score_normalize (stddev_floor : R) (l : list R) : outcome (list R) :=
  match l with
  | [] => Ok []
  | _ => obind (second_order_stats l) (fun mv =>
         oguard (Rleb 0 (snd mv))
         (let denom := stddev_floor + sqrt (snd mv) in
          oguard (negb (Reqb denom 0)) (Ok (map (fun x => (x - fst mv) / denom) l))))
  end.
(* std::max_element, std::min_element: the first largest, smallest *)
Definition list_max (x : R) (l : list R) : R := fold_left (fun m y => if Rltb m y then y else m) l x.
Definition list_min (x : R) (l : list R) : R := fold_left (fun m y => if Rltb y m then y else m) l x.
(* signal_vector_util.h:156-171 *)
Definition max_magnitude (l : list R) : R :=
  match l with [] => 0 | x :: r => if Rltb (- list_min x r) (list_max x r) then list_max x r else - list_min x r end.
(* signal_vector_util.h:280-300 for real elements; 0/0 when both are empty *)
Definition rms_error (a b : list R) : outcome R :=
  ocheck (length a =? length b)%nat
  (oguard (negb (length a =? 0)%nat)
   (Ok (sqrt (fold_left (fun s p => s + (fst p - snd p) * (fst p - snd p)) (combine a b) 0 / INR (length a))))).
(* signal_vector_util.h:307-314: index and value *)
Fixpoint max_from (i best : nat) (m : R) (l : list R) : nat * R :=
  match l with
  | [] => (best, m)
  | y :: r => if Rltb m y then max_from (S i) i y r else max_from (S i) best m r
  end.
Definition find_max (l : list R) : outcome (nat * R) :=
  match l with [] => CheckFail | x :: r => Ok (max_from 1 0 x r) end.

(* ---- QuadraticInterpolateMax, signal_vector_util.h:504-541: location and value ---- *)
Definition kTolerance : R := 4 * / 2 ^ 23.
Definition quadratic_max (signal : list R) (x0 : Z) : outcome (R * R) :=
  let n := Z.of_nat (length signal) in
  let at_ (i : Z) := nth (Z.to_nat i) signal 0 in
  ocheck (0 <=? x0)%Z (ocheck (x0 <? n)%Z
  (if ((x0 =? 0) || (x0 =? n - 1))%Z then Ok (IZR x0, at_ x0)
   else
     let a := (at_ (x0 - 1)%Z - 2 * at_ x0 + at_ (x0 + 1)%Z) / 2 in
     let b := (at_ (x0 + 1)%Z - at_ (x0 - 1)%Z) / 2 in
     if Rltb (Rabs b) kTolerance then Ok (IZR x0, at_ x0)
     else if Rltb a 0 then
       let delta := Rmax (-1) (Rmin (- b / (2 * a)) 1) in
       Ok (IZR x0 + delta, at_ x0 + (b + a * delta) * delta)
     else
       let x1 := (x0 + (if Rltb b 0 then -1 else 1))%Z in
       Ok (IZR x1, at_ x1))).

(* ---- phasors, signal_vector_util.h:659-697 ---- *)
Definition cplx_mul (a b : R * R) : R * R := (fst a * fst b - snd a * snd b, fst a * snd b + snd a * fst b).
Fixpoint phasors (rot phasor : R * R) (n : nat) : list (R * R) :=
  match n with O => [] | S n' => phasor :: phasors rot (cplx_mul phasor rot) n' end.
(* signal_vector_util.h:660-673 *)
Definition phasor_vector (step : R) (n : nat) : list (R * R) := phasors (cos step, sin step) (1, 0) n.
(* signal_vector_util.h:678-697; dividing by a zero sample rate gives infinity or NaN *)
Definition sine_wave (f fs phase : R) (n : nat) : outcome (list R) :=
  oguard (negb (Reqb fs 0))
  (let step := 2 * PI * f / fs in Ok (map snd (phasors (cos step, sin step) (cos phase, sin phase) n))).

(* ---- circular averages, signal_vector_util.h:745-794; std::polar wants a nonnegative radius ---- *)
Definition polar_sum (factor : R) (l : list (R * R)) : R * R :=
  fold_left (fun s p => (fst s + snd p * cos (factor * fst p), snd s + snd p * sin (factor * fst p))) l (0, 0).
Definition unit_range (average period : R) : R := (if Rltb average 0 then average + 1 else average) * period.
(* signal_vector_util.h:745-765 *)
Definition circular_average (values : list R) (period : R) : outcome R :=
  ocheck (negb (length values =? 0)%nat) (ocheck (Rltb 0 period)
  (let s := polar_sum (2 * PI / period) (map (fun v => (v, 1)) values) in
   Ok (unit_range (atan2 (snd s) (fst s) / (2 * PI)) period))).
(* signal_vector_util.h:770-794 *)
Definition weighted_circular_average (values weights : list R) (period : R) : outcome R :=
  ocheck (negb (length values =? 0)%nat) (ocheck (length values =? length weights)%nat (ocheck (Rltb 0 period)
  (oguard (forallb (fun w => Rleb 0 w) weights)
  (let s := polar_sum (2 * PI / period) (combine values weights) in
   Ok (unit_range (atan2 (snd s) (fst s) / (2 * PI)) period))))).

(* ---- FIR designs, signal_vector_util.h:892-946 ---- *)
(* filter[i] before the window is applied, for i - radius = k *)
Definition ideal_lowpass (factor : R) (k : Z) : R :=
  if (k =? 0)%Z then factor else sin (PI * factor * IZR (Z.abs k)) / (PI * IZR (Z.abs k)).
(* signal_vector_util.h:892-909 *)
Definition fir_lowpass (edge fs : R) (window : list R) : outcome (list R) :=
  ocheck (Rleb 0 edge) (ocheck (Rleb edge (fs / 2)) (ocheck (length window mod 2 =? 1)%nat
  (oguard (negb (Reqb fs 0))
  (let radius := ((length window - 1) / 2)%nat in
   let factor := 2 * edge / fs in
   Ok (map (fun p => ideal_lowpass factor (Z.of_nat (fst p) - Z.of_nat radius) * snd p)
         (combine (seq 0 (length window)) window)))))).
(* signal_vector_util.h:916-926 *)
Definition fir_highpass (edge fs : R) (window : list R) : outcome (list R) :=
  obind (fir_lowpass edge fs window) (fun lp =>
  let radius := ((length window - 1) / 2)%nat in
  let f := map (fun x => x * -1) lp in
  Ok (splice radius [nth radius f 0 + nth radius window 0] f)).
(* signal_vector_util.h:933-946 *)
Definition fir_bandpass (low high fs : R) (window : list R) : outcome (list R) :=
  ocheck (Rleb low high)
  (obind (fir_lowpass low fs window) (fun f1 =>
   obind (fir_lowpass high fs window) (fun f2 =>
   Ok (map (fun p => snd p - fst p) (combine f1 f2))))).

(* ---- HermitianSmoothVector, signal_vector_util.h:437-479 ---- *)
Section Hermitian.
Context {S : Type} (zero : S) (add sub : S -> S -> S) (scale : S -> S) (conj real_part : S -> S).
(* one of the two passes, lines 457-473; signal and extra values *)
Definition hermitian_pass (extra_n : nat) (p : list S * list S) : list S * list S :=
  let (signal, extra) := p in
  (* elements extra_n, ..., 1 *)
  let (a0, _) := forward_smooth add sub scale zero (rev (firstn extra_n (skipn 1 signal))) in
  let (a1, signal1) := forward_smooth add sub scale (conj a0) signal in
  let (_, extra1) := forward_smooth add sub scale a1 extra in
  let (a2, extra2) := backward_smooth add sub scale zero extra1 in
  let (_, signal2) := backward_smooth add sub scale a2 signal1 in
  (signal2, extra2).
(* lines 476-477 *)
Definition real_ends (l : list S) : list S :=
  match l with
  | [] => []
  | x :: r => let l1 := real_part x :: r in removelast l1 ++ [real_part (last l1 zero)]
  end.
(* [extra] is floor(3 * (scale + 1)), an int; the coefficient is a parameter of [scale] *)
Definition hermitian_smooth (extra : nat) (signal : list S) : list S :=
  let n := length signal in
  if (n <? 2)%nat then signal else
  let extra_n := if (n <=? extra)%nat then (n - 1)%nat else extra in
  let extra_vals := map conj (firstn extra_n (skipn 1 (rev signal))) in
  real_ends (fst (hermitian_pass extra_n (hermitian_pass extra_n (signal, extra_vals)))).
End Hermitian.

(* signal_vector_util.h:701-714 and 718-731 *)
Definition split_complex {A} (l : list (A * A)) : list A * list A := (map fst l, map snd l).
Definition combine_complex {A} (re im : list A) : outcome (list (A * A)) :=
  ocheck (length re =? length im)%nat (Ok (combine re im)).
