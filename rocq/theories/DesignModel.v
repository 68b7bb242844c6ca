(* Model of audio/linear_filters/discretization.{h,cc} (biquad part) and
   audio/linear_filters/biquad_filter_design.cc (second order designs), over the real
   numbers.  float/double rounding, overflow and NaN are not modelled; std::sin, cos,
   tan, sqrt, exp, abs are the real functions and M_PI is the number pi. *)
From Verif Require Import Common RealUtil BiquadModel.
Local Open Scope R_scope.

Definition poly := (R * R * R)%type.

(* biquad_filter_coefficients.h:78-82.  A zero a0 would give infinities; the theorems show
   that it is not zero. *)
Definition normalize (c : coeffs R) : coeffs R :=
  {| b0 := b0 c / a0 c; b1 := b1 c / a0 c; b2 := b2 c / a0 c;
     a0 := a0 c / a0 c; a1 := a1 c / a0 c; a2 := a2 c / a0 c |}.
Definition make_coeffs (b a : poly) : coeffs R :=
  {| b0 := fst (fst b); b1 := snd (fst b); b2 := snd b;
     a0 := fst (fst a); a1 := snd (fst a); a2 := snd a |}.

(* discretization.cc:25-37 *)
Definition bilinear_map (q : poly) (K : R) : poly :=
  let '(q0, q1, q2) := q in
  let c0 := q0 * K * K in
  let c1 := q1 * K in
  let c2 := q2 in
  (c0 + c1 + c2, 2 * (c2 - c0), c0 - c1 + c2).

(* discretization.cc:45-51 *)
Definition compute_K (match_hz fs : R) : R :=
  if Rltb match_hz (fs * / 10000000) then 2 * fs
  else 2 * PI * match_hz / tan (PI * match_hz / fs).

(* discretization.cc:54-67; the vectors have length three by construction *)
Definition bilinear_transform (num den : poly) (fs match_hz : R) : outcome (coeffs R) :=
  ocheck (Rltb 0 fs) (ocheck (Rleb 0 match_hz) (ocheck (Rltb match_hz (fs / 2))
  (let K := compute_K match_hz fs in
   Ok (normalize (make_coeffs (bilinear_map num K) (bilinear_map den K)))))).

(* discretization.h:58-61 and 72-74 *)
Definition first_order_coefficient (time_constant fs : R) : R := 1 - exp (-1 / (time_constant * fs)).
Definition bilinear_prewarp (f fs : R) : R := 2 * fs * tan (PI * f / fs).

(* biquad_filter_design.cc:26-31 and 33-38 *)
Definition check_arguments {A} (fs f q : R) (k : outcome A) : outcome A :=
  ocheck (Rltb f (fs / 2)) (ocheck (Rltb 0 f) (ocheck (Rltb 0 q) k)).
Definition check_edges {A} (fs lo hi : R) (k : outcome A) : outcome A :=
  ocheck (Rltb hi (fs / 2)) (ocheck (Rltb lo hi) (ocheck (Rltb 0 lo) k)).

(* biquad_filter_design.cc:41-63 *)
Definition lowpass (fs f q : R) : outcome (coeffs R) :=
  check_arguments fs f q
  (let w := 2 * PI * f in bilinear_transform (0, 0, w * w) (1, w / q, w * w) fs f).
Definition highpass (fs f q : R) : outcome (coeffs R) :=
  check_arguments fs f q
  (let w := 2 * PI * f in bilinear_transform (1, 0, 0) (1, w / q, w * w) fs f).
(* biquad_filter_design.cc:65-91 *)
Definition bandpass (fs f q : R) : outcome (coeffs R) :=
  check_arguments fs f q
  (let w := 2 * PI * f in bilinear_transform (0, w / q, 0) (1, w / q, w * w) fs f).
Definition bandstop (fs f q : R) : outcome (coeffs R) :=
  check_arguments fs f q
  (let w := 2 * PI * f in bilinear_transform (1, 0, w * w) (1, w / q, w * w) fs f).
(* biquad_filter_design.cc:93-125 *)
Definition ranged_bandpass (fs lo hi : R) : outcome (coeffs R) :=
  check_edges fs lo hi
  (let w1 := bilinear_prewarp lo fs in let w2 := bilinear_prewarp hi fs in
   bilinear_transform (0, w2 - w1, 0) (1, w2 - w1, w2 * w1) fs 0).
Definition ranged_bandstop (fs lo hi : R) : outcome (coeffs R) :=
  check_edges fs lo hi
  (let w1 := bilinear_prewarp lo fs in let w2 := bilinear_prewarp hi fs in
   bilinear_transform (1, 0, w2 * w1) (1, w2 - w1, w2 * w1) fs 0).
(* biquad_filter_design.cc:127-147 *)
Definition low_shelf (fs f q gain : R) : outcome (coeffs R) :=
  check_arguments fs f q (ocheck (Rltb 0 gain)
  (let k := sqrt gain in
   let omega := 2 * PI * f / fs in
   let beta := sin omega * sqrt k / q in
   let km := (k - 1) * cos omega in
   let kp := (k + 1) * cos omega in
   Ok (make_coeffs (k * ((k + 1) - km + beta), k * 2 * ((k - 1) - kp), k * ((k + 1) - km - beta))
                   ((k + 1) + km + beta, -2 * ((k - 1) + kp), (k + 1) + km - beta)))).
(* biquad_filter_design.cc:149-169 *)
Definition high_shelf (fs f q gain : R) : outcome (coeffs R) :=
  check_arguments fs f q (ocheck (Rltb 0 gain)
  (let k := sqrt gain in
   let omega := 2 * PI * f / fs in
   let beta := sin omega * sqrt k / q in
   let km := (k - 1) * cos omega in
   let kp := (k + 1) * cos omega in
   Ok (make_coeffs (k * ((k + 1) + km + beta), k * -2 * ((k - 1) + kp), k * ((k + 1) + km - beta))
                   ((k + 1) - km + beta, 2 * ((k - 1) - kp), (k + 1) - km - beta)))).
(* biquad_filter_design.cc:171-193; the DCHECKs hold by construction *)
Definition peak (fs f q gain : R) : outcome (coeffs R) :=
  check_arguments fs f q (ocheck (Rleb 0 gain)
  (let w := 2 * PI * f in
   bilinear_transform (0 + 1, gain * (w / q), 0 + w * w) (1, w / q, w * w) fs f)).
(* biquad_filter_design.cc:195-203 *)
Definition peak_symmetric (fs f q gain : R) : outcome (coeffs R) :=
  peak fs f (if Rltb gain 1 then q * gain else q) gain.

(* biquad_filter_design.cc:251-273 *)
Definition infimal_group_delay (fs f phase : R) : R :=
  Rabs (sin phase) / fs / sin (2 * PI * f / fs).
Definition check_allpass (fs f phase delay : R) : bool :=
  if Rltb delay 0 then false
  else if Rltb (Rabs (sin phase)) (/ 100000) then false
  else Rleb (infimal_group_delay fs f phase) delay.
(* biquad_filter_design.cc:275-289 *)
Definition minimum_group_delay (fs f phase : R) : R :=
  1001 / 1000 * infimal_group_delay fs f phase.
(* biquad_filter_design.cc:207-238.  The function divides three times by a quantity that may
   be zero for accepted arguments; the floating point result is then NaN or infinite, which is
   the outcome Undef here. *)
Definition allpass (fs f phase delay : R) : outcome (coeffs R) :=
  ocheck (Rltb f (fs / 2)) (ocheck (Rltb (/ 100000) (Rabs phase))
  (ocheck (Rltb (/ 100000) (Rabs (sin phase))) (ocheck (Rltb 0 f) (ocheck (check_allpass fs f phase delay)
  (let wh := bilinear_prewarp f fs in
   let wT := 2 * PI * f / fs in
   let k := delay * fs * sin wT / sin phase in
   oguard (negb (Reqb (k + 1) 0))
   (let w0 := wh * sqrt ((k - 1) / (k + 1)) in
    let cot := (1 + cos phase) / sin phase in
    oguard (negb (Reqb (wh * wh - w0 * w0) 0))
    (let Q := cot * w0 * wh / (wh * wh - w0 * w0) in
     let p := w0 / fs / 2 in
     let qq := Q * (p * p + 1) in
     oguard (negb (Reqb (qq + p) 0))
     (let c0 := (qq - p) / (qq + p) in
      let c1 := 2 * (Q * (p * p - 1)) / (qq + p) in
      Ok (make_coeffs (c0, c1, 1) (1, c1, c0)))))))))).
(* biquad_filter_design.cc:240-248 *)
Definition allpass_minimal (fs f phase : R) : outcome (coeffs R) :=
  allpass fs f phase (minimum_group_delay fs f phase).
