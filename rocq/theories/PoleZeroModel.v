(* Model of audio/linear_filters/filter_poles_and_zeros.{h,cc}, of the pole-zero part of
   audio/linear_filters/discretization.cc, of audio/linear_filters/biquad_filter_design_pole_zero.cc
   (Butterworth and Chebyshev prototypes; the elliptic prototype is in EllipticDesignModel.v) and of
   audio/linear_filters/crossover.cc, over the real and complex numbers.  Rounding, overflow, NaN
   and signed zeros are not modelled; a division by zero is the outcome Undef. *)
From Verif Require Import Common RealUtil BiquadModel DesignModel CascadeModel.
From Coquelicot Require Import Complex.
Local Open Scope R_scope.

Definition Ceqb (z w : C) : bool := Reqb (fst z) (fst w) && Reqb (snd z) (snd w).

(* filter_poles_and_zeros.h:98-107: the member variables *)
Record pole_zero : Type := {
  lone_zeros : list R; lone_poles : list R;
  paired_zeros : list C; paired_poles : list C;
  pz_gain : R }.
(* filter_poles_and_zeros.h:45-46 *)
Definition pz_new : pole_zero :=
  {| lone_zeros := []; lone_poles := []; paired_zeros := []; paired_poles := []; pz_gain := 1 |}.
(* filter_poles_and_zeros.cc:79-93 *)
Definition add_pole (p : R) (f : pole_zero) : pole_zero :=
  {| lone_zeros := lone_zeros f; lone_poles := lone_poles f ++ [p]; paired_zeros := paired_zeros f;
     paired_poles := paired_poles f; pz_gain := pz_gain f |}.
Definition add_pole_pair (p : C) (f : pole_zero) : pole_zero :=
  {| lone_zeros := lone_zeros f; lone_poles := lone_poles f; paired_zeros := paired_zeros f;
     paired_poles := paired_poles f ++ [p]; pz_gain := pz_gain f |}.
Definition add_zero (z : R) (f : pole_zero) : pole_zero :=
  {| lone_zeros := lone_zeros f ++ [z]; lone_poles := lone_poles f; paired_zeros := paired_zeros f;
     paired_poles := paired_poles f; pz_gain := pz_gain f |}.
Definition add_zero_pair (z : C) (f : pole_zero) : pole_zero :=
  {| lone_zeros := lone_zeros f; lone_poles := lone_poles f; paired_zeros := paired_zeros f ++ [z];
     paired_poles := paired_poles f; pz_gain := pz_gain f |}.
(* filter_poles_and_zeros.h:56-59 *)
Definition set_gain (g : R) (f : pole_zero) : pole_zero :=
  {| lone_zeros := lone_zeros f; lone_poles := lone_poles f; paired_zeros := paired_zeros f;
     paired_poles := paired_poles f; pz_gain := g |}.

(* response /= x for every x; dividing by zero gives infinity or NaN *)
Fixpoint divide_all (l : list C) (response : C) : outcome C :=
  match l with
  | [] => Ok response
  | x :: l' => oguard (negb (Ceqb x (RtoC 0))) (divide_all l' (Cdiv response x))
  end.
(* filter_poles_and_zeros.cc:95-111 *)
Definition pair_factor (s p : C) : C := Cmult (Cminus p s) (Cminus (Cconj p) s).
Definition eval (f : pole_zero) (s : C) : outcome C :=
  obind (divide_all (map (fun p => Cminus (RtoC p) s) (lone_poles f)) (RtoC (pz_gain f))) (fun r1 =>
  obind (divide_all (map (pair_factor s) (paired_poles f)) r1) (fun r2 =>
  let r3 := fold_left (fun r z => Cmult r (Cminus (RtoC z) s)) (lone_zeros f) r2 in
  Ok (fold_left (fun r z => Cmult r (pair_factor s z)) (paired_zeros f) r3))).

(* filter_poles_and_zeros.cc:113-123; int, the number of roots is assumed to fit *)
Definition poles_degree (f : pole_zero) : Z := Z.of_nat (length (lone_poles f)) + 2 * Z.of_nat (length (paired_poles f)).
Definition zeros_degree (f : pole_zero) : Z := Z.of_nat (length (lone_zeros f)) + 2 * Z.of_nat (length (paired_zeros f)).
Definition relative_degree (f : pole_zero) : Z := poles_degree f - zeros_degree f.

(* filter_poles_and_zeros.cc:36-47.  The DCHECK of line 42 is about the two roots being
   conjugates of each other, which the only caller makes them. *)
Definition from_lone (r1 r2 : R) : poly := (1, - r1 - r2, r1 * r2).
Definition from_pair (r : C) : poly := (1, - fst (Cplus r (Cconj r)), fst (Cmult r (Cconj r))).
(* filter_poles_and_zeros.cc:53-76.  The counts of roots already used are represented by the
   lists of roots still to be used. *)
Definition next_poly (paired : list C) (lone : list R) : poly * (list C * list R) :=
  match paired, lone with
  | r :: paired', _ => (from_pair r, (paired', lone))
  | [], r1 :: r2 :: lone' => (from_lone r1 r2, ([], lone'))
  | [], [r] => (from_lone r 0, ([], []))
  | [], [] => ((1, 0, 0), ([], []))
  end.
(* filter_poles_and_zeros.cc:141-148, the while loop; every iteration uses up at least one root,
   so that the number of roots is enough fuel *)
Fixpoint pz_stages (fuel : nat) (pz : list C) (lz : list R) (pp : list C) (lp : list R) : list (coeffs R) :=
  match fuel with
  | O => []
  | S fuel' =>
      if (length lz + length pz + (length lp + length pp) =? 0)%nat then [] else
      let '(b, (pz', lz')) := next_poly pz lz in
      let '(a, (pp', lp')) := next_poly pp lp in
      make_coeffs b a :: pz_stages fuel' pz' lz' pp' lp'
  end.
Definition total_roots (f : pole_zero) : nat :=
  (length (lone_zeros f) + length (paired_zeros f) + (length (lone_poles f) + length (paired_poles f)))%nat.
(* filter_poles_and_zeros.cc:125-151.  The stages are computed first and then appended one by one;
   the code interleaves the two. *)
Definition get_coefficients (f : pole_zero) : outcome (list (coeffs R)) :=
  if (total_roots f =? 0)%nat then Ok [identity_coeffs] else
  obind (appends tolerance [identity_coeffs]
           (pz_stages (total_roots f) (paired_zeros f) (lone_zeros f) (paired_poles f) (lone_poles f)))
        (fun cs => Ok (adjust_gain (pz_gain f) cs)).

(* for (...) f.Add...(x) *)
Definition add_all {A} (add : A -> pole_zero -> pole_zero) (l : list A) (f : pole_zero) : pole_zero :=
  fold_left (fun f x => add x f) l f.
(* all roots are different from x *)
Definition avoids (x : C) (f : pole_zero) : bool :=
  forallb (fun r => negb (Ceqb (RtoC r) x)) (lone_poles f ++ lone_zeros f) &&
  forallb (fun r => negb (Ceqb r x)) (paired_poles f ++ paired_zeros f).

(* discretization.cc:76-106 *)
Definition bilinear_root (K : R) (r : C) : C := Cdiv (Cplus (RtoC K) r) (Cminus (RtoC K) r).
Definition bilinear_pz (f : pole_zero) (fs match_hz : R) : outcome pole_zero :=
  let K := compute_K match_hz fs in
  oguard (avoids (RtoC K) f)
  (let d1 := add_all add_pole (map (fun p => (K + p) / (K - p)) (lone_poles f)) pz_new in
   let d2 := add_all add_pole_pair (map (bilinear_root K) (paired_poles f)) d1 in
   let d3 := add_all add_zero (map (fun z => (K + z) / (K - z)) (lone_zeros f)) d2 in
   let d4 := add_all add_zero_pair (map (bilinear_root K) (paired_zeros f)) d3 in
   let d5 := add_all add_zero (repeat (-1) (Z.to_nat (relative_degree f))) d4 in
   obind (eval f (RtoC K)) (fun h => Ok (set_gain (pz_gain d5 * Cmod h) d5))).

(* biquad_filter_design_pole_zero.cc:37-58 *)
Definition map_frequency (g : C -> C) (f : pole_zero) : pole_zero :=
  let f1 := add_all add_pole (map (fun p => fst (g (RtoC p))) (lone_poles f)) pz_new in
  let f2 := add_all add_pole_pair (map g (paired_poles f)) f1 in
  let f3 := add_all add_zero (map (fun z => fst (g (RtoC z))) (lone_zeros f)) f2 in
  let f4 := add_all add_zero_pair (map g (paired_zeros f)) f3 in
  set_gain (pz_gain f) f4.
(* std::sqrt of a complex number: the root in the right half plane, or on the nonnegative
   imaginary axis *)
Definition complex_sqrt (z : C) : C :=
  (sqrt ((Cmod z + fst z) / 2), if Rltb (snd z) 0 then - sqrt ((Cmod z - fst z) / 2) else sqrt ((Cmod z - fst z) / 2)).
(* biquad_filter_design_pole_zero.cc:60-88 *)
Definition shifted_plus (c : R) (p : C) : C := Cplus p (complex_sqrt (Cminus (Cmult p p) (RtoC (c * c)))).
Definition shifted_minus (c : R) (p : C) : C := Cminus p (complex_sqrt (Cminus (Cmult p p) (RtoC (c * c)))).
Definition shift_roots (c : R) (f : pole_zero) : pole_zero :=
  let f1 := add_all add_pole_pair (map (fun p => shifted_plus c (RtoC p)) (lone_poles f)) pz_new in
  let f2 := add_all (fun p h => add_pole_pair (shifted_minus c p) (add_pole_pair (shifted_plus c p) h)) (paired_poles f) f1 in
  let f3 := add_all add_zero_pair (map (fun z => shifted_plus c (RtoC z)) (lone_zeros f)) f2 in
  let f4 := add_all (fun z h => add_zero_pair (shifted_minus c z) (add_zero_pair (shifted_plus c z) h)) (paired_zeros f) f3 in
  set_gain (pz_gain f) f4.

(* biquad_filter_design_pole_zero.cc:92-113; prototype is the result of GetAnalogPrototype *)
Definition lowpass_filter (prototype : outcome pole_zero) (fs fc : R) : outcome (list (coeffs R)) :=
  ocheck (Rltb 0 fs) (ocheck (Rleb 0 fc) (ocheck (Rltb fc (fs / 2))
  (let w := bilinear_prewarp fc fs in
   obind prototype (fun p =>
   let m := map_frequency (fun s => Cmult (RtoC w) s) p in
   let m' := set_gain (pz_gain m * powerRZ w (relative_degree p)) m in
   obind (bilinear_pz m' fs 0) get_coefficients)))).
(* biquad_filter_design_pole_zero.cc:115-138 *)
Definition highpass_filter (prototype : outcome pole_zero) (fs fc : R) : outcome (list (coeffs R)) :=
  ocheck (Rltb 0 fs) (ocheck (Rleb 0 fc) (ocheck (Rltb fc (fs / 2))
  (let w := bilinear_prewarp fc fs in
   obind prototype (fun p =>
   oguard (avoids (RtoC 0) p)
   (let m := map_frequency (fun s => Cdiv (RtoC w) s) p in
    let m1 := add_all add_zero (repeat 0 (Z.to_nat (relative_degree m))) m in
    obind (eval p (RtoC 0)) (fun h =>
    obind (bilinear_pz (set_gain (Cmod h) m1) fs 0) get_coefficients)))))).
(* biquad_filter_design_pole_zero.cc:140-176 *)
Definition bandpass_filter (prototype : outcome pole_zero) (fs low high : R) : outcome (list (coeffs R)) :=
  ocheck (Rltb 0 fs) (ocheck (Rleb 0 low) (ocheck (Rltb low high) (ocheck (Rltb high (fs / 2))
  (let wl := bilinear_prewarp low fs in
   let wh := bilinear_prewarp high fs in
   let bw := wh - wl in
   let center := sqrt (wh * wl) in
   obind prototype (fun p =>
   let m := map_frequency (fun s => Cdiv (Cmult (RtoC bw) s) (RtoC 2)) p in
   let degree := relative_degree m in
   let m1 := shift_roots center m in
   let m2 := add_all add_zero (repeat 0 (Z.to_nat degree)) m1 in
   let m3 := set_gain (pz_gain m2 * powerRZ bw degree) m2 in
   obind (bilinear_pz m3 fs 0) get_coefficients))))).
(* biquad_filter_design_pole_zero.cc:178-213 *)
Definition bandstop_filter (prototype : outcome pole_zero) (fs low high : R) : outcome (list (coeffs R)) :=
  ocheck (Rltb 0 fs) (ocheck (Rleb 0 low) (ocheck (Rltb low high) (ocheck (Rltb high (fs / 2))
  (let wl := bilinear_prewarp low fs in
   let wh := bilinear_prewarp high fs in
   let bw := wh - wl in
   let center := sqrt (wh * wl) in
   obind prototype (fun p =>
   oguard (avoids (RtoC 0) p)
   (let m := map_frequency (fun s => Cdiv (Cdiv (RtoC bw) s) (RtoC 2)) p in
    let degree := relative_degree m in
    let m1 := shift_roots center m in
    let m2 := add_all add_zero_pair (repeat (0, center) (Z.to_nat degree)) m1 in
    obind (eval p (RtoC 0)) (fun h =>
    obind (bilinear_pz (set_gain (Cmod h) m2) fs 0) get_coefficients))))))).

(* SetGain(1.0 / std::abs(Eval(0.0))), biquad_filter_design_pole_zero.cc:233, 267 and 293 *)
Definition unit_dc_gain (f : pole_zero) : outcome pole_zero :=
  obind (eval f (RtoC 0)) (fun h => oguard (negb (Reqb (Cmod h) 0)) (Ok (set_gain (1 / Cmod h) f))).

(* biquad_filter_design_pole_zero.cc:216-235; i counts from 0 to order / 2 - 1, % and / are C's *)
Definition butterworth_pole (order : Z) (i : nat) : C :=
  let odd := negb (Z.rem order 2 =? 0)%Z in
  let angle := PI - PI / IZR order * (INR i + 1 - (if odd then 0 else 1) * (1 / 2)) in
  (cos angle, sin angle).
Definition butterworth_prototype (order : Z) : outcome pole_zero :=
  ocheck (1 <=? order)%Z
  (let odd := negb (Z.rem order 2 =? 0)%Z in
   let f1 := add_all add_pole_pair (map (butterworth_pole order) (seq 0 (Z.to_nat (Z.quot order 2)))) pz_new in
   let f2 := if odd then add_pole (-1) f1 else f1 in
   unit_dc_gain f2).

(* the values of i in for (int i = order - 1; i >= 0; i -= 2) *)
Definition chebyshev_indices (order : Z) : list Z :=
  map (fun j => (order - 1 - 2 * Z.of_nat j)%Z) (seq 0 (Z.to_nat (Z.quot (order + 1) 2))).
(* sinh of a complex number *)
Definition complex_sinh (z : C) : C := (sinh (fst z) * cos (snd z), cosh (fst z) * sin (snd z)).
Definition chebyshev_theta (order i : Z) : R := PI * IZR i / (2 * IZR order).
(* biquad_filter_design_pole_zero.cc:237-273 *)
Definition chebyshev1_prototype (order : Z) (ripple_db : R) : outcome pole_zero :=
  ocheck (1 <=? order)%Z (ocheck (Rltb 0 ripple_db)
  (let epsilon := sqrt (Rpower 10 (ripple_db / 10) - 1) in
   let mu := arcsinh (1 / epsilon) / IZR order in
   let f1 := fold_left (fun f i =>
       let pole := Copp (complex_sinh (mu, - chebyshev_theta order i)) in
       if (0 <? i)%Z then add_pole_pair pole f else add_pole (fst pole) f)
     (chebyshev_indices order) pz_new in
   obind (unit_dc_gain f1) (fun f2 =>
   Ok (if (Z.rem order 2 =? 0)%Z then set_gain (pz_gain f2 / sqrt (1 + epsilon * epsilon)) f2 else f2)))).
(* biquad_filter_design_pole_zero.cc:275-295.  sinh(mu + i theta) and sin(theta) are not zero *)
Definition chebyshev2_prototype (order : Z) (ripple_db : R) : outcome pole_zero :=
  ocheck (1 <=? order)%Z (ocheck (Rltb 0 ripple_db)
  (let epsilon := 1 / sqrt (Rpower 10 (ripple_db / 10) - 1) in
   let mu := arcsinh (1 / epsilon) / IZR order in
   let f1 := fold_left (fun f i =>
       let theta := chebyshev_theta order i in
       let pole := Cdiv (RtoC (-1)) (complex_sinh (mu, theta)) in
       if (0 <? i)%Z then add_pole_pair pole (add_zero_pair (0, 1 / sin theta) f) else add_pole (fst pole) f)
     (chebyshev_indices order) pz_new in
   unit_dc_gain f1)).

(* crossover.cc:23-29; lowpass and highpass *)
Definition make_butterworth (order : Z) (fc fs : R) : outcome (list (coeffs R) * list (coeffs R)) :=
  obind (lowpass_filter (butterworth_prototype order) fs fc) (fun lowpass =>
  obind (highpass_filter (butterworth_prototype order) fs fc) (fun highpass =>
  Ok (lowpass, highpass))).
(* crossover.cc:39-42; reading past the end of a cascade is undefined *)
Fixpoint append_copies (is : list nat) (lh : list (coeffs R) * list (coeffs R)) : outcome (list (coeffs R) * list (coeffs R)) :=
  match is with
  | [] => Ok lh
  | i :: is' =>
      oguard (i <? length (fst lh))%nat
      (obind (append_biquad tolerance (fst lh) (nth i (fst lh) identity_coeffs)) (fun lowpass =>
       oguard (i <? length (snd lh))%nat
       (obind (append_biquad tolerance (snd lh) (nth i (snd lh) identity_coeffs)) (fun highpass =>
        append_copies is' (lowpass, highpass)))))
  end.
(* crossover.cc:33-43 *)
Definition make_linkwitz_riley (order : Z) (fc fs : R) : outcome (list (coeffs R) * list (coeffs R)) :=
  ocheck (Z.rem order 2 =? 0)%Z
  (obind (make_butterworth (Z.quot order 2) fc fs) (fun lh =>
   append_copies (seq 0 (length (fst lh))) lh)).
(* crossover.h:31-38 *)
Inductive crossover_type : Type := Butterworth_crossover | Linkwitz_Riley_crossover.
(* crossover.cc:48-72; GetLowpassCoefficients and GetHighpassCoefficients *)
Definition crossover (type : crossover_type) (order : Z) (fc fs : R) : outcome (list (coeffs R) * list (coeffs R)) :=
  ocheck (0 <? order)%Z (ocheck (Rltb 0 fc) (ocheck (Rltb fc (fs / 2))
  (obind (match type with
          | Butterworth_crossover => make_butterworth order fc fs
          | Linkwitz_Riley_crossover => make_linkwitz_riley order fc fs
          end) (fun lh =>
   Ok (if (Z.rem (order - 2) 4 =? 0)%Z then (fst lh, adjust_gain (-1) (snd lh)) else lh))))).
