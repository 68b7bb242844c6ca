(* Model of the peak search, pole extraction and decay time of
   audio/linear_filters/biquad_filter_coefficients.{h,cc} and of the quadratic
   solver of audio/dsp/porting.cc, over the real numbers.  Rounding is not
   modelled; a division by zero is Undef. *)
From Verif Require Import Common CInt RealUtil BiquadModel CascadeModel.
From Coquelicot Require Import Complex.
Local Open Scope R_scope.

(* DBL_EPSILON and std::numeric_limits<double>::epsilon(): 2^-52 *)
Definition dbl_epsilon : R := / 4503599627370496.

(* porting.h:49 with the roots stored in *r1 and *r2; None is HUGE_VAL *)
Inductive quadratic_roots :=
  | NoRealRoots
  | Ambiguous (r1 r2 : R)
  | TwoRealRoots (r1 : R) (r2 : option R).

(* porting.cc:23-69 *)
Definition real_roots_for_quadratic (a b c : R) : quadratic_roots :=
  if Reqb a 0 then
    if Reqb b 0 then
      if Reqb c 0 then Ambiguous 0 0 else NoRealRoots
    else TwoRealRoots (- c / b) None
  else
    let discriminant := b * b - 4 * a * c in
    if Rleb (Rabs discriminant) (dbl_epsilon * Rmax (2 * b * b) (Rabs (4 * a * c))) then
      Ambiguous (- b / 2 / a) (- b / 2 / a)
    else if Rltb discriminant 0 then NoRealRoots
    else
      let q := - (1 / 2) * (b + (if Rleb 0 b then sqrt discriminant else - sqrt discriminant)) in
      TwoRealRoots (q / a) (Some (c / q)).

(* std::polar(1.0, w) *)
Definition unit_polar (w : R) : C := (cos w, sin w).

(* biquad_filter_coefficients.h:92-95 *)
Definition eval_transfer (c : coeffs R) (z : C) : outcome C :=
  let den := ((RtoC (a0 c) * z + RtoC (a1 c)) * z + RtoC (a2 c))%C in
  oguard (negb (Reqb (fst den) 0 && Reqb (snd den) 0))
  (Ok (((RtoC (b0 c) * z + RtoC (b1 c)) * z + RtoC (b2 c)) / den)%C).
(* biquad_filter_coefficients.h:105-108 *)
Definition gain_magnitude (c : coeffs R) (w : R) : outcome R :=
  h <- eval_transfer c (unit_polar w) ;; Ok (Cmod h).

(* biquad_filter_coefficients.cc:302-310: the search over the candidates *)
Fixpoint best_candidate (c : coeffs R) (ws : list R) (freq max_gain : R) : outcome (R * R) :=
  match ws with
  | [] => Ok (freq, max_gain)
  | w :: r =>
      gain <- gain_magnitude c w ;;
      if Rltb max_gain gain then best_candidate c r w gain else best_candidate c r freq max_gain
  end.
(* biquad_filter_coefficients.cc:290-294, one root *)
Definition interior (root : R) : list R := if Rltb (Rabs root) 1 then [acos root] else [].

(* biquad_filter_coefficients.cc:216-312 *)
Definition find_peak (c : coeffs R) : outcome (R * R) :=
  let B2 := b2 c * b0 c in
  let B1 := b1 c * (b2 c + b0 c) in
  let B0 := b2 c * b2 c + b1 c * b1 c + b0 c * b0 c in
  let A2 := a2 c * a0 c in
  let A1 := a1 c * (a2 c + a0 c) in
  let A0 := a2 c * a2 c + a1 c * a1 c + a0 c * a0 c in
  let deriv_a := 4 * ((2 * B2 * A1 + B1 * A2) - (2 * A2 * B1 + A1 * B2)) in
  let deriv_b := 2 * ((A1 * B1 + 2 * B2 * (A0 - 2 * A2)) - (B1 * A1 + 2 * A2 * (B0 - 2 * B2))) in
  let deriv_c := B1 * (A0 - 2 * A2) - A1 * (B0 - 2 * B2) in
  let inner := match real_roots_for_quadratic deriv_a deriv_b deriv_c with
    | NoRealRoots => []
    | Ambiguous r1 r2 => interior r2 ++ interior r1
    | TwoRealRoots r1 None => interior r1
    | TwoRealRoots r1 (Some r2) => interior r2 ++ interior r1
    end in
  best_candidate c (0 :: inner ++ [PI]) 0 0.

(* biquad_filter_coefficients.h:143-147 *)
Definition adjust_stage (g : R) (c : coeffs R) : coeffs R := set_b c (map (fun x => x * g) (vec_b c)).
(* biquad_filter_coefficients.h:133-136 *)
Definition set_gain_at_frequency (c : coeffs R) (gain w : R) : outcome (coeffs R) :=
  old_gain <- gain_magnitude c w ;;
  oguard (negb (Reqb old_gain 0)) (Ok (adjust_stage (gain / old_gain) c)).
(* biquad_filter_coefficients.h:138-141 *)
Definition set_peak_gain (c : coeffs R) (new_peak_gain : R) : outcome (coeffs R) :=
  p <- find_peak c ;; set_gain_at_frequency c new_peak_gain (fst p).

(* biquad_filter_coefficients.cc:314-328; std::sqrt of a complex number with
   imaginary part +0 *)
Definition sqrt_of_real (d : R) : C := if Rleb 0 d then (sqrt d, 0) else (0, sqrt (- d)).
Definition get_poles (c : coeffs R) : outcome (C * C) :=
  let discriminant := a1 c * a1 c - 4 * a0 c * a2 c in
  oguard (negb (Reqb (a0 c) 0))
  (if Rleb (Rabs discriminant) (dbl_epsilon * Rmax (2 * a1 c * a1 c) (Rabs (4 * a0 c * a2 c))) then
     let pole := - a1 c / (2 * a0 c) in Ok (RtoC pole, RtoC pole)
   else
     let sqrt_d := sqrt_of_real discriminant in
     let q := (RtoC (- (1 / 2)) * (RtoC (a1 c) + (if Rltb (a1 c) 0 then - sqrt_d else sqrt_d)))%C in
     oguard (negb (Reqb (fst q) 0 && Reqb (snd q) 0))
     (Ok (q / RtoC (a0 c), RtoC (a2 c) / q)%C)).

(* biquad_filter_coefficients.cc:330-381; None is infinity.  When both poles are
   zero log10 gives -inf, the rate is +inf and decay_db / rate is 0. *)
Definition estimate_decay_time (c : coeffs R) (decay_db : R) : outcome (option R) :=
  '(p, q) <- get_poles c ;;
  let m := Rmax (Cmod p) (Cmod q) in
  if Rleb 1 m then Ok None
  else if Reqb m 0 then Ok (Some 2)
  else
    let decay_db_per_sample := -20 * (ln m / ln 10) in
    Ok (Some (decay_db / decay_db_per_sample + 2)).

Section Bisection.
(* the std::function; Undef where it is not defined *)
Context (f : R -> outcome R).

(* biquad_filter_coefficients.cc:189-196: k counts up, `left` more values *)
Fixpoint grid_search (left : nat) (k : Z) (minimum step peak_frequency peak_gain : R)
    : outcome (R * R) :=
  match left with
  | O => Ok (peak_frequency, peak_gain)
  | S left' =>
      let frequency := minimum + IZR k * step in
      gain <- f frequency ;;
      if Rltb peak_gain gain then grid_search left' (k + 1) minimum step frequency gain
      else grid_search left' (k + 1) minimum step peak_frequency peak_gain
  end.
(* biquad_filter_coefficients.cc:199-213; `left` more steps *)
Fixpoint bisect (left : nat) (step peak_frequency peak_gain : R) : outcome (R * R) :=
  match left with
  | O => Ok (peak_frequency, peak_gain)
  | S left' =>
      let step := step / 2 in
      right_gain <- f (peak_frequency + step) ;;
      '(pf, pg) <- (if Rltb peak_gain right_gain then Ok (peak_frequency + step, right_gain)
        else
          left_gain <- f (peak_frequency - step) ;;
          if Rltb peak_gain left_gain then Ok (peak_frequency - step, left_gain)
          else Ok (peak_frequency, peak_gain)) ;;
      if Rltb step (1 / 1000000000 + 5 / 1000000 * pf) then Ok (pf, pg)
      else bisect left' step pf pg
  end.
(* biquad_filter_coefficients.cc:179-215 *)
Definition find_peak_by_bisection (minimum maximum : R) : outcome (R * R) :=
  ocheck (Rltb minimum maximum)
  (let step := (maximum - minimum) / 99 in
   '(pf, pg) <- grid_search 98 1 minimum step 0 0 ;;
   bisect 20 step pf pg).
End Bisection.

(* biquad_filter_coefficients.cc:451-458 *)
Fixpoint cascade_eval (cs : list (coeffs R)) (z acc : C) : outcome C :=
  match cs with
  | [] => Ok acc
  | c :: r => h <- eval_transfer c z ;; cascade_eval r z (acc * h)%C
  end.
(* biquad_filter_coefficients.h:239-242 *)
Definition cascade_gain (cs : list (coeffs R)) (w : R) : outcome R :=
  h <- cascade_eval cs (unit_polar w) (RtoC 1) ;; Ok (Cmod h).
(* biquad_filter_coefficients.cc:460-466 *)
Definition cascade_find_peak (cs : list (coeffs R)) : outcome (R * R) :=
  find_peak_by_bisection (cascade_gain cs) 0 PI.
(* biquad_filter_coefficients.h:258-261 *)
Definition cascade_set_gain_at_frequency (cs : list (coeffs R)) (gain w : R) : outcome (list (coeffs R)) :=
  old_gain <- cascade_gain cs w ;;
  oguard (negb (Reqb old_gain 0)) (Ok (adjust_gain (gain / old_gain) cs)).
(* biquad_filter_coefficients.h:263-266 *)
Definition cascade_set_peak_gain (cs : list (coeffs R)) (new_peak_gain : R) : outcome (list (coeffs R)) :=
  p <- cascade_find_peak cs ;; cascade_set_gain_at_frequency cs new_peak_gain (fst p).
