(* Model of the fit of the parametric equaliser, parametric_equalizer.cc:34-150 and 270-459 and
   parametric_equalizer.h:100-150, over the real numbers, on top of the models of the equaliser, of
   the Nelder-Mead searcher and of the decibel conversions.  Eigen's LDLT decomposition is the
   argument [ldlt] (matrix by rows, right hand side).  Division by zero and the logarithm of a
   number that is not positive are [Undef]. *)
From Verif Require Import Common RealUtil BiquadModel DesignModel CascadeModel EqualizerModel PeakModel DecibelsModel NelderMeadModel CInt.
Local Open Scope R_scope.

(* parametric_equalizer.h:100-112 *)
Record convergence := { inner_iterations : Z; threshold_db : R }.
(* parametric_equalizer.h:114-148 *)
Record fit_settings := {
  min_frequency : R; max_frequency : R; min_quality : R; max_quality : R;
  max_evaluations : Z; rms_tol : R; rms_stddev_tol : R; inner : convergence }.
(* parametric_equalizer.h:101-102 and 115-127: the defaults *)
Definition default_convergence : convergence := {| inner_iterations := 2; threshold_db := 2 / 10 |}.
Definition default_settings : fit_settings :=
  {| min_frequency := 1; max_frequency := 24000; min_quality := 1 / 10; max_quality := 5; max_evaluations := 1500;
     rms_tol := 1 / 10; rms_stddev_tol := 0; inner := {| inner_iterations := 3; threshold_db := 0 / 2 |} |}.

(* the loops over stages or frequencies: the first failure is the result *)
Fixpoint each {A B} (f : A -> outcome B) (l : list A) : outcome (list B) :=
  match l with [] => Ok [] | x :: r => y <- f x ;; ys <- each f r ;; Ok (y :: ys) end.

(* parametric_equalizer.cc:312-314 with biquad_filter_coefficients.h:110-112 *)
Definition stage_db (fs f : R) (c : coeffs R) : outcome R :=
  g <- gain_magnitude c (2 * PI * f / fs) ;; amplitude_to_db g.
(* parametric_equalizer.cc:310-318: the row of stage_magnitudes_db for one frequency (the code fills
   the matrix by columns; the order is visible only in which of two failures comes first) *)
Definition matrix_row (fs : R) (cs : list (coeffs R)) (constant f : R) : outcome (list R) :=
  row <- each (stage_db fs f) cs ;; Ok (row ++ [constant]).
(* parametric_equalizer.cc:325-327: n = num_filters_and_gain *)
Definition gramian (n : nat) (rows : list (list R)) : list (list R) :=
  map (fun i => map (fun j => total (map (fun r => nth i r 0 * nth j r 0) rows) + (if (i =? j)%nat then 1 / 10000 else 0))
                    (seq 0 n)) (seq 0 n).
(* parametric_equalizer.cc:329: the product with target_db *)
Definition projected (n : nat) (rows : list (list R)) (targets : list R) : list R :=
  map (fun i => total (vmap2 (fun r t => nth i r 0 * t) rows targets)) (seq 0 n).
(* parametric_equalizer.cc:332 *)
Definition largest_change (g g0 : list R) : R := fold_right Rmax 0 (map Rabs (vminus g g0)).

Section Fit.
Variable ldlt : list (list R) -> list R -> list R.
Variables (freqs targets : list R) (fs : R).

(* parametric_equalizer.cc:303-342; coeffs[k] is read below the number of enabled stages, if there is
   a frequency *)
Fixpoint gains_loop (iterations : nat) (threshold : R) (gains : list R) (e : equalizer) : outcome equalizer :=
  match iterations with
  | O => Ok e
  | S it =>
      let n := (length gains - 1)%nat in
      let e1 := set_gain_db e 0 in
      cs <- get_coefficients e1 fs ;;
      oguard ((length freqs =? 0) || (n <=? length cs))%nat (
      rows <- each (matrix_row fs (firstn n cs) (last gains 0)) freqs ;;
      let g := vmap2 Rmult (ldlt (gramian (S n) rows) (projected (S n) rows targets)) gains in
      e2 <- set_gains e1 g ;;
      if Rltb (largest_change g gains) threshold then Ok e2 else gains_loop it threshold g e2)
  end.
(* parametric_equalizer.cc:270-344 (the message of lines 285-291 left out) *)
Definition match_gains (p : convergence) (e : equalizer) : outcome equalizer :=
  ocheck (length freqs =? length targets)%nat (
  let gains := repeat 6 (1 + num_enabled e) in
  e1 <- set_gains e gains ;;
  gains_loop (Z.to_nat (inner_iterations p)) (threshold_db p) gains e1).

(* parametric_equalizer.cc:363-367 *)
Fixpoint combined_gain (cs : list (coeffs R)) (f acc : R) : outcome R :=
  match cs with [] => Ok acc | c :: r => g <- gain_magnitude c (2 * PI * f / fs) ;; combined_gain r f (acc * g) end.
(* parametric_equalizer.cc:355-371 *)
Definition gain_magnitudes (e : equalizer) : outcome (list R) :=
  cs <- get_coefficients e fs ;; each (fun f => combined_gain cs f 1) freqs.

(* parametric_equalizer.cc:63-97 *)
Definition with_parameters (s : stage) (f q : R) : stage :=
  {| type := type s; frequency_hz := f; quality_factor := q; stage_gain_db := stage_gain_db s |}.
Fixpoint set_each (l : list (stage * bool)) (fl ql : list R) : list (stage * bool) :=
  match l, fl, ql with
  | (s, b) :: r, f :: fr, q :: qr => (with_parameters s (exp f) q, b) :: set_each r fr qr
  | _, _, _ => []
  end.
Definition set_parameters (e : equalizer) (x : list R) : outcome equalizer :=
  let half := num_stages e in
  ocheck (length x =? 2 * half)%nat
  (Ok {| gain_db := gain_db e; stages := set_each (stages e) (firstn half x) (skipn half x) |}).
(* parametric_equalizer.cc:124-148 *)
Definition get_parameters (e : equalizer) : outcome (list R) :=
  logs <- each (fun p : stage * bool => on_positive (frequency_hz (fst p)) (ln (frequency_hz (fst p)))) (stages e) ;;
  Ok (logs ++ map (fun p => quality_factor (fst p)) (stages e)).

(* parametric_equalizer.cc:428-446: steps 3 and 4 of the objective function *)
Definition rms_error (e : equalizer) : outcome R :=
  g <- gain_magnitudes e ;;
  db <- amplitude_to_db_array g ;;
  oguard (negb (length targets =? 0)%nat)
  (Ok (sqrt (total (map Rsqr (vminus db targets)) / INR (length targets)))).
(* parametric_equalizer.cc:417-448: the value and what becomes of eq_params *)
Definition rms_objective (p : convergence) (e : equalizer) (x : list R) : outcome (R * equalizer) :=
  e1 <- set_parameters e x ;;
  e2 <- match_gains p e1 ;;
  r <- rms_error e2 ;;
  Ok (r, e2).

(* the objective as the searcher sees it; what it returns for a call that does not return is
   irrelevant, see [fit_equalizer] *)
Definition search_value (p : convergence) (e : equalizer) (x : list R) : ext :=
  match rms_objective p e x with Ok (r, _) => Fin r | _ => PInf end.

(* parametric_equalizer.cc:373-459.  The lambda changes eq_params at every call, but overwrites
   everything it reads except the types and the enabled flags, which it keeps (fit_objective_shape
   in EqualizerFitProofs.v), so the model calls it with the original parameters.  The calls the
   search makes are recorded by the model of the searcher; if one of them fails the result is the
   first failure.  [junk] is the uninitialised simplex. *)
Definition fit_equalizer (junk : list (list R)) (p : fit_settings) (e : equalizer) : outcome (R * equalizer) :=
  let n := num_stages e in
  s0 <- nm_new (2 * n) junk ;;
  x0 <- get_parameters e ;;
  ocheck (length x0 =? 2 * n)%nat (
  s1 <- set_guess s0 x0 (1 / 10) ;;
  ocheck (Rltb 0 (min_frequency p)) (ocheck (Rltb 0 (max_frequency p)) (ocheck (Rltb (min_frequency p) (max_frequency p)) (
  s2 <- set_lower s1 (repeat (Some (ln (min_frequency p))) n ++ repeat (Some (min_quality p)) n) ;;
  s3 <- set_upper s2 (repeat (Some (ln (max_frequency p))) n ++ repeat (Some (max_quality p)) n) ;;
  let s4 := set_objective s3 (search_value (inner p) e) in
  r <- minimize Fin (Z.to_nat (max_evaluations p)) (max_evaluations p) (rms_stddev_tol p) (Some (rms_tol p)) s4 ;;
  match r with
  | None => Undef
  | Some s5 =>
      _ <- each (rms_objective (inner p) e) (rev (calls s5)) ;;
      x <- get_argmin s5 ;;
      rms_objective (inner p) e x
  end)))).
End Fit.
