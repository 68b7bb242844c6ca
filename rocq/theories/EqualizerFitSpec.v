(* What fitting the parametric equaliser means: regularised linear least squares for the gains,
   repeated from the gains found; root mean square error in decibels; frequencies and quality
   factors within the given ranges. *)
From Verif Require Import Common RealUtil BiquadModel DesignSpec CascadeSpec EqualizerModel EqualizerFitModel.
From Coquelicot Require Import Complex.
Local Open Scope R_scope.

(* sum of f 0 ... f (n-1) *)
Fixpoint sumn (n : nat) (f : nat -> R) : R := match n with O => 0 | S k => sumn k f + f k end.

(* |A y - t|^2 + 1e-4 |y|^2 for a matrix with m rows and n columns *)
Definition cost (m n : nat) (A : nat -> nat -> R) (t y : nat -> R) : R :=
  sumn m (fun i => Rsqr (sumn n (fun k => A i k * y k) - t i)) + / 10000 * sumn n (fun k => Rsqr (y k)).
(* x is the only minimiser *)
Definition minimises (m n : nat) (A : nat -> nat -> R) (t x : nat -> R) : Prop :=
  forall y, cost m n A t x <= cost m n A t y /\
            (cost m n A t y <= cost m n A t x -> forall k, (k < n)%nat -> y k = x k).

(* a is the magnitude response of a stage in decibels at frequency f *)
Definition decibels_at (fs f : R) (c : coeffs R) (a : R) : Prop :=
  exists h : C, has_value c (on_circle f fs) h /\ h <> RtoC 0 /\ a = 20 * (ln (Cmod h) / ln 10).

(* the gains of the stages followed by the overall gain; everything but the gains *)
Definition gains_of (e : equalizer) : list R := map (fun p => stage_gain_db (fst p)) (stages e) ++ [gain_db e].
Definition shape_of (e : equalizer) : list (stage_type * R * R * bool) :=
  map (fun p => (type (fst p), frequency_hz (fst p), quality_factor (fst p), snd p)) (stages e).
(* types and enabled flags *)
Definition kinds_of (e : equalizer) : list (stage_type * bool) := map (fun p => (type (fst p), snd p)) (stages e).

(* One pass from the gains g to the gains g' of an equaliser like e: the decibel responses of the
   stages of the filter at gains g are the columns of A, the last column is the overall gain; the
   gains are multiplied by the solution of the least squares problem. *)
Definition fit_pass (fs : R) (freqs targets : list R) (e : equalizer) (g g' : list R) : Prop :=
  exists e0 cs A x, let n := num_stages e in
    shape_of e0 = shape_of e /\ gains_of e0 = removelast g ++ [0] /\ get_coefficients e0 fs = Ok cs /\
    (freqs = [] \/ n <= length cs)%nat /\
    (forall m k f c, nth_error freqs m = Some f -> (k < n)%nat -> nth_error cs k = Some c -> decibels_at fs f c (A m k)) /\
    (forall m, A m n = last g 0) /\
    minimises (length freqs) (S n) A (fun i => nth i targets 0) x /\
    length g' = S n /\ forall k, (k <= n)%nat -> nth k g' 0 = x k * nth k g 0.
(* every gain changed by less than the threshold *)
Definition converged (threshold : R) (g g' : list R) : Prop :=
  0 < threshold /\ forall k, Rabs (nth k g' 0 - nth k g 0) < threshold.
(* at most the given number of passes, stopping early on convergence only *)
Inductive fit_run (fs : R) (freqs targets : list R) (e : equalizer) (threshold : R) : nat -> list R -> list R -> Prop :=
| fit_end g : fit_run fs freqs targets e threshold 0 g g
| fit_stop it g g' : fit_pass fs freqs targets e g g' -> converged threshold g g' -> fit_run fs freqs targets e threshold (S it) g g'
| fit_more it g g' g'' : fit_pass fs freqs targets e g g' -> ~ converged threshold g g' ->
    fit_run fs freqs targets e threshold it g' g'' -> fit_run fs freqs targets e threshold (S it) g g''.

(* a solver of linear systems with a symmetric positive definite matrix, given by rows *)
Definition entry (m : list (list R)) (i j : nat) : R := nth j (nth i m []) 0.
Definition spd (n : nat) (m : list (list R)) : Prop :=
  length m = n /\ (forall r, In r m -> length r = n) /\
  (forall i j, (i < n)%nat -> (j < n)%nat -> entry m i j = entry m j i) /\
  forall y, (exists k, (k < n)%nat /\ y k <> 0) -> 0 < sumn n (fun i => y i * sumn n (fun j => entry m i j * y j)).
Definition solves_spd (solve : list (list R) -> list R -> list R) : Prop :=
  forall n m b, spd n m -> length b = n ->
    length (solve m b) = n /\ forall i, (i < n)%nat -> sumn n (fun j => entry m i j * nth j (solve m b) 0) = nth i b 0.

(* r is the root mean square of the errors of the response, in decibels, over the frequencies *)
Definition rms_of (fs : R) (freqs targets : list R) (e : equalizer) (r : R) : Prop :=
  exists cs hs, get_coefficients e fs = Ok cs /\ length hs = length freqs /\
    (forall m f, nth_error freqs m = Some f -> cascade_value cs (on_circle f fs) (nth m hs (RtoC 0)) /\ nth m hs (RtoC 0) <> RtoC 0) /\
    0 <= r /\
    INR (length freqs) * (r * r) = sumn (length freqs) (fun m => Rsqr (20 * (ln (Cmod (nth m hs (RtoC 0))) / ln 10) - nth m targets 0)).

(* frequencies and quality factors in the ranges *)
Definition in_ranges (p : fit_settings) (e : equalizer) : Prop :=
  forall s b, In (s, b) (stages e) ->
    min_frequency p <= frequency_hz s <= max_frequency p /\ min_quality p <= quality_factor s <= max_quality p.
(* e0 is the equaliser e with frequencies and quality factors moved into the ranges *)
Definition moved_into_ranges (p : fit_settings) (e e0 : equalizer) : Prop :=
  kinds_of e0 = kinds_of e /\
  forall i s b s0 b0, nth_error (stages e) i = Some (s, b) -> nth_error (stages e0) i = Some (s0, b0) ->
    frequency_hz s0 = Rmin (Rmax (frequency_hz s) (min_frequency p)) (max_frequency p) /\
    quality_factor s0 = Rmin (Rmax (quality_factor s) (min_quality p)) (max_quality p).
