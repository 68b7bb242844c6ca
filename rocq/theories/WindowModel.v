(* Model of audio/dsp/window_functions.{h,cc}.  Doubles are real numbers.
   The model of Eval is meaningful for radius > 0: the constructors check it,
   set_radius does not. *)
From Verif Require Import Common CInt RealUtil BesselModel.
From Coq Require Import Rtrigo1.
Local Open Scope R_scope.

(* The derived classes, window_functions.h:148-345. *)
Inductive kind :=
  | Rectangular | Cosine | Hamming | Hann
  | Kaiser (beta : R) | Nuttall | PlanckTaper (epsilon : R) | Quartic (c2 c4 : R).

(* window_functions.h:132-137 *)
Record window := mkWindow { wi_kind : kind; wi_radius : R; wi_memo : list R }.

(* window_functions.cc:33-35, 268-273, 328-333, 347-355 *)
Definition make_window (k : kind) (radius : R) : outcome window :=
  ocheck (Rltb 0 radius)
  (match k with
   | Kaiser beta => ocheck (Rleb 0 beta) (Ok (mkWindow k radius []))
   | PlanckTaper eps =>
       ocheck (Rleb 0 eps) (ocheck (Rleb eps radius) (Ok (mkWindow k radius [])))
   | Quartic c2 c4 =>
       ocheck (Rleb (-2) c2) (ocheck (Rleb c2 0) (ocheck (Rleb (- (1 + c2)) c4)
         (ocheck (Rleb c4 (- c2 / 2)) (Ok (mkWindow k radius [])))))
   | _ => Ok (mkWindow k radius [])
   end).

(* window_functions.h:100 *)
Definition set_radius (w : window) (r : R) : window :=
  mkWindow (wi_kind w) r (wi_memo w).

(* window_functions.h:154, 175, 200, 222, 257, 284, 310, 339 *)
Definition zero_at_endpoints (k : kind) : bool :=
  match k with Cosine | Hann | PlanckTaper _ => true | _ => false end.

Definition kTol : R := / 10 ^ 12.

(* window_functions.cc:201-204, 210-213, 228-238, 252-255, 275-285, 296-307,
   335-345, 357-364.  With epsilon_ = 0 the quotient of line 337 is +inf, -inf
   or NaN, according to the sign of radius - |x|; both comparisons are false
   for NaN and -inf. *)
Definition eval (k : kind) (r x : R) : R :=
  match k with
  | Rectangular => if Rltb (Rabs x) ((1 + kTol) * r) then 1 else 0
  | Cosine =>
      let y := Rabs (x / r) in
      if Rltb y 1 then cos (PI / 2 * y) else 0
  | Hamming =>
      let y := Rabs (x / r) in
      if Rltb y (1 + kTol) then 54 / 100 + 46 / 100 * cos (PI * Rmin 1 y) else 0
  | Hann =>
      let y := Rabs (x / r) in
      if Rltb y 1 then 1 / 2 * (1 + cos (PI * y)) else 0
  | Kaiser beta =>
      let y := Rabs (x / r) in
      if Rltb y (1 + kTol) then bessel_i0 (beta * sqrt (Rmax 0 (1 - y * y))) / bessel_i0 beta else 0
  | Nuttall =>
      let y := Rabs (x / r) in
      if Rltb y (1 + kTol) then
        let z := PI * Rmin 1 y in
        3635819 / 10 ^ 7 + 4891775 / 10 ^ 7 * cos z
          + 1365995 / 10 ^ 7 * cos (2 * z) + 106411 / 10 ^ 7 * cos (3 * z)
      else 0
  | PlanckTaper eps =>
      if Reqb eps 0 then (if Rltb 0 (r - Rabs x) then 1 else 0)
      else
        let y := (r - Rabs x) / eps in
        if Rleb (1 - kTol) y then 1
        else if Rltb kTol y then 1 / (1 + exp (1 / y - 1 / (1 - y)))
        else 0
  | Quartic c2 c4 =>
      let y := x / r in
      let y2 := y * y in
      if Rltb y2 (1 + kTol) then 1 + y2 * (c2 + y2 * c4) else 0
  end.

Definition eval_w (w : window) : R -> R := eval (wi_kind w) (wi_radius w).

(* std::reverse_copy(v.begin() + src, v.end(), v.begin() + dst), element by
   element from the back of the source.  In the calls below the two ranges may
   share one element, which is copied onto itself; the library formally
   requires disjoint ranges. *)
Fixpoint reverse_copy_loop (n src dst : nat) (v : list R) : list R :=
  match n with
  | O => v
  | S n' => reverse_copy_loop n' src (S dst) (splice dst [nth (src + n') v 0] v)
  end.
Definition reverse_copy (src dst : nat) (v : list R) : list R :=
  reverse_copy_loop (length v - src) src dst v.

(* window_functions.cc:39-56 (num_samples as a natural number; a negative one
   fails the same CHECK).  The vector's elements before the copy are arbitrary;
   they are zero here. *)
Definition symmetric_samples (w : window) (num : nat) : outcome (list R) :=
  ocheck (2 <=? num)%nat
  (let half := (num / 2)%nat in
   let dx := (2 * wi_radius w) /
             (INR num + (if zero_at_endpoints (wi_kind w) then 1 else -1)) in
   let x0 := if (num mod 2 =? 0)%nat then dx / 2 else 0 in
   Ok (reverse_copy half 0
        (repeat 0 half ++ map (fun n => eval_w w (x0 + dx * INR n)) (seq 0 (num - half))))).

(* window_functions.cc:59-75 *)
Definition periodic_samples (w : window) (num : nat) : outcome (list R) :=
  ocheck (2 <=? num)%nat
  (let half := ((num + 1) / 2)%nat in
   let dx := (2 * wi_radius w) / INR num in
   let x0 := if (num mod 2 =? 1)%nat then dx / 2 else 0 in
   let v := repeat 0 half ++ map (fun n => eval_w w (x0 + dx * INR n)) (seq 0 (num - half)) in
   let v1 := splice 0 [if zero_at_endpoints (wi_kind w) then 0
                       else eval_w w (wi_radius w)] v in
   Ok (reverse_copy half 1 v1)).

Definition kNumSamples : nat := 512.

(* window_functions.cc:98-109 *)
Definition memoize (w : window) : window :=
  match wi_memo w with
  | [] => let dx := wi_radius w / INR kNumSamples in
          mkWindow (wi_kind w) (wi_radius w)
            (map (fun n => eval_w w (dx * INR n)) (seq 1 kNumSamples))
  | _ => w
  end.

(* window_functions.cc:133-145: phasor = 2 rotator^n; the loop carries the sum
   and the phasor (its real and imaginary parts). *)
Fixpoint ft_loop (cr ci : R) (samples : list R) (pr pi sum : R) : R :=
  match samples with
  | [] => sum
  | s :: rest => ft_loop cr ci rest (pr * cr - pi * ci) (pr * ci + pi * cr) (sum + pr * s)
  end.
Definition generic_ft (w : window) (f : R) : window * R :=
  let w1 := memoize w in
  let dx := wi_radius w1 / INR (length (wi_memo w1)) in
  let cr := cos (2 * PI * f * dx) in
  let ci := sin (2 * PI * f * dx) in
  (w1, ft_loop cr ci (wi_memo w1) (cr * 2) (ci * 2) 1 * dx).

(* window_functions.cc:191-197.  sinh is (exp x - exp (-x)) / 2. *)
Definition sincTol : R := / 10 ^ 8.
Definition sinc (x : R) : R := if Rltb (Rabs x) sincTol then 1 else sin x / x.
Definition sinhc (x : R) : R := if Rltb (Rabs x) sincTol then 1 else (exp x - exp (- x)) / 2 / x.

(* window_functions.cc:206-208, 215-224, 240-250, 257-266, 287-292, 309-326,
   366-379; the Planck taper uses the generic implementation above. *)
Definition eval_ft (w : window) (f : R) : window * R :=
  let r := wi_radius w in
  match wi_kind w with
  | Rectangular => (w, 2 * r * sinc (2 * PI * f * r))
  | Cosine =>
      let g := 2 * PI * f * r in
      let denom := PI * PI - 4 * g * g in
      (w, if Rleb sincTol (Rabs denom) then r * 4 * PI * cos g / denom else r)
  | Hamming =>
      let g := 2 * f * r in
      let g2 := g * g in
      let denom := 1 - g2 in
      (w, if Rltb (Rabs denom) sincTol then r * (46 / 100)
          else r * 2 * sinc (PI * g) * (54 / 100 + g2 * (46 / 100) / denom))
  | Hann =>
      let g := 2 * f * r in
      let denom := 1 - g * g in
      (w, if Rleb sincTol (Rabs denom) then r * sinc (PI * g) / denom else r * (1 / 2))
  | Kaiser beta =>
      let g := 2 * PI * f * r in
      let diff := beta * beta - g * g in
      (w, r * (2 / bessel_i0 beta) *
          (if Rltb 0 diff then sinhc (sqrt diff) else sinc (sqrt (- diff))))
  | Nuttall =>
      let g := 2 * f * r in
      let g2 := g * g in
      let denom1 := 1 - g2 in
      let denom2 := 4 - g2 in
      let denom3 := 9 - g2 in
      (w, if Rltb (Rabs denom1) sincTol then r * (4891775 / 10 ^ 7)
          else if Rltb (Rabs denom2) sincTol then r * (1365995 / 10 ^ 7)
          else if Rltb (Rabs denom3) sincTol then r * (106411 / 10 ^ 7)
          else r * 2 * sinc (PI * g) *
               (3635819 / 10 ^ 7 + g2 * (4891775 / 10 ^ 7 / denom1
                  - 1365995 / 10 ^ 7 / denom2 + 106411 / 10 ^ 7 / denom3)))
  | PlanckTaper _ => generic_ft w f
  | Quartic c2 c4 =>
      let g := 2 * PI * f * r in
      (w, if Rleb sincTol (Rabs g) then
            let g2 := g * g in
            r * 2 * ((2 * c2 + 4 * c4 - 24 * c4 / g2) * cos g / g2 +
                     (1 + c2 + c4 + (- 2 * c2 - 12 * c4 + 24 * c4 / g2) / g2) * sinc g)
          else r * 2 * (1 + c2 / 3 + c4 / 5))
  end.
