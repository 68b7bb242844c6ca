(* Model of the three rational factor resamplers:
     audio/dsp/portable/rational_factor_resampler.c          ("portable")
     audio/dsp/resampler_q.h                                 ("Q")
     audio/dsp/resampler_rational_factor.h                   ("RF")
   They share one algorithm; what differs (dot products, buffer capacities,
   dropping of excess input) is a parameter.

   Samples (or, for Q, multichannel frames) have an arbitrary type X, filter
   coefficients an arbitrary type C, outputs an arbitrary type Y; no law is
   assumed of the arithmetic.  Simplification: C ints are unbounded integers
   here, so overflow of sample counts above INT_MAX is not modelled. *)
From Verif Require Import CInt ListLemmas.

Section Core.
Context {C X Y : Type}.
(* dot1 filter window: product of a filter and consecutive frames of one buffer.
   dot2 filter s u: the same where the window is s followed by u. *)
Context (dot1 : list C -> list X -> Y) (dot2 : list C -> list X -> list X -> Y).

(* rational_factor_resampler.c:35-73 (num_taps, factor_numerator,
   factor_denominator, filters); resampler_q.h:848-854.  filters[p] has num_taps
   coefficients, stored backward. *)
Record config := { numer : Z; denom : Z; taps : Z; filters : list (list C) }.

(* rational_factor_resampler.c:151-153, resampler_q.cc:80-81 *)
Definition factor_floor (c : config) : Z := Z.quot (numer c) (denom c).
Definition phase_step (c : config) : Z := Z.rem (numer c) (denom c).

(* The first delayed_input_size entries of delayed_input, and phase. *)
Record rstate := { delayed : list X; phase : Z }.
Definition dsize (s : rstate) : Z := Z.of_nat (length (delayed s)).

(* rational_factor_resampler.c:227-237, resampler_q.h:441-451,
   resampler_rational_factor.h:493-503 *)
Definition next_output_size (c : config) (s : rstate) (input_size : Z) : Z :=
  let min_consumed_input := 1 + input_size + dsize s - taps c in
  if min_consumed_input <=? 0 then 0
  else Z.quot (min_consumed_input * denom c - phase s + numer c - 1) (numer c).

(* resampler_q.h:471-480 *)
Definition next_input_to_produce (c : config) (s : rstate) (num_output : Z) : Z :=
  if num_output <=? 0 then 0
  else Z.quot ((num_output - 1) * numer c + phase s) (denom c) + taps c - dsize s.

(* rational_factor_resampler.c:124-125, resampler_q.h:826-831 *)
Definition max_output (c : config) (max_input : Z) : Z :=
  Z.quot (max_input * denom c + numer c - 1) (numer c).

(* resampler_q.h:834-843 *)
Definition max_input_to_produce (c : config) (num_output : Z) : Z :=
  if num_output <=? 0 then 0
  else Z.quot ((num_output - 1) * numer c + denom c - 1) (denom c) + taps c.

(* filters + phase * num_taps *)
Definition filter_at (c : config) (ph : Z) : outcome (list C) :=
  if ph <? 0 then Undef else
  match nth_error (filters c) (Z.to_nat ph) with Some f => Ok f | None => Undef end.

(* rational_factor_resampler.c:318-323 (= 356-361), resampler_q.h:732-737,
   resampler_rational_factor.h:371-376 *)
Definition advance (c : config) (i ph : Z) : Z * Z :=
  let i := i + factor_floor c in
  let ph := ph + phase_step c in
  if denom c <=? ph then (i + 1, ph - denom c) else (i, ph).

(* rational_factor_resampler.c:299-324, resampler_q.h:718-738,
   resampler_rational_factor.h:362-377.  n is the number of output samples
   written so far; writing to output[n] needs n < out_cap.  Returns i, phase and
   the outputs written. *)
Fixpoint straddle_loop (fuel : nat) (c : config) (out_size out_cap : Z)
    (del input : list X) (i_end i ph n : Z) : outcome (Z * Z * list Y) :=
  if (i <? Z.of_nat (length del)) && (i <? i_end) then
    match fuel with
    | O => Undef
    | S fuel' =>
        ocheck (n <? out_size)
        (oguard (n <? out_cap)
        (f <- filter_at c ph ;;
         let num_state := Z.of_nat (length del) - i in
         let num_input := taps c - num_state in
         oguard ((0 <=? i) && (0 <=? num_input) && (num_input <=? Z.of_nat (length input)))
         (let y := dot2 f (skipn (Z.to_nat i) del) (firstn (Z.to_nat num_input) input) in
          let '(i', ph') := advance c i ph in
          '(i2, ph2, ys) <- straddle_loop fuel' c out_size out_cap del input i_end i' ph' (n + 1) ;;
          Ok (i2, ph2, y :: ys))))
    end
  else Ok (i, ph, []).

(* rational_factor_resampler.c:346-362, resampler_q.h:770-783,
   resampler_rational_factor.h:394-405 *)
Fixpoint input_loop (fuel : nat) (c : config) (out_size out_cap : Z)
    (input : list X) (i_end i ph n : Z) : outcome (Z * Z * list Y) :=
  if i <? i_end then
    match fuel with
    | O => Undef
    | S fuel' =>
        ocheck (n <? out_size)
        (oguard (n <? out_cap)
        (f <- filter_at c ph ;;
         oguard ((0 <=? i) && (i + taps c <=? Z.of_nat (length input)))
         (let y := dot1 f (slice (Z.to_nat i) (Z.to_nat (taps c)) input) in
          let '(i', ph') := advance c i ph in
          '(i2, ph2, ys) <- input_loop fuel' c out_size out_cap input i_end i' ph' (n + 1) ;;
          Ok (i2, ph2, y :: ys))))
    end
  else Ok (i, ph, []).

(* rational_factor_resampler.c:244-245 and 261-371, resampler_q.h:677-792,
   resampler_rational_factor.h:329-412.  [cap] is the capacity of delayed_input:
   num_taps (portable), num_taps - 1 (Q), no limit (RF, a std::vector).
   [strict] says whether the number of outputs is checked at the end
   (portable and Q, not RF). *)
Definition process_core (cap : option Z) (strict : bool) (out_cap : Z)
    (c : config) (s : rstate) (input : list X) : outcome (rstate * list Y) :=
  let del := delayed s in
  let fits l := match cap with None => true | Some k => Z.of_nat (length l : nat) <=? k end in
  ocheck (dsize s <? taps c)
  (ocheck (phase s <? denom c)
  (if dsize s + Z.of_nat (length input) <? taps c then
     oguard (fits (del ++ input)) (Ok ({| delayed := del ++ input; phase := phase s |}, []))
   else
   let out_size := next_output_size c s (Z.of_nat (length input)) in
   let i_end := dsize s + Z.of_nat (length input) - taps c + 1 in
   '(i, ph, ys) <- straddle_loop (S (Z.to_nat out_size)) c out_size out_cap del input i_end 0 (phase s) 0 ;;
   if i <? dsize s then
     ocheck (negb strict || (Z.of_nat (length ys) =? out_size))
     (let del' := skipn (Z.to_nat i) del ++ input in
      oguard (fits del')
      (ocheck (negb strict || (Z.of_nat (length del') <? taps c))
      (Ok ({| delayed := del'; phase := ph |}, ys))))
   else
     '(i, ph, zs) <- input_loop (S (Z.to_nat out_size)) c out_size out_cap input
                       (i_end - dsize s) (i - dsize s) ph (Z.of_nat (length ys)) ;;
     ocheck (negb strict || (Z.of_nat (length ys) + Z.of_nat (length zs) =? out_size))
     (ocheck (i <=? Z.of_nat (length input))
     (let del' := skipn (Z.to_nat i) input in
      oguard (fits del')
      (Ok ({| delayed := del'; phase := ph |}, ys ++ zs)))))).

Context (zero : X).

(* rational_factor_resampler.c:182-191, resampler_q.h:506-514,
   resampler_rational_factor.h:281-289 (num_taps = 2 * radius + 1) *)
Definition reset (radius : Z) : rstate :=
  {| delayed := repeat zero (Z.to_nat radius); phase := 0 |}.

(* resampler_q.h:494-499, resampler_rational_factor.h:303-310 *)
Definition reset_fully_primed (c : config) : rstate :=
  {| delayed := repeat zero (Z.to_nat (taps c - 1)); phase := 0 |}.
End Core.

(* ---- portable ---- *)
Section Portable.
Context {V : Type} (zero : V) (add mul : V -> V -> V).

(* rational_factor_resampler.c:304-314 and 349-353: multiply-accumulate from
   0.0f, first over the delayed samples, then over the input.  (The filter has at
   least as many coefficients as the window.) *)
Definition mac (sum : V) (fx : V * V) : V := add sum (mul (fst fx) (snd fx)).
Definition c_dot1 (f x : list V) : V := fold_left mac (combine f x) zero.
Definition c_dot2 (f s u : list V) : V :=
  fold_left mac (combine (skipn (length s) f) u) (fold_left mac (combine f s) zero).

(* rational_factor_resampler.c:239-371; max_input is max_input_size. *)
Definition portable_process (c : config) (radius max_input : Z) (s : rstate) (input : list V)
    : outcome (rstate * list V) :=
  ocheck (dsize s <? taps c)
  (ocheck (phase s <? denom c)
  (let excess := Z.of_nat (length input) - max_input in
   let '(s, input) := if 0 <? excess then (reset zero radius, skipn (Z.to_nat excess) input)
                      else (s, input) in
   process_core c_dot1 c_dot2 (Some (taps c)) true (max_output c max_input) c s input)).

(* rational_factor_resampler.c:155-167: h phase k stands for
   (float) RationalFactorResamplerKernelEval(&kernel, phase / denominator + k).
   The filter for a phase, stored backward: coeffs[radius - k] = h(phase, k). *)
Definition make_filter (h : Z -> Z -> V) (radius phase : Z) : list V :=
  map (fun j => h phase (radius - Z.of_nat j)) (seq 0 (Z.to_nat (2 * radius + 1))).
Definition make_config (h : Z -> Z -> V) (radius a b : Z) : config :=
  {| numer := a; denom := b; taps := 2 * radius + 1;
     filters := map (fun p => make_filter h radius (Z.of_nat p)) (seq 0 (Z.to_nat b)) |}.
(* rational_factor_resampler.c:119-122 *)
Definition make_max_input (radius max_input : Z) : Z :=
  if max_input <? 2 * radius + 1 - 1 then 2 * radius + 1 - 1 else max_input.
(* rational_factor_resampler.c:212-225 *)
Definition flush_size (c : @config V) : Z := taps c - 1.
End Portable.

(* ---- QResampler and the C++ RationalFactorResampler ---- *)
Section Cpp.
Context {C X Y : Type} (zero : X)
  (dot : list C -> list X -> Y)      (* Eigen matrix * vector / dot product *)
  (plus : Y -> Y -> Y).              (* addition of output frames *)

(* resampler_q.h:727-729, resampler_rational_factor.h:367-369 *)
Definition cpp_dot2 (f : list C) (s u : list X) : Y :=
  plus (dot (firstn (length s) f) s) (dot (skipn (length s) f) u).

(* resampler_q.h:544-622 and 668-792 for a valid resampler; the output is
   resized to next_output_size. *)
Definition q_process (c : config) (s : rstate) (input : list X) : outcome (rstate * list Y) :=
  process_core dot cpp_dot2 (Some (taps c - 1)) true
    (next_output_size c s (Z.of_nat (length input))) c s input.

(* resampler_q.h:395-403 *)
Definition q_flush (c : config) (radius : Z) (s : rstate) : outcome (rstate * list Y) :=
  '(_, ys) <- q_process c s (repeat zero (Z.to_nat (taps c - 1))) ;;
  Ok (reset zero radius, ys).

(* resampler_q.h:276-305, for one channel count *)
Definition q_resample_signal (c : config) (radius : Z) (input : list X) : outcome (list Y) :=
  let s := reset zero radius in
  let total := next_output_size c s (Z.of_nat (length input) + (taps c - 1)) in
  let first := next_output_size c s (Z.of_nat (length input)) in
  '(s, ys) <- q_process c s input ;;
  ocheck (Z.of_nat (length ys) =? first)
  ('(_, zs) <- q_flush c radius s ;;
   ocheck (Z.of_nat (length zs) =? total - first)
   (Ok (ys ++ zs))).

(* resampler_rational_factor.h:316-412; resampler.h:54-67 returns early for an
   empty input. *)
Definition rf_process (c : config) (s : rstate) (input : list X) : outcome (rstate * list Y) :=
  match input with
  | [] => Ok (s, [])
  | _ => process_core dot cpp_dot2 None false
           (next_output_size c s (Z.of_nat (length input))) c s input
  end.

(* resampler_rational_factor.h:414-422 and resampler.h:71-75 *)
Definition rf_flush (c : config) (radius : Z) (s : rstate) : outcome (rstate * list Y) :=
  '(_, ys) <- rf_process c s (repeat zero (Z.to_nat (taps c - 1))) ;;
  Ok (reset zero radius, ys).
End Cpp.

(* resampler_rational_factor.h:241-260: the constructor from a factor reduces it
   to lowest terms. *)
Definition rf_reduced (a b : Z) : Z * Z := (Z.quot a (Z.gcd a b), Z.quot b (Z.gcd a b)).
