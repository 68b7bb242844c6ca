(* C15, C16, C17, C53: rational factor resamplers. *)
From Coq Require Import SpecFloat.
From Verif Require Import CInt ListLemmas ResamplerModel ResamplerSpec ResamplerProofs ResamplerPropsProofs.

(* Splitting the input differently gives the same samples and the same state.
   The arithmetic is arbitrary, so this is bit for bit also in floating point. *)
Theorem C15_portable_chunk_invariance :
  forall V (zero : V) add mul h radius a b max_input chunks1 chunks2,
  0 <= radius -> 0 < a -> 0 < b -> a <= b * (2 * radius + 1) ->
  let c := make_config h radius a b in
  let M := make_max_input radius max_input in
  Forall (fun ch => Z.of_nat (length ch) <= M) chunks1 ->
  Forall (fun ch => Z.of_nat (length ch) <= M) chunks2 ->
  concat chunks1 = concat chunks2 ->
  exists s outs1 outs2,
    run (portable_process zero add mul c radius M) (reset zero radius) chunks1 = Ok (s, outs1) /\
    run (portable_process zero add mul c radius M) (reset zero radius) chunks2 = Ok (s, outs2) /\
    concat outs1 = concat outs2.
Proof.
  intros V zero add mul h radius a b mi c1 c2 Hr Ha Hb Hc c M F1 F2 E.
  pose proof (make_config_valid h radius a b Hr Ha Hb Hc) as VC.
  destruct (portable_run zero add mul c radius M VC eq_refl Hr c1 F1) as (s1 & o1 & E1 & A1 & R1).
  destruct (portable_run zero add mul c radius M VC eq_refl Hr c2 F2) as (s2 & o2 & E2 & A2 & R2).
  rewrite E in A1, R1. exists s2, o1, o2. split; [|split; [exact E2|congruence]].
  rewrite E1. do 2 f_equal. destruct A1 as (D1 & P1 & _), A2 as (D2 & P2 & _).
  destruct s1, s2. cbn in *. congruence.
Qed.
Print Assumptions C15_portable_chunk_invariance.

(* A block longer than max_input_size is processed as if only its last
   max_input_size samples had been given to a freshly reset resampler. *)
Theorem C15_portable_excess :
  forall V (zero : V) add mul h radius a b max_input s input,
  0 <= radius -> 0 < a -> 0 < b -> a <= b * (2 * radius + 1) -> 0 <= max_input ->
  let c := make_config h radius a b in
  let M := make_max_input radius max_input in
  dsize s < 2 * radius + 1 -> 0 <= phase s < b -> M < Z.of_nat (length input) ->
  portable_process zero add mul c radius M s input
  = portable_process zero add mul c radius M (reset zero radius)
      (skipn (length input - Z.to_nat M) input).
Proof.
  intros V zero add mul h radius a b mi s input Hr Ha Hb Hc Hm c M HD HP HL.
  apply portable_excess; auto.
  - now apply make_config_valid.
  - unfold M, make_max_input. destruct (mi <? _); lia.
Qed.
Print Assumptions C15_portable_excess.

(* The C++ versions: the same when the dot product of a window may be split in
   two, that is in exact arithmetic.  valid_config: positive factor, one filter of
   num_taps coefficients per phase, numerator <= denominator * num_taps. *)
Theorem C15_cpp_chunk_invariance_partial :
  forall C X Y (zero : X) (dot : list C -> list X -> Y) plus c radius chunks1 chunks2,
  valid_config c -> taps c = 2 * radius + 1 -> 0 <= radius ->
  (forall f1 f2 s u, length f1 = length s -> length f2 = length u ->
     plus (dot f1 s) (dot f2 u) = dot (f1 ++ f2) (s ++ u)) ->
  concat chunks1 = concat chunks2 ->
  (exists s outs1 outs2,
    run (q_process dot plus c) (reset zero radius) chunks1 = Ok (s, outs1) /\
    run (q_process dot plus c) (reset zero radius) chunks2 = Ok (s, outs2) /\
    concat outs1 = concat outs2) /\
  (exists s outs1 outs2,
    run (rf_process dot plus c) (reset zero radius) chunks1 = Ok (s, outs1) /\
    run (rf_process dot plus c) (reset zero radius) chunks2 = Ok (s, outs2) /\
    concat outs1 = concat outs2).
Proof.
  intros C X Y zero dot plus c radius c1 c2 VC HT Hr SL E.
  assert (G : forall step : @rstate X -> list X -> outcome (@rstate X * list Y),
    (forall P s input, at_stream c P s -> exists s' ys, step s input = Ok (s', ys) /\ at_stream c (P ++ input) s' /\
      Z.of_nat (length ys) = next_output_size c s (Z.of_nat (length input)) /\
      resampled dot (numer c) (denom c) (Z.to_nat (taps c)) (filters c) (P ++ input)
      = resampled dot (numer c) (denom c) (Z.to_nat (taps c)) (filters c) P ++ ys) ->
    exists s outs1 outs2, run step (reset zero radius) c1 = Ok (s, outs1) /\
      run step (reset zero radius) c2 = Ok (s, outs2) /\ concat outs1 = concat outs2).
  { intros step HS.
    destruct (cpp_run zero dot c radius VC HT step radius c1 HS ltac:(lia)) as (s1 & o1 & E1 & A1 & R1).
    destruct (cpp_run zero dot c radius VC HT step radius c2 HS ltac:(lia)) as (s2 & o2 & E2 & A2 & R2).
    rewrite E in A1, R1. exists s2, o1, o2. split; [|split; [exact E2|congruence]].
    unfold reset. rewrite E1. do 2 f_equal. destruct A1 as (D1 & P1 & _), A2 as (D2 & P2 & _).
    destruct s1, s2. cbn in *. congruence. }
  split; apply G; intros; [now apply q_step|now apply rf_step].
Qed.
Print Assumptions C15_cpp_chunk_invariance_partial.

(* In single precision arithmetic, with dot products summed from left to right,
   the C++ versions are not bit for bit independent of chunking: the sum over a
   window that straddles two blocks is associated differently. *)
Theorem C15_cpp_bit_exact_refuted :
  exists c x chunks1 chunks2 s1 s2 outs1 outs2,
    valid_config c /\ concat chunks1 = x /\ concat chunks2 = x /\
    run (q_process f32_dot f32_add c) (reset (S754_zero false) 1) chunks1 = Ok (s1, outs1) /\
    run (q_process f32_dot f32_add c) (reset (S754_zero false) 1) chunks2 = Ok (s2, outs2) /\
    concat outs1 <> concat outs2.
Proof.
  set (c := {| numer := 1; denom := 1; taps := 3; filters := [[f32 1; f32 1; f32 1]] |}).
  set (x := [f32 16777216; f32 1; f32 1]).
  exists c, x, [x], [[f32 16777216]; [f32 1; f32 1]].
  eexists _, _, _, _. split; [|split; [reflexivity|split; [reflexivity|split; [vm_compute; reflexivity|]]]].
  - unfold valid_config. cbn. repeat split; try lia. repeat constructor.
  - split; [vm_compute; reflexivity|]. vm_compute. discriminate.
Qed.
Print Assumptions C15_cpp_bit_exact_refuted.

(* Flush: gives what num_taps - 1 zero frames give, and resets. *)
Theorem C15_flush :
  forall C X Y (zero : X) (dot : list C -> list X -> Y) plus c radius chunks,
  valid_config c -> taps c = 2 * radius + 1 -> 0 <= radius ->
  (forall f1 f2 s u, length f1 = length s -> length f2 = length u ->
     plus (dot f1 s) (dot f2 u) = dot (f1 ++ f2) (s ++ u)) ->
  exists s outs ys,
    run (q_process dot plus c) (reset zero radius) chunks = Ok (s, outs) /\
    q_flush zero dot plus c radius s = Ok (reset zero radius, ys) /\
    concat outs ++ ys = resampled dot (numer c) (denom c) (Z.to_nat (taps c)) (filters c)
      (repeat zero (Z.to_nat radius) ++ concat chunks ++ repeat zero (Z.to_nat (2 * radius))).
Proof.
  intros C X Y zero dot plus c radius chunks VC HT Hr SL.
  destruct (cpp_run zero dot c radius VC HT (q_process dot plus c) radius chunks) as (s & outs & E & A & R).
  { intros. now apply q_step. } { lia. }
  destruct (q_step dot plus c VC SL _ s (repeat zero (Z.to_nat (taps c - 1))) A) as (s' & ys & E2 & _ & _ & R2).
  exists s, outs, ys. split; [exact E|]. split.
  - unfold q_flush. rewrite E2. reflexivity.
  - rewrite R. rewrite <- app_assoc in R2. replace (2 * radius) with (taps c - 1) by lia. now rewrite R2.
Qed.
Print Assumptions C15_flush.

(* Streaming 7 samples with factor 3/2, radius 2, in blocks of 1, 4, 0 and 2. *)
Example C15_example :
  let c := make_config (fun p k => 10 * p + k + 3) 2 3 2 in
  let M := make_max_input 2 4 in
  run (portable_process 0 Z.add Z.mul c 2 M) (reset 0 2) [[1]; [2; 3; 4; 5]; []; [6; 7]]
  = Ok ({| delayed := [5; 6; 7]; phase := 0 |}, [[]; [10; 120]; []; [50; 315]]) /\
  run (portable_process 0 Z.add Z.mul c 2 M) (reset 0 2) [[1; 2; 3; 4]; [5; 6; 7]]
  = Ok ({| delayed := [5; 6; 7]; phase := 0 |}, [[10; 120]; [50; 315]]).
Proof. vm_compute. split; reflexivity. Qed.

(* ---- C16 ---- *)
(* After any sequence of blocks, output number m is the interpolation sum at
   m a / b: the sum over |k| <= radius of h_p[k] x[q - k], accumulated from 0 in
   the order k = radius, ..., -radius, for arbitrary arithmetic. *)
Theorem C16_portable_formula :
  forall V (zero : V) add mul h radius a b max_input chunks,
  0 < a -> 0 < b -> a <= b * (2 * Z.of_nat radius + 1) ->
  let c := make_config h (Z.of_nat radius) a b in
  let M := make_max_input (Z.of_nat radius) max_input in
  Forall (fun ch => Z.of_nat (length ch) <= M) chunks ->
  exists s outs,
    run (portable_process zero add mul c (Z.of_nat radius) M) (reset zero (Z.of_nat radius)) chunks = Ok (s, outs) /\
    forall m, (m < length (concat outs))%nat ->
      nth m (concat outs) zero
      = interpolate zero add mul h radius (concat chunks) ((Z.of_nat m * a) mod b) (Z.of_nat m * a / b).
Proof.
  intros V zero add mul h radius a b mi chunks Ha Hb Hc c M F.
  destruct (portable_run zero add mul c (Z.of_nat radius) M
    (make_config_valid h (Z.of_nat radius) a b ltac:(lia) Ha Hb Hc) eq_refl ltac:(lia) chunks F) as (s & outs & E & _ & R).
  exists s, outs. split; [exact E|]. rewrite R, Nat2Z.id. intros m Hm. now apply portable_formula.
Qed.
Print Assumptions C16_portable_formula.

(* The same for the C++ versions, whose dot products satisfy the split law:
   output m is the dot product of the filter of phase (m a) mod b with the window
   of the zero padded input that starts at floor(m a / b). *)
Theorem C16_cpp_formula :
  forall C X Y (zero : X) (dot : list C -> list X -> Y) plus c radius chunks,
  valid_config c -> taps c = 2 * radius + 1 -> 0 <= radius ->
  (forall f1 f2 s u, length f1 = length s -> length f2 = length u ->
     plus (dot f1 s) (dot f2 u) = dot (f1 ++ f2) (s ++ u)) ->
  exists s outs,
    run (q_process dot plus c) (reset zero radius) chunks = Ok (s, outs) /\
    exists s' outs', run (rf_process dot plus c) (reset zero radius) chunks = Ok (s', outs') /\
    concat outs' = concat outs /\
    forall m y, nth_error (concat outs) m = Some y ->
      let padded := repeat zero (Z.to_nat radius) ++ concat chunks in
      let q := Z.of_nat m * numer c / denom c in
      let p := (Z.of_nat m * numer c) mod denom c in
      y = dot (nth (Z.to_nat p) (filters c) []) (slice (Z.to_nat q) (Z.to_nat (taps c)) padded) /\
      q + taps c <= Z.of_nat (length padded).
Proof.
  intros C X Y zero dot plus c radius chunks VC HT Hr SL.
  destruct (cpp_run zero dot c radius VC HT (q_process dot plus c) radius chunks) as (s & outs & E & A & R).
  { intros. now apply q_step. } { lia. }
  destruct (cpp_run zero dot c radius VC HT (rf_process dot plus c) radius chunks) as (s' & outs' & E' & A' & R').
  { intros. now apply rf_step. } { lia. }
  exists s, outs. split; [exact E|]. exists s', outs'. split; [exact E'|]. split; [congruence|].
  intros m y Hm padded q p. rewrite R in Hm. fold padded in Hm.
  unfold resampled in Hm. rewrite nth_error_map' in Hm. rewrite nth_error_seq in Hm.
  destruct (Nat.ltb_spec m (num_outputs (numer c) (denom c) (Z.to_nat (taps c)) (Z.of_nat (length padded)))) as [L|L];
    [|discriminate].
  cbn [option_map] in Hm. injection Hm as <-. split; [reflexivity|].
  pose proof (pos_a c VC) as Pa. pose proof (pos_b c VC) as Pb. pose proof VC as (_ & _ & Pt & _).
  rewrite num_outputs_steps in L by auto. apply steps_before in L; auto.
  assert (q < Z.of_nat (length padded) - taps c + 1) by (apply Z.div_lt_upper_bound; lia). lia.
Qed.
Print Assumptions C16_cpp_formula.

(* Resampling a whole signal: always succeeds (its size checks hold) and gives
   the interpolation of the signal padded with zeros on both sides. *)
Theorem C16_resample_signal :
  forall C X Y (zero : X) (dot : list C -> list X -> Y) plus c radius input,
  valid_config c -> taps c = 2 * radius + 1 -> 0 <= radius ->
  (forall f1 f2 s u, length f1 = length s -> length f2 = length u ->
     plus (dot f1 s) (dot f2 u) = dot (f1 ++ f2) (s ++ u)) ->
  q_resample_signal zero dot plus c radius input
  = Ok (resampled dot (numer c) (denom c) (Z.to_nat (taps c)) (filters c)
          (repeat zero (Z.to_nat radius) ++ input ++ repeat zero (Z.to_nat (2 * radius)))).
Proof. intros. now apply q_signal. Qed.
Print Assumptions C16_resample_signal.

Example C16_example :
  let c := make_config (fun p k => 10 * p + k + 3) 2 3 2 in
  (exists s, run (portable_process 0 Z.add Z.mul c 2 4) (reset 0 2) [[1; 2; 3; 4]; [5; 6; 7]] = Ok (s, [[10; 120]; [50; 315]])) /\
  interpolate 0 Z.add Z.mul (fun p k => 10 * p + k + 3) 2 [1; 2; 3; 4; 5; 6; 7] 1 1 = 120 /\
  11 * 4 + 12 * 3 + 13 * 2 + 14 * 1 + 15 * 0 = 120.
Proof. vm_compute. split; [eexists; reflexivity|auto]. Qed.

(* ---- C17 ---- *)
(* For every history of blocks: the state bounds hold, and the next block yields
   exactly the predicted number of outputs, within the allocated maximum. *)
Theorem C17_portable_counts :
  forall V (zero : V) add mul h radius a b max_input chunks next,
  0 <= radius -> 0 < a -> 0 < b -> a <= b * (2 * radius + 1) ->
  let c := make_config h radius a b in
  let M := make_max_input radius max_input in
  Forall (fun ch => Z.of_nat (length ch) <= M) chunks -> Z.of_nat (length next) <= M ->
  exists s outs s' ys,
    run (portable_process zero add mul c radius M) (reset zero radius) chunks = Ok (s, outs) /\
    dsize s < 2 * radius + 1 /\ 0 <= phase s < b /\
    portable_process zero add mul c radius M s next = Ok (s', ys) /\
    Z.of_nat (length ys) = next_output_size c s (Z.of_nat (length next)) /\
    Z.of_nat (length ys) <= max_output c M.
Proof.
  intros V zero add mul h radius a b mi chunks next Hr Ha Hb Hc c M F HN.
  pose proof (make_config_valid h radius a b Hr Ha Hb Hc) as VC.
  destruct (portable_run zero add mul c radius M VC eq_refl Hr chunks F) as (s & o & E & A & _).
  destruct (portable_step zero add mul c radius M VC _ s next HN A) as (s' & ys & E2 & _ & L & B & _).
  destruct (at_stream_bounds c VC _ s A) as [HD HP].
  change (taps c) with (2 * radius + 1) in HD. change (denom c) with b in HP.
  exists s, o, s', ys. repeat split; auto; lia.
Qed.
Print Assumptions C17_portable_counts.

Theorem C17_cpp_counts :
  forall C X Y (zero : X) (dot : list C -> list X -> Y) plus c radius chunks next,
  valid_config c -> taps c = 2 * radius + 1 -> 0 <= radius ->
  (forall f1 f2 s u, length f1 = length s -> length f2 = length u ->
     plus (dot f1 s) (dot f2 u) = dot (f1 ++ f2) (s ++ u)) ->
  exists s outs s' ys,
    run (q_process dot plus c) (reset zero radius) chunks = Ok (s, outs) /\
    dsize s < taps c /\ 0 <= phase s < denom c /\
    q_process dot plus c s next = Ok (s', ys) /\
    Z.of_nat (length ys) = next_output_size c s (Z.of_nat (length next)) /\
    Z.of_nat (length ys) <= max_output c (Z.of_nat (length next)).
Proof.
  intros C X Y zero dot plus c radius chunks next VC HT Hr SL.
  destruct (cpp_run zero dot c radius VC HT (q_process dot plus c) radius chunks) as (s & outs & E & A & R).
  { intros. now apply q_step. } { lia. }
  destruct (q_step dot plus c VC SL _ s next A) as (s' & ys & E2 & _ & L & _).
  destruct (at_stream_bounds c VC _ s A) as [HD HP].
  exists s, outs, s', ys. repeat split; auto; try lia. rewrite L. apply count_max; auto; lia.
Qed.
Print Assumptions C17_cpp_counts.

(* NextNumInputFramesToProduce(m) is the least input size that yields at least m
   outputs, is at most MaxInputFramesToProduce(m), yields exactly m when
   downsampling, and exceeds m by at most floor((b - 1) / a) otherwise. *)
Theorem C17_next_input :
  forall C X (c : @config C) (s : @rstate X) m,
  valid_config c -> dsize s < taps c -> 0 <= phase s < denom c -> 0 <= m ->
  let n := next_input_to_produce c s m in
  m <= next_output_size c s n <= m + (denom c - 1) / numer c /\
  (forall n', 0 <= n' < n -> next_output_size c s n' < m) /\
  (denom c <= numer c -> next_output_size c s n = m) /\
  n <= max_input_to_produce c m.
Proof.
  intros C X c s m VC HD HP Hm n. split; [split|split; [|split]].
  - now apply next_input_enough.
  - now apply next_input_over.
  - intros n' Hn. apply next_input_least; auto; try lia.
    destruct (Z.eq_dec m 0) as [->|]; [|lia]. unfold n, next_input_to_produce in Hn. cbn in Hn. lia.
  - intros. now apply next_input_exact.
  - now apply next_input_max.
Qed.
Print Assumptions C17_next_input.

(* After ResetFullyPrimed, blocks whose sizes are multiples of the numerator all
   give exactly size * denominator / numerator outputs. *)
Theorem C17_fully_primed :
  forall C X Y (zero : X) (dot : list C -> list X -> Y) plus (c : @config C) blocks,
  valid_config c ->
  (forall f1 f2 s u, length f1 = length s -> length f2 = length u ->
     plus (dot f1 s) (dot f2 u) = dot (f1 ++ f2) (s ++ u)) ->
  Forall (fun x => exists k, Z.of_nat (length (x : list X)) = k * numer c) blocks ->
  exists s' outs, run (q_process dot plus c) (reset_fully_primed zero c) blocks = Ok (s', outs) /\
    Forall2 (fun x y => Z.of_nat (length (y : list Y)) * numer c = Z.of_nat (length x) * denom c) blocks outs.
Proof. intros. now apply primed_run. Qed.
Print Assumptions C17_fully_primed.

(* Flushing is complete: after num_taps - 1 zero frames only zeros remain. *)
Theorem C17_flush_complete :
  forall C X Y (zero : X) (dot : list C -> list X -> Y) plus c radius chunks,
  valid_config c -> taps c = 2 * radius + 1 -> 0 <= radius ->
  (forall f1 f2 s u, length f1 = length s -> length f2 = length u ->
     plus (dot f1 s) (dot f2 u) = dot (f1 ++ f2) (s ++ u)) ->
  exists s outs, run (q_process dot plus c) (reset zero radius)
      (chunks ++ [repeat zero (Z.to_nat (taps c - 1))]) = Ok (s, outs) /\
    Forall (eq zero) (delayed s).
Proof.
  intros C X Y zero dot plus c radius chunks VC HT Hr SL.
  destruct (cpp_run zero dot c radius VC HT (q_process dot plus c) radius
    (chunks ++ [repeat zero (Z.to_nat (taps c - 1))])) as (s & outs & E & A & _).
  { intros. now apply q_step. } { lia. }
  exists s, outs. split; [exact E|].
  rewrite concat_app in A. cbn [concat] in A. rewrite app_nil_r, app_assoc in A.
  now apply at_stream_zeros in A.
Qed.
Print Assumptions C17_flush_complete.

Example C17_example :
  let c := {| numer := 2; denom := 5; taps := 5; filters := repeat [1; 1; 1; 1; 1] 5 |} in
  let s := {| delayed := [0; 0; 7]; phase := 3 |} in
  next_input_to_produce c s 3 = 3 /\ next_output_size c s 3 = 4 /\ next_output_size c s 2 = 1 /\
  (5 - 1) / 2 = 2 /\ max_input_to_produce c 3 = 6.
Proof. vm_compute. auto. Qed.

(* ---- C53 ---- *)
(* The options are only required to be positive (rational_factor_resampler.c:80-90,
   rational_factor_resampler_kernel.c:78-85).  Downsampling by 10 with
   filter_radius_factor = 0.1 gives radius 1, 3 taps, factor 10/1, which is accepted,
   and the first block of 3 samples makes the position skip past the end of the
   input: an assertion fails (with assertions off, memcpy of a negative size). *)
Theorem C53_accepted_configuration_works_refuted :
  exists (c : @config Z) M input,
    c = make_config (fun _ _ => 1) 1 10 1 /\ M = make_max_input 1 100 /\
    Z.of_nat (length input) <= M /\
    portable_process 0 Z.add Z.mul c 1 M (reset 0 1) input = CheckFail.
Proof. eexists _, _, [1; 2; 3]. vm_compute. repeat split; discriminate. Qed.
Print Assumptions C53_accepted_configuration_works_refuted.

(* A sufficient condition under which all blocks are processed (it holds whenever
   filter_radius_factor >= 1/2): the step in whole
   input samples does not exceed the number of taps. *)
Theorem C53_condition :
  forall V (zero : V) add mul h radius a b max_input chunks,
  0 <= radius -> 0 < a -> 0 < b -> a <= b * (2 * radius + 1) ->
  let c := make_config h radius a b in
  let M := make_max_input radius max_input in
  Forall (fun ch => Z.of_nat (length ch) <= M) chunks ->
  is_ok (run (portable_process zero add mul c radius M) (reset zero radius) chunks) = true.
Proof.
  intros V zero add mul h radius a b mi chunks Hr Ha Hb Hc c M F.
  pose proof (make_config_valid h radius a b Hr Ha Hb Hc) as VC.
  destruct (portable_run zero add mul c radius M VC eq_refl Hr chunks F) as (s & o & E & _).
  now rewrite E.
Qed.
Print Assumptions C53_condition.
