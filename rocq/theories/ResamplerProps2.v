(* C16, C17: further properties of the rational factor resamplers. *)
From Verif Require Import CInt ListLemmas ResamplerModel ResamplerSpec ResamplerProofs ResamplerPropsProofs.

(* The constructor from a factor reduces it to lowest terms; the positions of the output samples
   are those of the factor asked for. *)
Theorem C16_reduced_factor a b : 0 < a -> 0 < b ->
  let '(a', b') := rf_reduced a b in
  0 < a' /\ 0 < b' /\ Z.gcd a' b' = 1 /\ a' * b = a * b' /\
  forall m, 0 <= m -> m * a' / b' = m * a / b /\ (m * a') mod b' * b = (m * a) mod b * b'.
Proof.
  intros Ha Hb. unfold rf_reduced. set (g := Z.gcd a b). assert (G : 0 < g) by (unfold g; pose proof (Z.gcd_nonneg a b); pose proof (Z.gcd_eq_0_l a b); lia).
  destruct (Z.gcd_divide_l a b) as [x Hx]. destruct (Z.gcd_divide_r a b) as [y Hy]. fold g in Hx, Hy.
  assert (X : 0 < x) by nia. assert (Y : 0 < y) by nia.
  replace (Z.quot a g) with x by (rewrite Hx, Z.quot_mul by lia; reflexivity). replace (Z.quot b g) with y by (rewrite Hy, Z.quot_mul by lia; reflexivity).
  split; [exact X|]. split; [exact Y|]. split.
  { assert (E : g = g * Z.gcd x y) by (unfold g at 1; rewrite Hx, Hy, Z.gcd_mul_mono_r_nonneg by lia; ring). pose proof (Z.gcd_nonneg x y). nia. }
  split; [rewrite Hx, Hy; ring|]. intros m Hm. rewrite Hx, Hy. replace (m * (x * g)) with (m * x * g) by ring. split.
  - symmetry. apply Z.div_mul_cancel_r; lia.
  - rewrite Z.mul_mod_distr_r by lia. ring.
Qed.
Print Assumptions C16_reduced_factor.
Example C16_reduced_example : rf_reduced 44100 48000 = (147, 160) /\ 10 * 147 / 160 = 10 * 44100 / 48000.
Proof. vm_compute. split; reflexivity. Qed.

(* Flushing the portable resampler: whatever the maximal block size asked for, the block of
   num_taps - 1 zeros is accepted whole, and afterwards only zeros remain. *)
Theorem C17_portable_flush :
  forall V (zero : V) add mul h radius a b max_input chunks,
  0 <= radius -> 0 < a -> 0 < b -> a <= b * (2 * radius + 1) ->
  let c := make_config h radius a b in
  let M := make_max_input radius max_input in
  let zeros := repeat zero (Z.to_nat (flush_size c)) in
  Forall (fun ch => Z.of_nat (length ch) <= M) chunks ->
  exists s outs s' ys,
    run (portable_process zero add mul c radius M) (reset zero radius) chunks = Ok (s, outs) /\
    portable_process zero add mul c radius M s zeros = Ok (s', ys) /\
    Forall (eq zero) (delayed s') /\
    concat outs ++ ys = resampled (c_dot1 zero add mul) a b (Z.to_nat (2 * radius + 1)) (filters c)
      (repeat zero (Z.to_nat radius) ++ concat chunks ++ repeat zero (Z.to_nat (2 * radius))).
Proof.
  intros V zero add mul h radius a b mi chunks Hr Ha Hb Hc c M zeros F.
  pose proof (make_config_valid h radius a b Hr Ha Hb Hc) as VC.
  assert (HZ : Z.of_nat (length zeros) = 2 * radius) by (unfold zeros, flush_size; rewrite repeat_length; cbn [taps c make_config]; lia).
  assert (HM : 2 * radius <= M) by (unfold M, make_max_input; destruct (Z.ltb_spec mi (2 * radius + 1 - 1)); lia).
  destruct (portable_run zero add mul c radius M VC eq_refl Hr chunks F) as (s & o & E & A & R).
  destruct (portable_step zero add mul c radius M VC _ s zeros ltac:(lia) A) as (s' & ys & E2 & A2 & _ & _ & R2).
  exists s, o, s', ys. split; [exact E|]. split; [exact E2|]. split.
  - apply (at_stream_zeros c VC zero _ s') in A2. exact A2.
  - cbn [numer denom taps c make_config] in R, R2. rewrite R. rewrite <- app_assoc in R2. unfold zeros, flush_size in R2. cbn [taps c make_config] in R2. replace (2 * radius + 1 - 1) with (2 * radius) in R2 by lia. exact (eq_sym R2).
Qed.
Print Assumptions C17_portable_flush.
Example C17_portable_flush_example :
  let c := make_config (fun p k => 10 * p + k + 3) 2 3 2 in
  exists s, portable_process 0 Z.add Z.mul c 2 (make_max_input 2 1) {| delayed := [5; 6; 7]; phase := 0 |} (repeat 0 4) = Ok (s, [70; 188]) /\ delayed s = [0; 0; 0; 0].
Proof. eexists. vm_compute. split; reflexivity. Qed.
