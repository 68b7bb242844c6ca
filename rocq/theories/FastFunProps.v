(* C38: accuracy of FastLog2, FastExp2, FastPow and FastTanh, including all
   float rounding. *)
From Coq Require Import ZArith Reals Lia Lra.
From Flocq Require Import Core.
From Coquelicot Require Rcomplements.
From Verif Require Import RealUtil FastFunModel FastFunSpec FastFunProofs FastFunProofs2 FastFunProofs3 FastFunProofs4 FastFunProofs5.
Local Open Scope R_scope.

(* The bits denote what they should: distinct bits are distinct floats and
   memcpy to int32_t recovers them. *)
Theorem C38_bits b : (2 ^ 23 <= b < 255 * 2 ^ 23)%Z ->
  bits_of_float (float_of_bits b) = b /\ generic_format radix2 (FLT_exp (-149) 24) (float_of_bits b).
Proof.
  intros H. assert (Hm : (0 <= b mod 2 ^ 23 < 2 ^ 23)%Z) by (apply Z.mod_pos_bound; lia).
  assert (Hq : (1 <= b / 2 ^ 23)%Z) by (apply Z.div_le_lower_bound; lia).
  pose proof (Z.div_mod b (2 ^ 23) ltac:(lia)) as DM.
  unfold bits_of_float, float_of_bits.
  set (m := (b mod 2 ^ 23)%Z) in *. set (q := (b / 2 ^ 23)%Z) in *. clearbody m q.
  assert (MG : mag radix2 (IZR (2 ^ 23 + m) * bpow radix2 (q - 127 - 23)) = (q - 127 + 1)%Z :> Z).
  { assert (I : 8388608 <= IZR (2 ^ 23 + m) < 16777216) by (split; [apply IZR_le|apply IZR_lt]; lia).
    apply mag_unique. rewrite Rabs_pos_eq.
    - replace (q - 127 + 1 - 1)%Z with (23 + (q - 127 - 23))%Z by ring.
      replace (q - 127 + 1)%Z with (24 + (q - 127 - 23))%Z by ring. rewrite !bpow_plus.
      change (bpow radix2 23) with 8388608. change (bpow radix2 24) with 16777216.
      pose proof (bpow_gt_0 radix2 (q - 127 - 23)) as P. split; [apply Rmult_le_compat_r|apply Rmult_lt_compat_r]; lra.
    - apply Rmult_le_pos; [lra|apply bpow_ge_0]. }
  split.
  - rewrite MG. replace (q - 127 + 1 - 1)%Z with (q - 127)%Z by ring.
    rewrite Rmult_assoc, <- bpow_plus. replace (q - 127 - 23 + (23 - (q - 127)))%Z with 0%Z by ring.
    change (bpow radix2 0) with 1. rewrite Rmult_1_r, Ztrunc_IZR. lia.
  - apply (generic_format_FLT radix2 (-149) 24).
    apply (FLT_spec _ _ _ _ (Float radix2 (2 ^ 23 + m) (q - 127 - 23))); [reflexivity| |].
    + cbn [Fnum]. change (radix2 ^ 24)%Z with (2 * 2 ^ 23)%Z. lia.
    + cbn [Fexp]. lia.
Qed.
Print Assumptions C38_bits.

(* FastLog2 is within 0.003 of log2 for every positive normal float, and never
   decreases. *)
Theorem C38_log2 b : (2 ^ 23 <= b < 255 * 2 ^ 23)%Z ->
  abs_error_le (3 / 1000) (fast_log2 b) (log2 (float_of_bits b)).
Proof. intros H. pose proof (fast_log2_err b H). unfold abs_error_le. lra. Qed.
Print Assumptions C38_log2.

Theorem C38_log2_monotone b b' : (2 ^ 23 <= b <= b')%Z -> (b' < 255 * 2 ^ 23)%Z ->
  fast_log2 b <= fast_log2 b'.
Proof. exact (fast_log2_mono b b'). Qed.
Print Assumptions C38_log2_monotone.

(* FastExp2 is within 0.14% (documented: 0.3%) of 2^x for all |x| <= 126, never
   decreases, and is exact at the integers. *)
Theorem C38_exp2 x : -126 <= x <= 126 ->
  rel_error_le (14 / 10000) (fast_exp2 x) (exp2 x).
Proof. exact (fast_exp2_err x). Qed.
Print Assumptions C38_exp2.

Theorem C38_exp2_monotone x y : -126 <= x <= y -> y <= 126 -> fast_exp2 x <= fast_exp2 y.
Proof. exact (fast_exp2_mono x y). Qed.
Print Assumptions C38_exp2_monotone.

Theorem C38_exp2_integer n : (-126 <= n <= 126)%Z -> fast_exp2 (IZR n) = exp2 (IZR n).
Proof.
  intros H. rewrite (fast_exp2_int n H). unfold exp2. rewrite <- ln_bpow. rewrite exp_ln; [reflexivity|apply bpow_gt_0].
Qed.
Print Assumptions C38_exp2_integer.

(* FastPow is within 0.5% in the documented range when |y| <= 1.8; in general the
   logarithm of the result is off by up to 0.00197 |y| + 0.00137.  The documented
   0.5% for every exponent is false: FastPow(1, 64) is above 1.1. *)
Theorem C38_pow_partial b y : (2 ^ 23 <= b < 255 * 2 ^ 23)%Z -> Rabs y <= 9 / 5 ->
  / 10 ^ 37 <= power (float_of_bits b) y <= 10 ^ 37 ->
  rel_error_le (5 / 1000) (fast_pow b y) (power (float_of_bits b) y).
Proof. exact (fast_pow_err b y). Qed.
Print Assumptions C38_pow_partial.

Theorem C38_pow_general b y : (2 ^ 23 <= b < 255 * 2 ^ 23)%Z -> Rabs y <= 1000 ->
  / 10 ^ 37 <= power (float_of_bits b) y <= 10 ^ 37 ->
  0 < fast_pow b y /\
  abs_error_le (197 / 100000 * Rabs y + 137 / 100000) (ln (fast_pow b y)) (ln (power (float_of_bits b) y)).
Proof.
  intros Hb Hy H. destruct (fast_pow_log b y Hb Hy (power_range _ _ H)) as (P & G).
  split; [exact P|]. unfold abs_error_le, power. rewrite ln_exp. exact G.
Qed.
Print Assumptions C38_pow_general.

Theorem C38_pow_refuted : exists b y, (2 ^ 23 <= b < 255 * 2 ^ 23)%Z /\
  / 10 ^ 37 <= power (float_of_bits b) y <= 10 ^ 37 /\
  ~ rel_error_le (5 / 1000) (fast_pow b y) (power (float_of_bits b) y).
Proof. exact fast_pow_refuted. Qed.
Print Assumptions C38_pow_refuted.

(* FastTanh is within 0.0008 of tanh for every argument. *)
Theorem C38_tanh x : abs_error_le (8 / 10000) (fast_tanh x) (tanh x).
Proof. exact (fast_tanh_err x). Qed.
Print Assumptions C38_tanh.

(* The hypotheses are met, e.g. by x = 1.5f (bits 0x3FC00000) and y = -0.5. *)
Example C38_example :
  (2 ^ 23 <= 1069547520 < 255 * 2 ^ 23)%Z /\ float_of_bits 1069547520 = 3 / 2 /\
  Rabs (- (1 / 2)) <= 9 / 5 /\
  / 10 ^ 37 <= power (float_of_bits 1069547520) (- (1 / 2)) <= 10 ^ 37.
Proof.
  assert (V : float_of_bits 1069547520 = 3 / 2).
  { unfold float_of_bits. change (1069547520 / 2 ^ 23 - 127 - 23)%Z with (-23)%Z.
    change (2 ^ 23 + 1069547520 mod 2 ^ 23)%Z with 12582912%Z. change (bpow radix2 (-23)) with (/ 8388608). field. }
  split; [lia|]. split; [exact V|]. split; [apply Rabs_le; lra|]. rewrite V. unfold power.
  assert (L : 0 < ln (3 / 2) < 1).
  { split; [rewrite <- ln_1; apply ln_increasing; lra|]. rewrite <- (ln_exp 1). apply ln_increasing; [lra|].
    pose proof (exp_ineq1 1 ltac:(lra)). lra. }
  assert (T : 1 <= 10 ^ 36) by (apply pow_R1_Rle; lra).
  replace (10 ^ 37) with (10 * 10 ^ 36) by (cbn [pow]; ring).
  set (X := 10 ^ 36) in *. clearbody X. set (Y := ln (3 / 2)) in *. clearbody Y. split.
  - apply Rle_trans with (/ 10); [apply Rinv_le_contravar; lra|].
    left. apply Rlt_le_trans with (1 + - (1 / 2) * Y); [lra|].
    left. apply exp_ineq1. lra.
  - apply Rle_trans with 1; [|lra]. pose proof (exp_increasing (- (1 / 2) * Y) 0 ltac:(lra)) as I. rewrite exp_0 in I. lra.
Qed.
Print Assumptions C38_example.
