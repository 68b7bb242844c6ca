(* C45, C47, C58, C59, C60: Fourier transforms and what is built on them. *)
From Coq Require Import ZArith Reals Arith Lia Lra ZifyBool ZifyNat.
From Verif Require Import Common CInt ListLemmas NthLemmas RealUtil MfccModel MfccProofs FastFunModel FastFunProofs4 FftFloat
  FftModel FftSpec FftProofs FftProofs2 FftProofs3 FftProofs4 FftProofs5.
From Coquelicot Require Import Complex.
Local Open Scope R_scope.

Definition exact (x : R) : R := x.
Lemma exact_mono x y : x <= y -> exact x <= exact y. Proof. intros H; exact H. Qed.

Section Fft.
Context (kiss_fft : bool -> nat -> list C -> list C)
        (kiss_fftr : nat -> list R -> list C)
        (kiss_fftri : nat -> list C -> list R)
        (next_fast_size next_fast_size_real : nat -> nat)
        (K : kiss_spec kiss_fft kiss_fftr kiss_fftri next_fast_size next_fast_size_real).

(* C47: a complex transformer of any positive size computes the DFT, its inverse the
   (optionally normalised) inverse DFT, and the two are inverse to each other. *)
Theorem C47_complex_transform size : (0 < size)%Z ->
  exists t, complex_new kiss_fft next_fast_size size = Ok t /\
  forall x, length x = Z.to_nat size ->
    exists X y y1,
      complex_forward kiss_fft t x = Ok X /\ lists (Z.to_nat size) (dft (-1) (Z.to_nat size) (at_ x)) X /\
      complex_inverse kiss_fft t false x = Ok y /\ lists (Z.to_nat size) (dft 1 (Z.to_nat size) (at_ x)) y /\
      complex_inverse kiss_fft t true x = Ok y1 /\
      lists (Z.to_nat size) (fun n => Cdiv (dft 1 (Z.to_nat size) (at_ x) n) (RtoC (INR (Z.to_nat size)))) y1 /\
      complex_inverse kiss_fft t true X = Ok x /\ complex_forward kiss_fft t y1 = Ok x.
Proof.
  intros H. destruct (complex_api _ _ _ _ _ K size H) as (t & E & V & _). exists t. split; [exact E|].
  set (N := Z.to_nat size) in *. assert (N1 : (1 <= N)%nat) by lia.
  assert (NZ : RtoC (INR N) <> RtoC 0) by (apply RtoC_inj_neq, INR_neq; lia).
  assert (RN : RtoC (1 / INR N) = Cinv (RtoC (INR N))).
  { rewrite <- RtoC_inv by (apply INR_neq; lia). f_equal. unfold Rdiv. ring. }
  intros x L. destruct (V x L) as ((X & EX & VX) & I).
  destruct (I false) as (y & Ey & Vy). destruct (I true) as (y1 & Ey1 & Vy1). cbn beta iota in *.
  exists X, y, y1. split; [exact EX|]. split; [exact VX|]. split; [exact Ey|].
  split; [eapply lists_ext; [|exact Vy]; intros k _; cbn beta; ring|]. split; [exact Ey1|].
  split; [eapply lists_ext; [|exact Vy1]; intros k _; cbn beta; rewrite RN; unfold Cdiv; ring|]. split.
  - destruct (V X (lists_len _ _ _ VX)) as (_ & I'). destruct (I' true) as (z & Ez & Vz). rewrite Ez. f_equal.
    apply (lists_unique N (at_ x)); [|rewrite <- L; apply lists_self].
    eapply lists_ext; [|exact Vz]. intros k Hk. cbn beta iota.
    rewrite (dft_ext 1 N (at_ X) (dft (- (1)) N (at_ x)) k).
    + rewrite dft_inverse by (try lia; left; reflexivity). rewrite RN. field. exact NZ.
    + intros j Hj. apply (lists_at _ _ _ _ VX Hj).
  - destruct (V y1 (lists_len _ _ _ Vy1)) as ((z & Ez & Vz) & _). rewrite Ez. f_equal.
    apply (lists_unique N (at_ x)); [|rewrite <- L; apply lists_self].
    eapply lists_ext; [|exact Vz]. intros k Hk.
    rewrite (dft_ext (-1) N (at_ y1) (fun n => Cmult (RtoC (1 / INR N)) (dft (- -1) N (at_ x) n)) k).
    + unfold dft at 1. rewrite (csum_ext N _ (fun n => Cmult (RtoC (1 / INR N)) (Cmult (dft (- -1) N (at_ x) n) (root N (-1 * Z.of_nat k * Z.of_nat n))))) by (intros; ring).
      rewrite csum_scal. fold (dft (-1) N (dft (- -1) N (at_ x)) k). rewrite dft_inverse by (try lia; right; reflexivity).
      rewrite RN. field. exact NZ.
    + intros j Hj. apply (lists_at _ _ _ _ Vy1 Hj).
Qed.

(* C47: likewise for real transformers, on the N/2+1 bins from DC to Nyquist; any
   half spectrum with real DC and Nyquist bins is the transform of its inverse
   transform. *)
Theorem C47_real_transform size : (0 < size)%Z ->
  exists t, real_new kiss_fft next_fast_size size = Ok t /\
  (forall x, length x = Z.to_nat size ->
     exists X, real_forward kiss_fft kiss_fftr t x = Ok X /\
       lists (Z.to_nat size / 2 + 1) (dft (-1) (Z.to_nat size) (rat x)) X /\
       real_inverse kiss_fft kiss_fftri t true X = Ok x /\
       real_inverse kiss_fft kiss_fftri t false X = Ok (map (Rmult (INR (Z.to_nat size))) x)) /\
  (forall s, length s = (Z.to_nat size / 2 + 1)%nat -> Im (at_ s 0) = 0 ->
     (Z.even size = true -> Im (at_ s (Z.to_nat size / 2)) = 0) ->
     exists y, real_inverse kiss_fft kiss_fftri t true s = Ok y /\ length y = Z.to_nat size /\
       real_forward kiss_fft kiss_fftr t y = Ok s).
Proof.
  intros H. destruct (real_api _ _ _ _ _ K size H) as (t & E & _ & F & I & _). exists t. split; [exact E|].
  assert (EV : Z.even size = Nat.even (Z.to_nat size)).
  { rewrite <- (Z2Nat.id size) at 1 by lia. generalize (Z.to_nat size). intros n. 
    destruct (Nat.even n) eqn:EE.
    - apply Nat.even_spec in EE. destruct EE as (q & ->). apply Z.even_spec. exists (Z.of_nat q). lia.
    - assert (O : Nat.odd n = true) by (rewrite <- Nat.negb_even, EE; reflexivity).
      apply Nat.odd_spec in O. destruct O as (q & ->). rewrite <- Z.negb_odd.
      replace (Z.odd (Z.of_nat (2 * q + 1))) with true; [reflexivity|]. symmetry. apply Z.odd_spec. exists (Z.of_nat q). lia. }
  rewrite EV. clear EV.
  set (N := Z.to_nat size) in *. assert (N1 : (1 <= N)%nat) by lia. assert (NZ := INR_neq N N1). split.
  - intros x L. destruct (F x L) as (X & EX & VX). exists X. split; [exact EX|]. split; [exact VX|].
    assert (RR : forall n, (n < N)%nat -> Re (dft 1 N (hermitian N (at_ X)) n) = INR N * nth n x 0).
    { intros n Hn. apply (real_recover N (fun n => nth n x 0)); [exact N1|exact Hn|].
      intros j Hj. apply (lists_at _ _ _ _ VX). lia. }
    split.
    + destruct (I X true (lists_len _ _ _ VX)) as (y & Ey & Ly & Vy). rewrite Ey. f_equal.
      apply list_R_ext; [congruence|]. intros n Hn. rewrite Vy, RR by lia. field. exact NZ.
    + destruct (I X false (lists_len _ _ _ VX)) as (y & Ey & Ly & Vy). rewrite Ey. f_equal.
      apply list_R_ext; [rewrite map_length; congruence|]. intros n Hn. rewrite Vy, RR by lia.
      rewrite nth_map_R by lia. ring.
  - intros s L S0 SN. destruct (I s true L) as (y & Ey & Ly & Vy). exists y. split; [exact Ey|]. split; [exact Ly|].
    destruct (F y Ly) as (Y & EY & VY). rewrite EY. f_equal.
    apply (lists_unique (N / 2 + 1) (at_ s)); [|rewrite <- L; apply lists_self].
    eapply lists_ext; [|exact VY]. intros k Hk. change (rat y) with (rf (fun n => nth n y 0)).
    apply spectrum_recover; [exact N1|lia|exact S0|exact SN|].
    intros n Hn. rewrite Vy by exact Hn. unfold Rdiv. ring.
Qed.

(* C47: sizes that are not positive and arrays of a wrong size are refused. *)
Theorem C47_wrong_sizes size :
  ((size <= 0)%Z -> complex_new kiss_fft next_fast_size size = CheckFail /\ real_new kiss_fft next_fast_size size = CheckFail) /\
  (forall t x nrm, complex_new kiss_fft next_fast_size size = Ok t -> length x <> Z.to_nat size ->
     complex_forward kiss_fft t x = CheckFail /\ complex_inverse kiss_fft t nrm x = CheckFail) /\
  (forall t x s nrm, real_new kiss_fft next_fast_size size = Ok t ->
     (length x <> Z.to_nat size -> real_forward kiss_fft kiss_fftr t x = CheckFail) /\
     (length s <> (Z.to_nat size / 2 + 1)%nat -> real_inverse kiss_fft kiss_fftri t nrm s = CheckFail)).
Proof.
  destruct (Z.le_gt_cases size 0) as [L|L].
  - assert (E : complex_new kiss_fft next_fast_size size = CheckFail /\ real_new kiss_fft next_fast_size size = CheckFail).
    { unfold complex_new, real_new, ocheck. destruct (Z.ltb_spec 0 size); [lia|]. now split. }
    destruct E as (E1 & E2). split; [intros _; now split|]. split; intros; congruence.
  - split; [lia|]. split.
    + intros t x nrm E Hx. destruct (complex_api _ _ _ _ _ K size L) as (t' & E' & _ & W).
      assert (t' = t) by congruence. subst t'. now apply W.
    + intros t x s nrm E. destruct (real_api _ _ _ _ _ K size L) as (t' & E' & _ & _ & _ & W1 & W2).
      assert (t' = t) by congruence. subst t'. split; [apply W1|apply W2].
Qed.

(* C47: FFT convolution is linear convolution. *)
Theorem C47_linear_convolution a b : a <> [] -> b <> [] ->
  exists c, linear_convolution kiss_fft kiss_fftr kiss_fftri next_fast_size next_fast_size_real a b = Ok c /\
    length c = (length a + length b - 1)%nat /\
    forall n, (n < length c)%nat -> nth n c 0 = conv (fun k => nth k a 0) (fun k => nth k b 0) n.
Proof. exact (linear_convolution_ok _ _ _ _ _ K a b). Qed.

(* C47: and so is the repeated convolution of a signal with itself. *)
Theorem C47_linear_convolution_times a num_times : a <> [] -> (0 < num_times)%Z ->
  exists c, linear_convolution_times kiss_fft kiss_fftr kiss_fftri next_fast_size next_fast_size_real a num_times = Ok c /\
    length c = ((length a - 1) * Z.to_nat num_times + 1)%nat /\
    forall n, (n < length c)%nat -> nth n c 0 = conv_power (fun k => nth k a 0) (Z.to_nat num_times) n.
Proof. exact (linear_convolution_times_ok _ _ _ _ _ K a num_times). Qed.

(* C58: upsampling keeps the input samples ... *)
Theorem C58_upsample_interpolates x factor : x <> [] -> (2 <= factor)%Z ->
  exists r, upsample kiss_fft kiss_fftr kiss_fftri next_fast_size x factor = Ok r /\
    length r = (length x * Z.to_nat factor)%nat /\
    forall m, (m < length x)%nat -> nth (m * Z.to_nat factor) r 0 = nth m x 0.
Proof.
  intros Hx Hf. destruct (upsample_spec _ _ _ _ _ K x factor Hx Hf) as (r & E & L & _). exists r.
  split; [exact E|]. split; [exact L|]. intros m Hm. exact (upsample_interpolates _ _ _ _ _ K x factor r m Hx Hf E Hm).
Qed.
(* ... and is exact on periodic signals below the Nyquist frequency. *)
Theorem C58_upsample_bandlimited x factor c n0 : x <> [] -> (2 <= factor)%Z -> (1 <= n0)%nat -> (2 * (n0 - 1) < length x)%nat ->
  (forall n, (n < length x)%nat -> nth n x 0 = trig c n0 (length x) n) ->
  exists r, upsample kiss_fft kiss_fftr kiss_fftri next_fast_size x factor = Ok r /\
    length r = (length x * Z.to_nat factor)%nat /\
    forall n, (n < length r)%nat -> nth n r 0 = trig c n0 (length r) n.
Proof. exact (upsample_trig _ _ _ _ _ K x factor c n0). Qed.

(* C59: the periodic resampler gives round(size * out/in) samples and is exact on
   periodic signals below both Nyquist frequencies. *)
Theorem C59_periodic_resample x in_rate out_rate c n0 M :
  x <> [] -> 0 < in_rate -> 0 < out_rate ->
  (Z.of_nat (length x) <= INT_MAX)%Z -> (1 <= Z.of_nat M <= INT_MAX)%Z ->
  INR M - 1 / 2 <= INR (length x) * (out_rate / in_rate) < INR M + 1 / 2 ->
  (1 <= n0)%nat -> (2 * (n0 - 1) < length x)%nat -> (2 * (n0 - 1) < M)%nat ->
  (forall n, (n < length x)%nat -> nth n x 0 = trig c n0 (length x) n) ->
  exists r, fft_periodic_resample kiss_fft kiss_fftr kiss_fftri next_fast_size x in_rate out_rate = Ok r /\
    length r = M /\ forall n, (n < M)%nat -> nth n r 0 = trig c n0 M n.
Proof. exact (periodic_resample_trig _ _ _ _ _ K x in_rate out_rate c n0 M). Qed.

(* C60: the periodic Gaussian filter multiplies the k-th frequency by the Fourier
   transform of the continuous Gaussian; in particular the sum is preserved. *)
Theorem C60_gaussian x sigma : x <> [] ->
  exists y, periodic_gaussian_convolution kiss_fft kiss_fftr kiss_fftri next_fast_size x sigma = Ok y /\
    length y = length x /\
    (forall k, (k <= length x / 2)%nat ->
       dft (-1) (length x) (rat y) k = Cmult (RtoC (gauss_gain sigma (length x) k)) (dft (-1) (length x) (rat x) k)) /\
    rsumn (length x) (fun n => nth n y 0) = rsumn (length x) (fun n => nth n x 0).
Proof.
  intros Hx. destruct (gaussian_spec _ _ _ _ _ K x sigma Hx) as (y & E & L & V). exists y.
  split; [exact E|]. split; [exact L|]. split; [exact V|].
  assert (D : forall z, dft (-1) (length x) (rat z) 0 = RtoC (rsumn (length x) (fun n => nth n z 0))).
  { intros z. rewrite <- csum_RtoC. unfold dft. apply csum_ext. intros n _. change (Z.of_nat 0) with 0%Z.
    rewrite Z.mul_0_r, Z.mul_0_l, root_0. unfold rat. ring. }
  specialize (V 0%nat ltac:(lia)). rewrite !D in V. unfold gauss_gain in V. cbn [INR] in V.
  replace (- (2 * PI ^ 2 * sigma ^ 2 * 0 ^ 2 / INR (length x) ^ 2)) with 0 in V by (unfold Rdiv; ring).
  rewrite exp_0, Cmult_1_l in V. exact (RtoC_inj _ _ V).
Qed.

(* C60: it is not the documented sum over the integers: for the input (1, -1) and
   sigma = 1/10 every partial sum from the comment is more than 1/100 larger. *)
Theorem C60_documented_sum_refuted :
  exists x sigma y, x <> [] /\ 0 < sigma /\
    periodic_gaussian_convolution kiss_fft kiss_fftr kiss_fftri next_fast_size x sigma = Ok y /\
    forall terms, nth 0 y 0 + 1 / 100 < documented_gaussian x sigma 0 terms.
Proof.
  pose (x := [1; -1]). assert (Hx : x <> []) by discriminate.
  destruct (gaussian_spec _ _ _ _ _ K x (1 / 10) Hx) as (y & E & L & V). exists x, (1 / 10), y.
  split; [exact Hx|]. split; [lra|]. split; [exact E|]. intros T.
  assert (Y : nth 0 y 0 < 96 / 100).
  { pose proof (V 0%nat ltac:(cbn; lia)) as V0. pose proof (V 1%nat ltac:(cbn; lia)) as V1. clear V.
    assert (G : gauss_gain (1 / 10) (length x) 1 < 96 / 100).
    { unfold gauss_gain. cbn [length x]. replace (INR 1) with 1 by reflexivity. replace (INR 2) with 2 by (cbn; ring).
      set (u := 2 * PI ^ 2 * (1 / 10) ^ 2 * 1 ^ 2 / 2 ^ 2).
      assert (U : 9 / 200 < u).
      { unfold u. pose proof PI2_3_2 as P. unfold PI2 in P. assert (3 < PI) by lra.
        assert (9 < PI * PI) by (apply Rlt_trans with (3 * PI); [lra|]; apply Rmult_lt_compat_r; lra).
        replace (2 * PI ^ 2 * (1 / 10) ^ 2 * 1 ^ 2 / 2 ^ 2) with (PI * PI / 200) by field. lra. }
      clearbody u. rewrite exp_Ropp. pose proof (exp_ineq1 u ltac:(lra)) as X.
      apply Rlt_trans with (/ (209 / 200)); [|lra]. apply Rinv_lt_contravar; [|lra].
      apply Rmult_lt_0_compat; lra. }
    set (g := gauss_gain (1 / 10) (length x) 1) in *. clearbody g.
    assert (G0 : gauss_gain (1 / 10) (length x) 0 = 1).
    { unfold gauss_gain. cbn [length x]. replace (INR 0) with 0 by reflexivity.
      replace (- (2 * PI ^ 2 * (1 / 10) ^ 2 * 0 ^ 2 / INR 2 ^ 2)) with 0; [apply exp_0|].
      unfold Rdiv. ring. }
    rewrite G0 in V0.
    unfold dft in V0, V1. change (length x) with 2%nat in V0, V1. cbn [csum Z.of_nat Z.mul Pos.of_succ_nat Z.opp] in V0, V1.
    assert (R0 : root 2 0 = RtoC 1) by apply root_0.
    assert (R1 : root 2 (-1) = RtoC (-1)).
    { unfold root. replace (INR 2) with 2 by (cbn; ring).
      replace (2 * PI * -1 / 2) with (- PI) by field. rewrite cos_neg, sin_neg, cos_PI, sin_PI.
      apply injective_projections; cbn; ring. }
    cbn [Pos.mul] in V0, V1. rewrite ?R0, ?R1 in V0. rewrite ?R0, ?R1 in V1.
    unfold rat in V0, V1. cbn [nth x] in V0, V1.
    apply (f_equal Re) in V0. apply (f_equal Re) in V1. cbn in V0, V1. lra. }
  apply Rlt_le_trans with (97 / 100); [lra|]. unfold documented_gaussian.
  set (q := fun n : Z => exp (- IZR n ^ 2 / (2 * (1 / 10) ^ 2))).
  assert (Q0 : q 0%Z = 1) by (unfold q; replace (- 0 ^ 2 / (2 * (1 / 10) ^ 2)) with 0 by field; apply exp_0).
  assert (QS : forall n, q (- n)%Z = q n) by (intros n; unfold q; f_equal; rewrite opp_IZR; field).
  assert (QP : forall n, 0 < q n) by (intros; apply exp_pos).
  assert (QB : forall j, q (Z.of_nat (S j)) <= (/ 676) ^ S j).
  { intros j. unfold q. rewrite <- INR_IZR_INZ.
    assert (E50 : exp (-50) <= / 676).
    { replace (-50) with (- (25 + 25)) by ring. rewrite exp_Ropp, exp_plus. apply Rinv_le_contravar; [lra|].
      pose proof (exp_ineq1 25 ltac:(lra)). apply Rle_trans with (26 * 26); [lra|]. apply Rmult_le_compat; lra. }
    assert (J1 : 1 <= INR (S j)) by (change 1 with (INR 1); apply le_INR; lia).
    apply Rle_trans with (exp (INR (S j) * -50)).
    - assert (M : - INR (S j) ^ 2 / (2 * (1 / 10) ^ 2) <= INR (S j) * -50).
      { replace (- INR (S j) ^ 2 / (2 * (1 / 10) ^ 2)) with (INR (S j) * INR (S j) * -50) by field.
        assert (INR (S j) <= INR (S j) * INR (S j)); [|lra].
        rewrite <- (Rmult_1_l (INR (S j))) at 1. apply Rmult_le_compat_r; lra. }
      destruct M as [M|M]; [left; now apply exp_increasing|right; now rewrite M].
    - clear J1. generalize (S j) as n. induction n as [|n IH]; [cbn; rewrite Rmult_0_l, exp_0; lra|].
      rewrite S_INR. replace ((INR n + 1) * -50) with (INR n * -50 + -50) by ring. rewrite exp_plus.
      cbn [pow]. rewrite (Rmult_comm (/ 676)). apply Rmult_le_compat; try (left; apply exp_pos); assumption. }
  assert (S1 : forall T, 0 <= rsumn T (fun j => q (Z.of_nat (S j))) <= / 675).
  { assert (A : forall T, 0 <= rsumn T (fun j => q (Z.of_nat (S j))) <= / 675 * (1 - (/ 676) ^ T)).
    { induction T0 as [|n IH]; cbn [rsumn]; [cbn; lra|]. specialize (QB n). specialize (QP (Z.of_nat (S n))).
      cbn [pow] in *. set (p := (/ 676) ^ n) in *. lra. }
    intros n. specialize (A n). assert (0 < (/ 676) ^ n) by (apply pow_lt; lra). lra. }
  unfold two_sided. cbn beta. change (exp (- IZR 0 ^ 2 / (2 * (1 / 10) ^ 2))) with (q 0%Z). rewrite Q0.
  change (length x) with 2%nat. change (nth (Z.to_nat ((Z.of_nat 0 - 0) mod Z.of_nat 2)) x 0) with 1.
  set (D := rsumn T (fun j => q (Z.of_nat (S j)) + q (- Z.of_nat (S j))%Z)).
  assert (DE : D = 2 * rsumn T (fun j => q (Z.of_nat (S j)))).
  { unfold D. rewrite <- rsumn_scal. apply rsumn_ext. intros j _.
    change (q (Z.of_nat (S j)) + q (- Z.of_nat (S j))%Z = 2 * q (Z.of_nat (S j))). rewrite QS. ring. }
  set (NU := rsumn T _).
  assert (NE : - (2 * rsumn T (fun j => q (Z.of_nat (S j)))) <= NU).
  { unfold NU. rewrite <- rsumn_scal. clear. induction T as [|n IH]; cbn [rsumn]; [lra|].
    assert (B : forall m, -1 <= nth m [1; -1] 0) by (intros [|[|[|m]]]; cbn; lra).
    assert (QP : forall z, 0 < exp (- IZR z ^ 2 / (2 * (1 / 10) ^ 2))) by (intros; apply exp_pos).
    assert (QS : exp (- IZR (- Z.of_nat (S n)) ^ 2 / (2 * (1 / 10) ^ 2)) = exp (- IZR (Z.of_nat (S n)) ^ 2 / (2 * (1 / 10) ^ 2)))
      by (f_equal; rewrite opp_IZR; field).
    rewrite QS. specialize (QP (Z.of_nat (S n))). unfold x, q in *.
    set (e := exp (- IZR (Z.of_nat (S n)) ^ 2 / (2 * (1 / 10) ^ 2))) in *.
    set (a := nth _ [1; -1] 0). set (b := nth _ [1; -1] 0).
    assert (-1 <= a) by apply B. assert (-1 <= b) by apply B. clearbody a b e.
    assert (- e <= a * e) by (replace (- e) with (-1 * e) by ring; apply Rmult_le_compat_r; lra).
    assert (- e <= b * e) by (replace (- e) with (-1 * e) by ring; apply Rmult_le_compat_r; lra). lra. }
  rewrite DE. specialize (S1 T). set (S := rsumn T _) in *. clearbody S NU. clear D DE.
  apply Rmult_le_reg_r with (1 + 2 * S); [lra|]. unfold Rdiv at 2. rewrite Rmult_assoc, Rinv_l by lra. lra.
Qed.

(* --- C45 --- *)

(* In exact arithmetic the bins of the closed passband are kept, the others zeroed,
   whether or not the filter works in place, whatever the output held before. *)
Theorem C45_bandpass_spectrum (in_place : bool) input previous low high bw :
  input <> [] -> 0 <= low -> low <= high -> 0 < bw -> high <= bw * INR (length input) ->
  (Z.of_nat (length input) < INT_MAX - 1)%Z ->
  exists out, hard_bandpass_spectrum exact (RtoC 0) in_place input previous low high bw = Ok out /\
    length out = length input /\
    forall k, (k < length input)%nat ->
      (low <= INR k * bw <= high -> at_ out k = at_ input k) /\
      (~ (low <= INR k * bw <= high) -> at_ out k = RtoC 0).
Proof.
  intros Hne H0 Hlh Hbw Hh HI.
  assert (IB : 0 < / bw) by now apply Rinv_0_lt_compat.
  assert (R1 : high / bw <= INR (length input)).
  { apply Rmult_le_reg_r with bw; [exact Hbw|]. unfold Rdiv. rewrite Rmult_assoc, Rinv_l by lra. lra. }
  destruct (bandpass_spectrum exact exact_mono eq_refl (RtoC 0) in_place input previous low high bw Hne H0 Hlh Hbw Hh) as (out & E & L & V).
  { unfold exact. apply Rle_lt_trans with (INR (length input)); [exact R1|]. rewrite INR_IZR_INZ. apply IZR_lt. exact HI. }
  exists out. split; [exact E|]. split; [exact L|]. intros k Hk. unfold at_. rewrite V by exact Hk.
  assert (A : low / bw <= INR k <-> low <= INR k * bw).
  { split; intros A.
    - replace low with (low / bw * bw) by (field; lra). apply Rmult_le_compat_r; lra.
    - replace (INR k) with (INR k * bw / bw) by (field; lra). apply Rmult_le_compat_r; lra. }
  assert (B : INR k <= high / bw <-> INR k * bw <= high).
  { split; intros B.
    - replace high with (high / bw * bw) by (field; lra). apply Rmult_le_compat_r; lra.
    - replace (INR k) with (INR k * bw / bw) by (field; lra). apply Rmult_le_compat_r; lra. }
  unfold band, exact. split.
  - intros (P1 & P2). rewrite Rleb_true, Rleb_true by tauto. reflexivity.
  - intros P. destruct (Rleb_spec (low / bw) (INR k)); [|reflexivity]. destruct (Rleb_spec (INR k) (high / bw)); [|reflexivity].
    exfalso. tauto.
Qed.

(* With rounding (any monotone rounding of the quotients, such as to single
   precision) the passband is that of the rounded quotients. *)
Theorem C45_bandpass_rounded (rd : R -> R) (in_place : bool) input previous low high bw :
  (forall x y, x <= y -> rd x <= rd y) -> rd 0 = 0 ->
  input <> [] -> 0 <= low -> low <= high -> 0 < bw -> high <= rd (bw * rd (INR (length input))) ->
  rd (high / bw) < IZR (INT_MAX - 1) ->
  exists out, hard_bandpass_spectrum rd (RtoC 0) in_place input previous low high bw = Ok out /\
    length out = length input /\
    forall k, (k < length input)%nat ->
      (rd (low / bw) <= INR k <= rd (high / bw) -> at_ out k = at_ input k) /\
      (~ (rd (low / bw) <= INR k <= rd (high / bw)) -> at_ out k = RtoC 0).
Proof.
  intros M Z0 Hne H0 Hlh Hbw Hh HI.
  destruct (bandpass_spectrum rd M Z0 (RtoC 0) in_place input previous low high bw Hne H0 Hlh Hbw Hh HI) as (out & E & L & V).
  exists out. split; [exact E|]. split; [exact L|]. intros k Hk. unfold at_. rewrite V by exact Hk. unfold band. split.
  - intros (P1 & P2). rewrite Rleb_true, Rleb_true by assumption. reflexivity.
  - intros P. destruct (Rleb_spec (rd (low / bw)) (INR k)); [|reflexivity]. destruct (Rleb_spec (INR k) (rd (high / bw))); [|reflexivity].
    exfalso. tauto.
Qed.

(* The documented half-bin tolerance on the upper edge does not exist. *)
Theorem C45_tolerance_refuted (in_place : bool) :
  exists input previous high bw, input <> [] /\ 0 < bw /\ high < bw * INR (length input) + bw / 2 /\
    hard_lowpass_spectrum exact (RtoC 0) in_place input previous high bw = CheckFail.
Proof.
  exists [RtoC 1; RtoC 1], [], (24 / 10), 1. split; [discriminate|]. split; [lra|]. split; [cbn; lra|].
  unfold hard_lowpass_spectrum, hard_bandpass_spectrum, ocheck, exact. cbn [length Nat.eqb negb].
  rewrite (Rleb_false (24 / 10)) by (cbn; lra). now rewrite Bool.andb_false_r.
Qed.

(* The highpass accepts low edges up to half a bin below its documented limit, and
   then keeps exactly the bins from the edge on. *)
Theorem C45_highpass_partial (in_place : bool) input previous low bw :
  input <> [] -> 0 <= low -> 0 < bw -> low <= (INR (length input) - 1 / 2) * bw ->
  (Z.of_nat (length input) < INT_MAX - 1)%Z ->
  exists out, hard_highpass_spectrum exact (RtoC 0) in_place input previous low bw = Ok out /\
    length out = length input /\
    forall k, (k < length input)%nat ->
      (low <= INR k * bw -> at_ out k = at_ input k) /\ (INR k * bw < low -> at_ out k = RtoC 0).
Proof.
  intros Hne H0 Hbw Hl HI. unfold hard_highpass_spectrum.
  destruct (C45_bandpass_spectrum in_place input previous low (exact ((INR (length input) - 1 / 2) * bw)) bw) as (out & E & L & V).
  - exact Hne.
  - exact H0.
  - exact Hl.
  - exact Hbw.
  - unfold exact. lra.
  - exact HI.
  - exists out. split; [exact E|]. split; [exact L|]. intros k Hk. destruct (V k Hk) as (V1 & V2). split.
    + intros P. apply V1. split; [exact P|]. unfold exact. apply Rmult_le_compat_r; [lra|].
      assert (INR k + 1 <= INR (length input)) by (rewrite <- S_INR; apply le_INR; lia). lra.
    + intros P. apply V2. lra.
Qed.
(* It aborts on the rest of the documented range. *)
Theorem C45_highpass_refuted (in_place : bool) :
  exists input previous low bw, input <> [] /\ 0 < bw /\ 0 <= low <= bw * INR (length input) /\
    hard_highpass_spectrum exact (RtoC 0) in_place input previous low bw = CheckFail.
Proof.
  exists [RtoC 1; RtoC 1], [], 2, 1. split; [discriminate|]. split; [lra|]. split; [cbn; lra|].
  unfold hard_highpass_spectrum, hard_bandpass_spectrum, ocheck, exact. cbn [length Nat.eqb negb].
  rewrite (Rleb_false 2) by (cbn; lra). now rewrite Bool.andb_false_r.
Qed.

(* The time-domain filter keeps the frequencies k fs/N in [low, high] of the DFT and
   removes the others. *)
Theorem C45_time_domain x low high fs :
  x <> [] -> 0 <= low -> low <= high -> high <= fs / 2 -> 0 < fs -> (Z.of_nat (length x) < INT_MAX - 2)%Z ->
  exists y, fft_hard_bandpass kiss_fft kiss_fftr kiss_fftri next_fast_size exact x low high fs = Ok y /\
    length y = length x /\
    forall k, (k <= length x / 2)%nat ->
      (low <= INR k * fs / INR (length x) <= high -> dft (-1) (length x) (rat y) k = dft (-1) (length x) (rat x) k) /\
      (~ (low <= INR k * fs / INR (length x) <= high) -> dft (-1) (length x) (rat y) k = RtoC 0).
Proof.
  intros Hx H0 Hlh Hh Hfs HI.
  assert (L : (1 <= length x)%nat) by (destruct x; [contradiction|cbn; lia]).
  assert (NP : 0 < INR (length x)) by (apply lt_0_INR; lia). set (N := length x) in *.
  assert (HN : INR N <= 2 * INR (N / 2) + 1).
  { destruct (halves N L) as (E1 & E2). replace (2 * INR (N / 2) + 1) with (INR (2 * (N / 2) + 1)) by (rewrite plus_INR, mult_INR; cbn; ring).
    apply le_INR. destruct (Nat.even N); lia. }
  assert (IN : 0 < / INR N) by now apply Rinv_0_lt_compat.
  assert (BW : 0 < fs / INR N) by (apply Rmult_lt_0_compat; assumption).
  assert (QH : high / (fs / INR N) <= INR N / 2).
  { apply Rmult_le_reg_r with (fs / INR N); [exact BW|]. unfold Rdiv at 1. rewrite Rmult_assoc, Rinv_l by lra.
    replace (INR N / 2 * (fs / INR N)) with (fs / 2) by (field; lra). lra. }
  destruct (bandpass_time _ _ _ _ _ K exact exact_mono eq_refl x low high fs Hx H0 Hlh) as (y & E & Ly & V); fold N; unfold exact.
  - lia.
  - apply Rle_lt_trans with (fs / 2); [exact Hh|]. replace (fs / 2) with (fs * (1 / 2)) by field.
    apply Rmult_lt_compat_l; [exact Hfs|]. assert (0 < 1 / 2 / INR N) by (unfold Rdiv; apply Rmult_lt_0_compat; lra). lra.
  - exact BW.
  - apply Rle_trans with (fs / INR N * (INR N / 2)).
    + replace (fs / INR N * (INR N / 2)) with (fs / 2) by (field; lra). exact Hh.
    + apply Rmult_le_compat_l; [lra|]. rewrite plus_INR. change (INR 1) with 1. lra.
  - apply Rle_lt_trans with (INR N / 2); [exact QH|]. apply Rlt_trans with (INR N + 1); [lra|].
    rewrite INR_IZR_INZ. rewrite <- plus_IZR. apply IZR_lt. lia.
  - exists y. split; [exact E|]. split; [exact Ly|]. intros k Hk. fold N in V. rewrite V by exact Hk. unfold band, exact.
    assert (A : low / (fs / INR N) <= INR k <-> low <= INR k * fs / INR N).
    { split; intros A.
      - replace low with (low / (fs / INR N) * (fs / INR N)) by (field; lra).
        replace (INR k * fs / INR N) with (INR k * (fs / INR N)) by (field; lra). apply Rmult_le_compat_r; lra.
      - replace (INR k) with (INR k * fs / INR N / (fs / INR N)) by (field; lra). apply Rmult_le_compat_r; [|exact A].
        left. now apply Rinv_0_lt_compat. }
    assert (B : INR k <= high / (fs / INR N) <-> INR k * fs / INR N <= high).
    { split; intros B.
      - replace high with (high / (fs / INR N) * (fs / INR N)) by (field; lra).
        replace (INR k * fs / INR N) with (INR k * (fs / INR N)) by (field; lra). apply Rmult_le_compat_r; lra.
      - replace (INR k) with (INR k * fs / INR N / (fs / INR N)) by (field; lra). apply Rmult_le_compat_r; [|exact B].
        left. now apply Rinv_0_lt_compat. }
    split.
    + intros (P1 & P2). rewrite Rleb_true, Rleb_true by tauto. reflexivity.
    + intros P. destruct (Rleb_spec (low / (fs / INR N)) (INR k)); [|reflexivity].
      destruct (Rleb_spec (INR k) (high / (fs / INR N))); [|reflexivity]. exfalso. tauto.
Qed.

(* With the edges computed in single precision the highpass filter loses the Nyquist
   bin: 26 samples at 8000 Hz, low edge 0. *)
Theorem C45_float_edge_refuted :
  exists x fs y, 0 < fs /\
    fft_hard_highpass kiss_fft kiss_fftr kiss_fftri next_fast_size rnd32 x 0 fs = Ok y /\
    dft (-1) (length x) (rat x) (length x / 2) <> RtoC 0 /\
    dft (-1) (length x) (rat y) (length x / 2) = RtoC 0.
Proof.
  set (x := map (fun n => (-1) ^ n) (seq 0 26)). assert (LX : length x = 26%nat) by reflexivity.
  assert (I26 : INR 26 = 26) by (rewrite INR_IZR_INZ; reflexivity).
  assert (I14 : INR (26 / 2 + 1) = 14) by (rewrite INR_IZR_INZ; reflexivity).
  assert (HALF : rnd32 (8000 / 2) = 4000) by (replace (8000 / 2) with 4000 by field; apply (fmt_int 4000); cbn; lia).
  assert (BW : rnd32 (8000 / rnd32 26) = bw26) by (rewrite (fmt_int 26) by (cbn; lia); apply bw26_rnd).
  destruct (bandpass_time _ _ _ _ _ K rnd32 rnd32_mono rnd32_0 x 0 4000 8000) as (y & E & Ly & V);
    rewrite ?LX, ?I26, ?I14, ?BW.
  - discriminate.
  - lra.
  - lra.
  - vm_compute. reflexivity.
  - exact limit26.
  - rewrite bw26_val. lra.
  - exact size26.
  - apply Rlt_trans with 13; [exact edge26_below|]. apply IZR_lt. vm_compute. reflexivity.
  - exists x, 8000, y. split; [lra|]. split; [unfold fft_hard_highpass; rewrite HALF; exact E|].
    rewrite LX in *. specialize (V (26 / 2)%nat ltac:(lia)). rewrite I26, BW in V.
    split.
    + unfold dft. rewrite (csum_ext 26 _ (fun _ => RtoC 1)).
      * assert (S1 : forall n, csum n (fun _ => RtoC 1) = RtoC (INR n)).
        { induction n as [|n IH]; [reflexivity|]. cbn [csum]. rewrite IH, S_INR, RtoC_plus. reflexivity. }
        rewrite S1, I26. intros Q. apply RtoC_inj in Q. lra.
      * intros n Hn. unfold rat, x. rewrite nth_map_seq by exact Hn. cbn [Nat.add].
        assert (R1 : forall m, root 26 (-1 * Z.of_nat (26 / 2) * Z.of_nat m) = RtoC ((-1) ^ m)).
        { induction m as [|m IH]; [change (Z.of_nat 0) with 0%Z; rewrite Z.mul_0_r, root_0; reflexivity|].
          replace (-1 * Z.of_nat (26 / 2) * Z.of_nat (S m))%Z with (-13 + -1 * Z.of_nat (26 / 2) * Z.of_nat m)%Z
            by (change (Z.of_nat (26 / 2)) with 13%Z; lia).
          rewrite <- root_add, IH. cbn [pow]. rewrite RtoC_mult. f_equal. unfold root. rewrite I26.
          replace (2 * PI * -13 / 26) with (- PI) by field. rewrite cos_neg, sin_neg, cos_PI, sin_PI.
          apply injective_projections; cbn; ring. }
        rewrite R1, <- RtoC_mult. f_equal. rewrite <- Rpow_mult_distr. replace (-1 * -1) with 1 by ring. apply pow1.
    + rewrite V. unfold band. replace (INR (26 / 2)) with 13 by (rewrite INR_IZR_INZ; reflexivity).
      rewrite (Rleb_false 13) by exact edge26_below. now rewrite Bool.andb_false_r.
Qed.
End Fft.
Print Assumptions C47_complex_transform.
Print Assumptions C47_real_transform.
Print Assumptions C47_wrong_sizes.
Print Assumptions C47_linear_convolution.
Print Assumptions C47_linear_convolution_times.
Print Assumptions C58_upsample_interpolates.
Print Assumptions C58_upsample_bandlimited.
Print Assumptions C59_periodic_resample.
Print Assumptions C60_gaussian.
Print Assumptions C60_documented_sum_refuted.
Print Assumptions C45_bandpass_spectrum.
Print Assumptions C45_bandpass_rounded.
Print Assumptions C45_tolerance_refuted.
Print Assumptions C45_highpass_partial.
Print Assumptions C45_highpass_refuted.
Print Assumptions C45_time_domain.
Print Assumptions C45_float_edge_refuted.

(* The contract of Kiss FFT can be met: by the DFT itself. *)
Definition dft_fft (inv : bool) (N : nat) (x : list C) : list C :=
  map (dft (if inv then 1 else -1) N (at_ x)) (seq 0 N).
Definition dft_fftr (N : nat) (x : list R) : list C := map (dft (-1) N (rat x)) (seq 0 (N / 2 + 1)).
Definition dft_fftri (N : nat) (s : list C) : list R :=
  map (fun n => Re (dft 1 N (hermitian N (at_ s)) n)) (seq 0 N).
Lemma dft_kiss : kiss_spec dft_fft dft_fftr dft_fftri (fun n => n) (fun n => n).
Proof.
  split; [|split; [|split; [|split]]].
  - intros inv N x _ _. unfold dft_fft. apply seq_lists.
  - intros N x _ _ _. apply seq_lists.
  - intros N s _ _ _. unfold dft_fftri. split; [now rewrite map_length, seq_length|].
    intros n Hn. now rewrite nth_map_seq.
  - lia.
  - lia.
Qed.

(* 29 and 2 * 31 are transformed by Bluestein's algorithm, 21 by the complex backend
   and 60 by the real Kiss FFT. *)
Example C47_example :
  (exists t, real_new dft_fft (fun n => n) 29 = Ok (ComplexBackend (Bluestein t))) /\
  (exists t, complex_new dft_fft (fun n => n) 62 = Ok (Bluestein t)) /\
  real_new dft_fft (fun n => n) 21 = Ok (ComplexBackend (KissComplex 21)) /\
  real_new dft_fft (fun n => n) 60 = Ok (KissReal 60).
Proof.
  split; [|split; [|split]].
  - destruct (bluestein_data _ _ _ _ _ dft_kiss 29 ltac:(lia)) as (t & E & _). exists t.
    unfold real_new, ocheck. change (is_fast_kiss_fft_size 29) with (Ok false). cbn [obind negb Z.ltb Z.compare].
    change (Z.to_nat 29) with 29%nat. rewrite E. reflexivity.
  - destruct (bluestein_data _ _ _ _ _ dft_kiss 62 ltac:(lia)) as (t & E & _). exists t.
    unfold complex_new, ocheck. change (is_fast_kiss_fft_size 62) with (Ok false). cbn [obind negb Z.ltb Z.compare].
    change (Z.to_nat 62) with 62%nat. rewrite E. reflexivity.
  - reflexivity.
  - reflexivity.
Qed.

(* (1, 2) * (3, 4, 5) = (3, 10, 13, 10) *)
Example C47_convolution_example :
  linear_convolution dft_fft dft_fftr dft_fftri (fun n => n) (fun n => n) [1; 2] [3; 4; 5] = Ok [3; 10; 13; 10].
Proof.
  destruct (C47_linear_convolution _ _ _ _ _ dft_kiss [1; 2] [3; 4; 5] ltac:(discriminate) ltac:(discriminate)) as (c & E & L & V).
  rewrite E. f_equal. apply list_R_ext; [exact L|]. intros n Hn. rewrite V by exact Hn. rewrite L in Hn. cbn in Hn.
  destruct n as [|[|[|[|n]]]]; [cbn; ring..|lia].
Qed.

(* A constant plus a cosine, 5 samples, upsampled by 3. *)
Example C58_example :
  let c := fun k => if Nat.eqb k 0 then RtoC 2 else RtoC 1 in
  let x := map (trig c 2 5) (seq 0 5) in
  upsample dft_fft dft_fftr dft_fftri (fun n => n) x 3 = Ok (map (trig c 2 15) (seq 0 15)) /\
  fft_periodic_resample dft_fft dft_fftr dft_fftri (fun n => n) x 5 7 = Ok (map (trig c 2 7) (seq 0 7)).
Proof.
  cbn zeta. set (c := fun k => if Nat.eqb k 0 then RtoC 2 else RtoC 1).
  set (x := map (trig c 2 5) (seq 0 5)).
  assert (LX : length x = 5%nat) by reflexivity.
  assert (V : forall n, (n < length x)%nat -> nth n x 0 = trig c 2 (length x) n).
  { intros n Hn. rewrite LX in *. unfold x. now rewrite nth_map_seq. }
  split.
  - destruct (C58_upsample_bandlimited _ _ _ _ _ dft_kiss x 3 c 2 ltac:(discriminate) ltac:(lia) ltac:(lia) ltac:(rewrite LX; lia) V) as (r & E & L & W).
    rewrite E. f_equal. rewrite LX in L. change (5 * Z.to_nat 3)%nat with 15%nat in L.
    apply list_R_ext; [now rewrite map_length, seq_length|]. intros n Hn. rewrite W by exact Hn. rewrite L in *. now rewrite nth_map_seq.
  - destruct (C59_periodic_resample _ _ _ _ _ dft_kiss x 5 7 c 2 7 ltac:(discriminate) ltac:(lra) ltac:(lra)) as (r & E & L & W).
    + vm_compute. discriminate.
    + vm_compute. split; discriminate.
    + rewrite LX. cbn. lra.
    + lia.
    + rewrite LX. lia.
    + lia.
    + exact V.
    + rewrite E. f_equal. apply list_R_ext; [now rewrite map_length, seq_length|]. intros n Hn. rewrite L in Hn. rewrite W by exact Hn. now rewrite nth_map_seq.
Qed.

(* Bins 0, 1, 2, 3 of width 10, passband [10, 25]. *)
Example C45_example :
  hard_bandpass_spectrum exact (RtoC 0) false [RtoC 1; RtoC 2; RtoC 3; RtoC 4] [] 10 25 10 =
  Ok [RtoC 0; RtoC 2; RtoC 3; RtoC 0].
Proof.
  destruct (C45_bandpass_spectrum false [RtoC 1; RtoC 2; RtoC 3; RtoC 4] [] 10 25 10) as (out & E & L & V);
    try discriminate; try lra; try (cbn; lra); [vm_compute; reflexivity|].
  rewrite E. f_equal. apply (nth_ext _ _ (RtoC 0) (RtoC 0)); [exact L|]. intros n Hn. rewrite L in Hn. destruct (V n Hn) as (V1 & V2).
  unfold at_ in *. cbn [length] in Hn.
  destruct n as [|[|[|[|n]]]]; [| | | |lia].
  - rewrite V2; [reflexivity|]. cbn. lra.
  - rewrite V1; [reflexivity|]. cbn. lra.
  - rewrite V1; [reflexivity|]. cbn. lra.
  - rewrite V2; [reflexivity|]. cbn. lra.
Qed.
