(* Perceptual weighting filters: all sample rates, and the gain at the reference frequency. *)
From Verif Require Import Common ListLemmas RealUtil BiquadModel DesignModel DesignSpec DesignProofs CascadeModel CascadeSpec CascadeProofs CascadeProofs2 PoleZeroModel PoleZeroSpec PoleZeroProofs PoleZeroProofs2 PoleZeroProofs3 PoleZeroProofs4
  PoleZeroProofs7 PoleZeroProofs22 PerceptualModel PerceptualSpec PerceptualProofs PerceptualProofs2.
From Coquelicot Require Import Complex.
From Coq Require Import Psatz.
Local Open Scope R_scope.
Notation po := product_over.

Lemma perceptual_digital w fs : 0 < fs -> clear_rate w fs ->
  exists cs, perceptual_coefficients w fs = Ok cs /\ (cs <> nil /\ List.Forall (fun c => a0 c <> 0) cs) /\ stable_cascade cs /\
    forall x, - (fs / 2) < x < fs / 2 ->
      let s := (0, 2 * fs * tan (PI * x / fs)) in
      cascade_value cs (on_circle x fs) (Cmult (Cdiv (Cmult (standard_numerator w s) (factors (above_nyquist fs (standard_poles w)) s)) (Cmult (standard_denominator w s) (factors (above_nyquist fs (standard_zeros w)) s)))
        (power (Cplus (RtoC 1) (Cinv (on_circle x fs))) (excess_zeros w fs))).
Proof.
  intros Hf HC. destruct (discretize_any (perceptual_pz w fs) fs Hf) as (cs & E & SH & SC & V).
  - intros p Hp. apply in_perceptual_poles in Hp. now apply pole_cases in Hp.
  - intros z Hz. apply in_perceptual_zeros in Hz. destruct (root_cases w z) as [->|[(p & -> & HP & _)|[H _]]]; [apply in_app_iff; now left|cbn; lra|cbn; lra|lra].
  - pose proof (zero_kept w fs Hf). destruct (zeros (perceptual_pz w fs)); [contradiction|cbn; lia].
  - now apply perceptual_gain_pos.
  - intros r Hr. now apply (perceptual_clear w fs).
  - exists cs. split; [exact E|]. split; [exact SH|]. split; [exact SC|]. intros x Hx s. rewrite <- excess_is. apply V; [apply circle_neq_0|exact (proj1 (circle_low x fs 1 Hx ltac:(lra)))|]. rewrite circle_k by exact Hx. subst s. now apply perceptual_axis.
Qed.
(* ---------- PI ---------- *)
Lemma sin_lower x : 0 <= x <= 1 -> x - x * x * x / 6 <= sin x.
Proof. intros H. destruct (pre_sin_bound x 0) as [A _]; [lra|lra|]. unfold sin_approx, sin_term in A. cbn [sum_f_R0 Nat.mul Nat.add pow] in A. cbn [fact Nat.mul Nat.add INR] in A. lra. Qed.
Lemma sin_upper x : 0 <= x <= 1 -> sin x <= x - x * x * x / 6 + x * x * x * x * x / 120.
Proof.
  intros H. destruct (pre_sin_bound x 0) as [_ A]; [lra|lra|]. unfold sin_approx, sin_term in A. cbn [sum_f_R0 Nat.mul Nat.add pow] in A.
  replace (INR (fact 1)) with 1 in A by (cbn; lra). replace (INR (fact 3)) with 6 in A by (cbn; lra). replace (INR (fact 5)) with 120 in A by (rewrite INR_IZR_INZ; reflexivity). lra.
Qed.
Lemma cos_lower' x : 0 <= x <= 1 -> 1 - x * x / 2 <= cos x.
Proof. intros H. destruct (pre_cos_bound x 0) as [A _]; [lra|lra|]. unfold cos_approx, cos_term in A. cbn [sum_f_R0 Nat.mul Nat.add pow] in A. cbn [fact Nat.mul Nat.add INR] in A. lra. Qed.
Lemma cos_upper x : 0 <= x <= 1 -> cos x <= 1 - x * x / 2 + x * x * x * x / 24.
Proof.
  intros H. destruct (pre_cos_bound x 0) as [_ A]; [lra|lra|]. unfold cos_approx, cos_term in A. cbn [sum_f_R0 Nat.mul Nat.add pow] in A.
  replace (INR (fact 0)) with 1 in A by (cbn; lra). replace (INR (fact 2)) with 2 in A by (cbn; lra). replace (INR (fact 4)) with 24 in A by (cbn; lra). lra.
Qed.
Lemma pi_range : 3.14 < PI < 3.15.
Proof.
  pose proof PI2_1 as P1. pose proof PI_4 as P4. pose proof sin_PI6 as S6. split.
  - apply Rnot_le_lt. intros H. assert (B : sin (3.14 / 6) < 1 / 2).
    { pose proof (sin_upper (3.14 / 6) ltac:(lra)). lra. }
    assert (sin (PI / 6) <= sin (3.14 / 6)) by (apply sin_incr_1; lra). lra.
  - apply Rnot_le_lt. intros H. assert (B : 1 / 2 < sin (3.15 / 6)).
    { pose proof (sin_lower (3.15 / 6) ltac:(lra)). lra. }
    assert (sin (3.15 / 6) <= sin (PI / 6)) by (apply sin_incr_1; lra). lra.
Qed.
Lemma tan_range x : 0 < x < 1 -> x <= tan x /\ tan x * (1 - x * x / 2) <= x * (1 - x * x / 6 + x * x * x * x / 120).
Proof.
  intros H. pose proof (sin_lower x ltac:(lra)). pose proof (sin_upper x ltac:(lra)). pose proof (cos_lower' x ltac:(lra)). pose proof (cos_upper x ltac:(lra)).
  assert (C : 0 < cos x) by nra. assert (T : tan x * cos x = sin x) by (unfold tan; field; lra). split.
  - apply (Rmult_le_reg_r (cos x)); [exact C|]. rewrite T. assert (x * x <= 1) by nra. assert (0 <= x * x) by nra. assert (x * cos x <= x * (1 - x * x / 2 + x * x * x * x / 24)) by (apply Rmult_le_compat_l; lra).
    assert (x * (1 - x * x / 2 + x * x * x * x / 24) <= x * (1 - x * x / 6)) by (apply Rmult_le_compat_l; nra). lra.
  - assert (0 <= tan x) by (apply Rlt_le, tan_gt_0; [lra|pose proof pi_range; lra]). apply Rle_trans with (tan x * cos x); [apply Rmult_le_compat_l; lra|]. rewrite T. lra.
Qed.
Lemma warp_range f fs k c : 0 < f -> 0 < fs -> PI * f / fs <= k -> 0 < k < 1 -> 1 <= c -> 1 - k * k / 6 + k * k * k * k / 120 <= c * (1 - k * k / 2) -> c <= 2 ->
  6.28 * f <= 2 * fs * tan (PI * f / fs) <= 6.3 * f * c.
Proof.
  intros Hf Hs HX HK Hc HQ Hc2. destruct pi_range as [P1 P2]. assert (X0 : 0 < PI * f / fs) by (apply Rdiv_lt_0_compat; nra). destruct (tan_range (PI * f / fs) ltac:(lra)) as [T1 T2].
  set (x := PI * f / fs) in *. assert (EX : fs * x = PI * f) by (unfold x; field; lra). split; [nra|].
  assert (Q : 1 - x * x / 6 + x * x * x * x / 120 <= c * (1 - x * x / 2)).
  { assert (x * x <= k * k) by nra. assert (0 <= x * x) by nra. assert (k * k <= 1) by nra. set (q := x * x) in *. set (r := k * k) in *.
    replace (q * x * x) with (q * q) by (unfold q; ring). replace (r * k * k) with (r * r) in HQ by (unfold r; ring).
    (* c (1 - q/2) - 1 + q/6 - q^2/120 is decreasing in q *) assert (0 <= (r - q) * (c / 2 - / 6 + (q + r) / 120)) by (apply Rmult_le_pos; lra). nra. }
  assert (D : 0 < 1 - x * x / 2) by nra. assert (T3 : tan x <= x * c).
  { apply (Rmult_le_reg_r (1 - x * x / 2)); [exact D|]. apply Rle_trans with (1 := T2). replace (x * c * (1 - x * x / 2)) with (x * (c * (1 - x * x / 2))) by ring. apply Rmult_le_compat_l; lra. }
  apply Rle_trans with (2 * fs * (x * c)); [apply Rmult_le_compat_l; lra|]. replace (2 * fs * (x * c)) with (2 * (fs * x) * c) by ring. rewrite EX. assert (0 <= (6.3 - 2 * PI) * (f * c)) by (apply Rmult_le_pos; [lra|apply Rmult_le_pos; lra]). lra.
Qed.
Definition warped (f fs : R) : R := 2 * fs * tan (PI * f / fs).
Lemma warp_1000 fs : 8000 <= fs -> 39438400 <= warped 1000 fs * warped 1000 fs <= 44300000.
Proof.
  intros H. destruct pi_range as [P1 P2]. destruct (warp_range 1000 fs 0.39375 1.0563) as [A B]; try lra.
  - apply (Rmult_le_reg_r fs); [lra|]. replace (PI * 1000 / fs * fs) with (PI * 1000) by (field; lra). nra.
  - unfold warped. nra.
Qed.
Lemma warp_500 fs : 8000 <= fs -> 9859600 <= warped 500 fs * warped 500 fs <= 10190000.
Proof.
  intros H. destruct pi_range as [P1 P2]. destruct (warp_range 500 fs 0.196875 1.0133) as [A B]; try lra.
  - apply (Rmult_le_reg_r fs); [lra|]. replace (PI * 500 / fs * fs) with (PI * 500) by (field; lra). nra.
  - unfold warped. nra.
Qed.
(* ---------- squared magnitudes ---------- *)
Definition sq (z : C) : R := Cmod z * Cmod z.
Lemma sq_mult a b : sq (Cmult a b) = sq a * sq b.
Proof. unfold sq. rewrite Cmod_mult. ring. Qed.
Lemma sq_div a b : b <> RtoC 0 -> sq (Cdiv a b) = sq a / sq b.
Proof. intros H. unfold sq. rewrite Cmod_div by exact H. field. apply Cmod_gt_0 in H. lra. Qed.
Lemma sq_pos a : a <> RtoC 0 -> 0 < sq a.
Proof. intros H. apply Cmod_gt_0 in H. unfold sq. nra. Qed.
Lemma sq_y y : sq (0, y) = y * y.
Proof. unfold sq. rewrite Cmod2. cbn. ring. Qed.
Lemma sq_lin y c : sq (Cplus (0, y) (RtoC c)) = y * y + c * c.
Proof. unfold sq. rewrite Cmod2. cbn. ring. Qed.
Lemma sq_quad y p q : sq (Cplus (Cplus (Cmult (0, y) (0, y)) (Cmult (RtoC p) (0, y))) (RtoC q)) = (q - y * y) * (q - y * y) + p * p * (y * y).
Proof. unfold sq. rewrite Cmod2. cbn. ring. Qed.
Lemma sq_R c : sq (RtoC c) = c * c.
Proof. unfold sq. rewrite Cmod2. cbn. ring. Qed.
Lemma sq_factor y p : p <> 0 -> sq (Cminus (RtoC 1) (Cdiv (0, y) (RtoC p))) = 1 + y * y / (p * p).
Proof. intros H. unfold sq. rewrite Cmod2. cbn. field. exact H. Qed.
Lemma iv_mult a b c d x y : a <= x <= b -> c <= y <= d -> 0 <= a -> 0 <= c -> a * c <= x * y <= b * d.
Proof. intros. split; apply Rmult_le_compat; lra. Qed.
Lemma iv_ratio lo hi W c : 0 < lo -> lo <= W <= hi -> 0 <= c -> lo / (lo + c) <= W / (W + c) <= hi / (hi + c).
Proof.
  intros. split.
  - apply (Rmult_le_reg_r ((lo + c) * (W + c))); [nra|]. replace (lo / (lo + c) * ((lo + c) * (W + c))) with (lo * (W + c)) by (field; lra). replace (W / (W + c) * ((lo + c) * (W + c))) with (W * (lo + c)) by (field; lra). nra.
  - apply (Rmult_le_reg_r ((hi + c) * (W + c))); [nra|]. replace (hi / (hi + c) * ((hi + c) * (W + c))) with (hi * (W + c)) by (field; lra). replace (W / (W + c) * ((hi + c) * (W + c))) with (W * (hi + c)) by (field; lra). nra.
Qed.
Lemma sq_range h lo hi : 0 <= lo -> 0 <= hi -> lo * lo <= sq h <= hi * hi -> lo <= Cmod h <= hi.
Proof. intros A B [C D]. unfold sq in *. pose proof (Cmod_ge_0 h). split; [apply Rsqr_incr_0|apply Rsqr_incr_0]; unfold Rsqr; lra. Qed.
Definition flat (w : weighting) (n : nat) (y : R) : R := sq (standard_numerator w (0, y)) * (1 + y * y / (76655 * 76655)) ^ n / sq (standard_denominator w (0, y)).
Ltac sqs := rewrite ?sq_mult, ?sq_lin, ?sq_y, ?sq_quad, ?sq_R.
Definition top (W : R) (n : nat) : R := (1 + W / (76655 * 76655)) ^ n / ((1 + W / (76655 * 76655)) * (1 + W / (76655 * 76655))).
Lemma top_range W n : (n = 0 \/ n = 2)%nat -> 39438400 <= W <= 44300000 -> 0.98 <= top W n <= 1.
Proof.
  intros Hn H. unfold top. set (t := 1 + W / (76655 * 76655)). assert (T : 1 <= t <= 1.01) by (unfold t; lra). clearbody t. destruct Hn; subst n; cbn [pow].
  - assert (E : 1 / (t * t) * (t * t) = 1) by (field; lra). assert (0 < t * t) by nra. split; apply (Rmult_le_reg_r (t * t)); try assumption; rewrite E; nra.
  - replace (_ / _) with 1 by (field; lra). lra.
Qed.
Lemma A_range n y : (n = 0 \/ n = 2)%nat -> 39438400 <= y * y <= 44300000 -> 0.95 * 0.95 <= flat A_weighting n y <= 1.05 * 1.05.
Proof.
  intros Hn H. unfold flat. cbn [standard_numerator standard_denominator]. sqs. set (W := y * y) in *. clearbody W. clear y.
  pose proof (iv_ratio 39438400 _ W (129.4 * 129.4) ltac:(lra) H ltac:(lra)) as R1.
  pose proof (iv_ratio 39438400 _ W (676.4 * 676.4) ltac:(lra) H ltac:(lra)) as R2. pose proof (iv_ratio 39438400 _ W (4636 * 4636) ltac:(lra) H ltac:(lra)) as R3. pose proof (top_range W n Hn H) as R4.
  match goal with |- _ <= ?e <= _ => replace e with (7397050000 * 7397050000 / (76655 * 76655 * 76655 * 76655) * (W / (W + 129.4 * 129.4) * (W / (W + 129.4 * 129.4)) * (W / (W + 676.4 * 676.4) * (W / (W + 4636 * 4636))) * top W n)) end.
  2: { unfold top. field. repeat split; lra. }
  pose proof (iv_mult _ _ _ _ _ _ R1 R1 ltac:(lra) ltac:(lra)) as I1. pose proof (iv_mult _ _ _ _ _ _ R2 R3 ltac:(lra) ltac:(lra)) as I2. pose proof (iv_mult _ _ _ _ _ _ I1 I2 ltac:(lra) ltac:(lra)) as I3.
  pose proof (iv_mult _ _ _ _ _ _ I3 R4 ltac:(lra) ltac:(lra)) as I4. lra.
Qed.
Lemma B_range n y : (n = 0 \/ n = 2)%nat -> 39438400 <= y * y <= 44300000 -> 0.95 * 0.95 <= flat B_weighting n y <= 1.05 * 1.05.
Proof.
  intros Hn H. unfold flat. cbn [standard_numerator standard_denominator]. sqs. set (W := y * y) in *. clearbody W. clear y.
  pose proof (iv_ratio 39438400 _ W (129.4 * 129.4) ltac:(lra) H ltac:(lra)) as R1. pose proof (iv_ratio 39438400 _ W (996.9 * 996.9) ltac:(lra) H ltac:(lra)) as R2. pose proof (top_range W n Hn H) as R4.
  match goal with |- _ <= ?e <= _ => replace e with (5991850000 * 5991850000 / (76655 * 76655 * 76655 * 76655) * (W / (W + 129.4 * 129.4) * (W / (W + 129.4 * 129.4)) * (W / (W + 996.9 * 996.9) * top W n))) end.
  2: { unfold top. field. repeat split; lra. }
  pose proof (iv_mult _ _ _ _ _ _ R1 R1 ltac:(lra) ltac:(lra)) as I1. pose proof (iv_mult _ _ _ _ _ _ R2 R4 ltac:(lra) ltac:(lra)) as I2. pose proof (iv_mult _ _ _ _ _ _ I1 I2 ltac:(lra) ltac:(lra)) as I3. lra.
Qed.
Lemma C_range n y : (n = 0 \/ n = 2)%nat -> 39438400 <= y * y <= 44300000 -> 0.95 * 0.95 <= flat C_weighting n y <= 1.05 * 1.05.
Proof.
  intros Hn H. unfold flat. cbn [standard_numerator standard_denominator]. sqs. set (W := y * y) in *. clearbody W. clear y.
  pose proof (iv_ratio 39438400 _ W (129.4 * 129.4) ltac:(lra) H ltac:(lra)) as R1. pose proof (top_range W n Hn H) as R4.
  match goal with |- _ <= ?e <= _ => replace e with (5917970000 * 5917970000 / (76655 * 76655 * 76655 * 76655) * (W / (W + 129.4 * 129.4) * (W / (W + 129.4 * 129.4)) * top W n)) end.
  2: { unfold top. field. repeat split; lra. }
  pose proof (iv_mult _ _ _ _ _ _ R1 R1 ltac:(lra) ltac:(lra)) as I1. pose proof (iv_mult _ _ _ _ _ _ I1 R4 ltac:(lra) ltac:(lra)) as I2. lra.
Qed.
Lemma RLB_range y : 39438400 <= y * y <= 44300000 -> 0.95 * 0.95 <= flat RLB_weighting 0 y <= 1.05 * 1.05.
Proof.
  intros H. unfold flat. cbn [standard_numerator standard_denominator pow]. sqs. set (W := y * y) in *. clearbody W. clear y.
  pose proof (iv_ratio 39438400 _ W (240 * 240) ltac:(lra) H ltac:(lra)) as R1.
  match goal with |- _ <= ?e <= _ => replace e with (W / (W + 240 * 240) * (W / (W + 240 * 240))) end. 2: { field. repeat split; lra. }
  pose proof (iv_mult _ _ _ _ _ _ R1 R1 ltac:(lra) ltac:(lra)) as I1. lra.
Qed.
Lemma iv_inv lo hi x : lo <= x <= hi -> 0 < lo -> / hi <= / x <= / lo.
Proof. intros. split; apply Rinv_le_contravar; lra. Qed.
Lemma D_range y : 39438400 <= y * y <= 44300000 -> 0.95 * 0.95 <= flat D_weighting 0 y <= 1.05 * 1.05.
Proof.
  intros H. unfold flat. cbn [standard_numerator standard_denominator pow]. sqs. set (W := y * y) in *. clearbody W. clear y.
  pose proof (iv_ratio 39438400 _ W (1776.3 * 1776.3) ltac:(lra) H ltac:(lra)) as R1.
  set (N := (3266 * 3266 + 5505.2 * 5505.2 - W) * (3266 * 3266 + 5505.2 * 5505.2 - W) + 6532 * 6532 * W).
  set (D := (10757 * 10757 + 16512.02 * 16512.02 - W) * (10757 * 10757 + 16512.02 * 16512.02 - W) + 21514 * 21514 * W).
  assert (RD : 138500000000000000 <= D <= 140300000000000000) by (unfold D; nra).
  assert (RN : 18100000 <= N / (W + 7288.5 * 7288.5) <= 19600000).
  { assert (E : N / (W + 7288.5 * 7288.5) * (W + 7288.5 * 7288.5) = N) by (field; lra). split; apply (Rmult_le_reg_r (W + 7288.5 * 7288.5)); try lra; rewrite E; unfold N; nra. }
  match goal with |- _ <= ?e <= _ => replace e with (91104.32 * 91104.32 * (W / (W + 1776.3 * 1776.3) * (N / (W + 7288.5 * 7288.5)) * / D)) end. 2: { clearbody N D. field. repeat split; lra. }
  clearbody N D. pose proof (iv_inv _ _ D RD ltac:(lra)) as RI.
  pose proof (iv_mult _ _ _ _ _ _ R1 RN ltac:(lra) ltac:(lra)) as I1. pose proof (iv_mult _ _ _ _ _ _ I1 RI ltac:(lra) ltac:(lra)) as I2. lra.
Qed.
Lemma K_range y : 9859600 <= y * y <= 10190000 -> 0.99 * 0.99 <= flat K_weighting 0 y <= 1.01 * 1.01.
Proof.
  intros H. unfold flat. cbn [standard_numerator standard_denominator pow]. sqs. set (W := y * y) in *. clearbody W. clear y.
  pose proof (iv_ratio 9859600 _ W (240 * 240) ltac:(lra) H ltac:(lra)) as R1.
  set (N := (5943.129 * 5943.129 + 5976.74 * 5976.74 - W) * (5943.129 * 5943.129 + 5976.74 * 5976.74 - W) + 2 * 5943.129 * (2 * 5943.129) * W).
  set (D := (7471.63 * 7471.63 + 7534.19 * 7534.19 - W) * (7471.63 * 7471.63 + 7534.19 * 7534.19 - W) + 2 * 7471.63 * (2 * 7471.63) * W).
  assert (RD : 12740000000000000 <= D <= 12780000000000000) by (unfold D; nra).
  assert (RN : 5130000000000000 <= N <= 5150000000000000) by (unfold N; nra).
  match goal with |- _ <= ?e <= _ => replace e with (1.585 * 1.585 * (W / (W + 240 * 240) * (W / (W + 240 * 240)) * (N * / D))) end. 2: { clearbody N D. field. repeat split; lra. }
  clearbody N D. pose proof (iv_inv _ _ D RD ltac:(lra)) as RI.
  pose proof (iv_mult _ _ _ _ _ _ R1 R1 ltac:(lra) ltac:(lra)) as I1. pose proof (iv_mult _ _ _ _ _ _ RN RI ltac:(lra) ltac:(lra)) as I2. pose proof (iv_mult _ _ _ _ _ _ I1 I2 ltac:(lra) ltac:(lra)) as I3. lra.
Qed.
