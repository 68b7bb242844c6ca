(* Peak of the frequency response, poles, decay time. *)
From Coq Require Import ZArith Reals Lra Lia List Bool Psatz.
From Coquelicot Require Import Coquelicot.
From Verif Require Import Common CInt RealUtil BiquadModel DesignSpec CascadeSpec CascadeModel SteadyProps
  PeakModel PeakSpec PeakProofs PeakProofs2 PeakProofs3 PeakProofs4.
Import ListNotations.
Local Open Scope R_scope.

Lemma stable_circle_free c : stable c -> circle_free c.
Proof.
  intros [_ S] w E. specialize (S _ E). unfold Cmod in S. cbn [fst snd] in S.
  replace (cos w ^ 2 + sin w ^ 2) with 1 in S; [rewrite sqrt_1 in S; lra|].
  pose proof (sin2_cos2 w). unfold Rsqr in *. lra.
Qed.

(* a bandpass with its peak inside the range *)
Definition band : coeffs R := {| b0 := 1; b1 := 0; b2 := -1; a0 := 2; a1 := 0; a2 := 1 |}.
Lemma band_free : circle_free band.
Proof.
  intros w E. assert (E1 := f_equal (fun z => Cmod z ^ 2) E). cbv beta in E1. rewrite den_mod, Cmod_0 in E1.
  unfold Dn in E1. cbn [band a0 a1 a2] in E1. pose proof (Rle_0_sqr (cos w)). unfold Rsqr in *. lra.
Qed.
Lemma band_clear : clear_cut band.
Proof.
  assert (E : slope band = (0, -36, 0)).
  { unfold slope. cbn [band a0 a1 a2 b0 b1 b2]. f_equal; [f_equal|]; field. }
  unfold clear_cut. rewrite E. right. rewrite Rmult_0_l, Rabs_R0.
  replace ((-36) ^ 2 - 4 * 0 * 0) with 1296 by ring. rewrite Rabs_pos_eq by lra. split; lra.
Qed.
Lemma band_peak : gain_at band (PI / 2) 2.
Proof.
  apply (gain_at_iff band band_free). unfold PeakProofs.G. rewrite cos_PI2.
  replace (Fn band 0) with (2 ^ 2); [symmetry; apply sqrt_pow2; lra|].
  unfold Fn, Nn, Dn. cbn [band a0 a1 a2 b0 b1 b2]. field.
Qed.

(* C85: for every filter without a pole on the unit circle the search returns the
   largest gain over all frequencies and the lowest frequency having it.
   Partial: the discriminant of the slope must be zero or clearly non-zero in
   double precision. *)
Theorem C85_peak_partial c : circle_free c -> clear_cut c ->
  exists w g, find_peak c = Ok (w, g) /\ lowest_peak c w g.
Proof. exact (peak_ok c). Qed.
Print Assumptions C85_peak_partial.
Example C85_ex : exists w g, find_peak band = Ok (w, g) /\ lowest_peak band w g /\ 2 <= g.
Proof.
  destruct (C85_peak_partial band band_free band_clear) as (w & g & E & L). exists w, g. split; [exact E|]. split; [exact L|].
  destruct L as (_ & _ & M & _). exact (M _ _ band_peak).
Qed.

(* C85: setting the peak gain makes the largest gain the requested one and scales the response *)
Theorem C85_set_peak_gain_partial c g : circle_free c -> clear_cut c -> 0 <= g -> (exists w v, gain_at c w v /\ 0 < v) ->
  exists c' w, set_peak_gain c g = Ok c' /\ 0 <= w <= PI /\ gain_at c' w g /\
    (forall w' g', gain_at c' w' g' -> g' <= g) /\
    exists k, forall z h, has_value c z h -> has_value c' z (RtoC k * h)%C.
Proof. exact (set_peak_ok c g). Qed.
Print Assumptions C85_set_peak_gain_partial.
Example C85_set_ex : exists c' w, set_peak_gain band 5 = Ok c' /\ gain_at c' w 5 /\ forall w' g', gain_at c' w' g' -> g' <= 5.
Proof.
  destruct (C85_set_peak_gain_partial band 5 band_free band_clear) as (c' & w & A & _ & B & D & _); [lra| |].
  - exists (PI / 2), 2. split; [exact band_peak|lra].
  - exists c', w. auto.
Qed.

(* C85: setting the gain at one frequency, for every filter and frequency *)
Theorem C85_set_gain_at_frequency c g w v : circle_free c -> gain_at c w v -> 0 < v -> 0 <= g ->
  exists c', set_gain_at_frequency c g w = Ok c' /\ gain_at c' w g /\
    exists k, forall z h, has_value c z h -> has_value c' z (RtoC k * h)%C.
Proof.
  intros CF V P G0. pose proof (proj1 (gain_at_iff c CF w v) V) as E.
  exists (adjust_stage (g / v) c). split.
  { unfold set_gain_at_frequency. rewrite (gain_magnitude_eq c CF w), <- E. cbn [obind].
    destruct (Reqb_spec v 0); [lra|reflexivity]. }
  split; [|exists (g / v); intros; now apply adjust_value].
  pose proof (adjust_gain_at c (g / v) w v V) as A. rewrite Rabs_pos_eq in A.
  - replace (g / v * v) with g in A by (field; lra). exact A.
  - apply Rmult_le_pos; [exact G0|]. left. now apply Rinv_0_lt_compat.
Qed.
Print Assumptions C85_set_gain_at_frequency.
Example C85_gain_ex : exists c', set_gain_at_frequency band 7 (PI / 2) = Ok c' /\ gain_at c' (PI / 2) 7.
Proof.
  destruct (C85_set_gain_at_frequency band 7 (PI / 2) 2 band_free band_peak ltac:(lra) ltac:(lra)) as (c' & A & B & _). eauto.
Qed.

(* C86: search by bisection over any function with finite values inside the range.
   The result lies in the range, is a value of the function, is at least every
   value on the grid of 98 points, and when the function has a single peak the
   returned position is that of the peak to the stated accuracy.
   Partial: some value on the grid must be positive. *)
Theorem C86_bisection_partial f g lo hi : (forall x, lo < x < hi -> f x = Ok (g x)) -> lo < hi ->
  (exists k, (1 <= k <= 98)%Z /\ 0 < g (lo + IZR k * ((hi - lo) / 99))) ->
  exists w, find_peak_by_bisection f lo hi = Ok (w, g w) /\ lo < w < hi /\
    (forall k, (1 <= k <= 98)%Z -> g (lo + IZR k * ((hi - lo) / 99)) <= g w) /\
    forall p, single_peak g lo hi p ->
      Rabs (p - w) <= (hi - lo) / 99 / 1048576 \/ Rabs (p - w) < 1 / 1000000000 + 5 / 1000000 * w.
Proof.
  intros H LH G. destruct (bisection_ok f g lo hi H LH G) as (w & A & B & D & E). exists w.
  split; [exact A|]. split; [exact B|]. split; [exact D|]. intros p P. specialize (E p P).
  unfold near_enough in E. replace (2 ^ 20) with 1048576 in E by ring. exact E.
Qed.
Print Assumptions C86_bisection_partial.
(* a parabola on [1, 2] *)
Example C86_ex : exists w, find_peak_by_bisection (fun x => Ok (1 - (x - 3 / 2) * (x - 3 / 2))) 1 2 = Ok (w, 1 - (w - 3 / 2) * (w - 3 / 2)) /\
  Rabs (3 / 2 - w) < 2 / 100000.
Proof.
  destruct (C86_bisection_partial _ (fun x => 1 - (x - 3 / 2) * (x - 3 / 2)) 1 2 (fun x _ => eq_refl)) as (w & A & B & _ & D); [lra| |].
  - exists 50%Z. split; [lia|]. lra.
  - exists w. split; [exact A|]. destruct (D (3 / 2)) as [L|L]; [|lra|lra].
    split; [lra|]. split; intros x y H1 H2 H3 H4; nra.
Qed.

(* C86: the range is not respected when the function is nowhere positive *)
Theorem C86_range_refuted : exists f lo hi w v, find_peak_by_bisection f lo hi = Ok (w, v) /\ lo < hi /\ w < lo.
Proof.
  exists (fun _ => Ok 0), 1, 2, 0, 0. unfold find_peak_by_bisection. rewrite Rltb_true by lra. cbn [ocheck].
  rewrite zero_grid. cbn [obind]. rewrite zero_bisect. repeat split; lra.
Qed.
Print Assumptions C86_range_refuted.

(* C86: peak of a cascade *)
Theorem C86_cascade_peak_partial cs : Forall circle_free cs ->
  (exists k v, (1 <= k <= 98)%Z /\ cascade_gain_at cs (IZR k * PI / 99) v /\ 0 < v) ->
  exists w g, cascade_find_peak cs = Ok (w, g) /\ 0 < w < PI /\ cascade_gain_at cs w g /\
    (forall k v, (1 <= k <= 98)%Z -> cascade_gain_at cs (IZR k * PI / 99) v -> v <= g) /\
    forall p gain, (forall x, 0 < x < PI -> cascade_gain_at cs x (gain x)) -> single_peak gain 0 PI p ->
      Rabs (p - w) <= PI / 99 / 1048576 \/ Rabs (p - w) < 1 / 1000000000 + 5 / 1000000 * w.
Proof. exact (cascade_peak_ok cs). Qed.
Print Assumptions C86_cascade_peak_partial.

(* C86: setting the peak gain of a cascade scales the response so that the gain at the found frequency is the requested one *)
Theorem C86_cascade_set_peak_gain_partial cs g : cs <> [] -> Forall circle_free cs -> 0 <= g ->
  (exists k v, (1 <= k <= 98)%Z /\ cascade_gain_at cs (IZR k * PI / 99) v /\ 0 < v) ->
  exists cs' w p k, cascade_find_peak cs = Ok (w, p) /\ 0 < p /\ k * p = g /\
    cascade_set_peak_gain cs g = Ok cs' /\ cascade_gain_at cs' w g /\
    forall z h, cascade_value cs z h -> cascade_value cs' z (RtoC k * h)%C.
Proof. exact (cascade_set_peak_ok cs g). Qed.
Print Assumptions C86_cascade_set_peak_gain_partial.

Lemma half_gain w : PeakProofs.G half w = sqrt (1 / (5 - 4 * cos w)).
Proof. unfold PeakProofs.G, Fn, Nn, Dn. cbn [half a0 a1 a2 b0 b1 b2]. f_equal. f_equal; ring. Qed.
Lemma half_cascade_gain w g : cascade_gain_at [half] w g <-> g = sqrt (1 / (5 - 4 * cos w)).
Proof.
  rewrite <- half_gain. rewrite (proj2 (cascade_gain_ok [half] w (Forall_cons _ (stable_circle_free _ half_stable) (Forall_nil _)))).
  cbn [Gc]. now rewrite Rmult_1_r.
Qed.
Lemma half_pos w : 0 < sqrt (1 / (5 - 4 * cos w)).
Proof. apply sqrt_lt_R0. pose proof (COS_bound w). apply Rdiv_lt_0_compat; lra. Qed.
Example C86_cascade_ex : exists w g, cascade_find_peak [half] = Ok (w, g) /\ 0 < w < PI /\ cascade_gain_at [half] w g.
Proof.
  destruct (C86_cascade_peak_partial [half]) as (w & g & A & B & D & _).
  - constructor; [apply stable_circle_free, half_stable|constructor].
  - exists 1%Z, (sqrt (1 / (5 - 4 * cos (1 * PI / 99)))). split; [lia|]. split; [now apply half_cascade_gain|apply half_pos].
  - exists w, g. auto.
Qed.

(* C86: the maximum of a lowpass cascade at zero frequency is not found, and after
   setting the peak gain the gain at zero frequency exceeds it *)
Theorem C86_dc_peak_refuted : exists cs w g cs', Forall stable cs /\ cascade_find_peak cs = Ok (w, g) /\
  (exists g0, cascade_gain_at cs 0 g0 /\ g < g0) /\ 0 < w /\
  cascade_set_peak_gain cs 1 = Ok cs' /\ (exists g0, cascade_gain_at cs' 0 g0 /\ 1 < g0).
Proof.
  assert (F : Forall circle_free [half]) by (constructor; [apply stable_circle_free, half_stable|constructor]).
  assert (K : exists k v, (1 <= k <= 98)%Z /\ cascade_gain_at [half] (IZR k * PI / 99) v /\ 0 < v).
  { exists 1%Z, (sqrt (1 / (5 - 4 * cos (1 * PI / 99)))). split; [lia|]. split; [now apply half_cascade_gain|apply half_pos]. }
  destruct (C86_cascade_set_peak_gain_partial [half] 1) as (cs' & w & p & k & E & P & KP & E' & _ & V); [discriminate|exact F|lra|exact K|].
  destruct (C86_cascade_peak_partial [half] F K) as (w' & p' & E2 & W & GA & _). rewrite E in E2. injection E2 as <- <-.
  apply half_cascade_gain in GA.
  assert (G0 : cascade_gain_at [half] 0 1).
  { apply half_cascade_gain. rewrite cos_0. replace (1 / (5 - 4 * 1)) with 1 by field. now rewrite sqrt_1. }
  assert (PL : p < 1).
  { rewrite GA. rewrite <- sqrt_1 at 2. apply sqrt_lt_1_alt. assert (cos w < 1).
    { rewrite <- cos_0. apply cos_decreasing_1; lra. }
    pose proof (COS_bound w). split; [left; apply Rdiv_lt_0_compat; lra|].
    apply (Rmult_lt_reg_r (5 - 4 * cos w)); [lra|]. unfold Rdiv. rewrite Rmult_assoc, Rinv_l by lra. lra. }
  assert (K1 : 1 < k) by nra.
  exists [half], w, p, cs'. split; [constructor; [exact half_stable|constructor]|]. split; [exact E|].
  split; [exists 1; split; [exact G0|exact PL]|]. split; [lra|]. split; [exact E'|].
  destruct G0 as (h & Vh & M). exists k. split; [|exact K1]. exists (RtoC k * h)%C. split; [now apply V|].
  rewrite Cmod_mult, Cmod_R, M, Rabs_pos_eq; lra.
Qed.
Print Assumptions C86_dc_peak_refuted.

(* C87: the poles returned are the roots of the denominator.
   Partial: the discriminant must be zero or clearly non-zero in double precision;
   C87_poles_near gives the error otherwise. *)
Theorem C87_poles_partial c : a0 c <> 0 -> clear_poles c ->
  exists p q, get_poles c = Ok (p, q) /\ forall z : Complex.C, denominator c z = (RtoC (a0 c) * (z - p) * (z - q))%C.
Proof. exact (get_poles_exact c). Qed.
Print Assumptions C87_poles_partial.
(* C87: in every case the sum is exact and the product is off by at most 2^-52 times the larger of two coefficients *)
Theorem C87_poles_near c : a0 c <> 0 -> exists p q, get_poles c = Ok (p, q) /\
  (p + q = RtoC (- a1 c / a0 c))%C /\
  Cmod (p * q - RtoC (a2 c / a0 c))%C <= / 4503599627370496 * Rmax ((a1 c / a0 c) ^ 2 / 2) (Rabs (a2 c / a0 c)).
Proof. exact (get_poles_near c). Qed.
Print Assumptions C87_poles_near.
Lemma half_clear : clear_poles half.
Proof. right. cbn [half a0 a1 a2]. rewrite !Rmult_0_r, Rabs_R0. replace ((-1) ^ 2 - 0) with 1 by ring. rewrite Rabs_R1. lra. Qed.
Example C87_poles_ex : exists p q, get_poles half = Ok (p, q) /\ ((p = RtoC (1 / 2)) \/ (q = RtoC (1 / 2))).
Proof.
  destruct (C87_poles_partial half) as (p & q & E & P); [cbn; lra|exact half_clear|]. exists p, q. split; [exact E|].
  specialize (P (RtoC (1 / 2))).
  assert (Z : denominator half (RtoC (1 / 2)) = RtoC 0) by (apply injective_projections; cbn; lra). rewrite Z in P.
  destruct (Ceq_dec p (RtoC (1 / 2))) as [A|A]; [now left|]. destruct (Ceq_dec q (RtoC (1 / 2))) as [B|B]; [now right|].
  exfalso. symmetry in P. revert P. apply Cmult_neq_0; [apply Cmult_neq_0|].
  - apply RtoC_nz. cbn. lra.
  - intros X. apply A. transitivity (RtoC (1 / 2) - (RtoC (1 / 2) - p))%C; [ring|]. rewrite X. ring.
  - intros X. apply B. transitivity (RtoC (1 / 2) - (RtoC (1 / 2) - q))%C; [ring|]. rewrite X. ring.
Qed.

(* C87: an infinite decay time is reported exactly for unstable filters *)
Theorem C87_infinite_iff_unstable c db : a0 c <> 0 -> clear_poles c ->
  (estimate_decay_time c db = Ok None <-> ~ stable c).
Proof. exact (decay_none c db). Qed.
Print Assumptions C87_infinite_iff_unstable.

(* C87: a finite decay time t gives the rate of decay of the impulse response: the
   response stays below a multiple of (n + 1) 10^(-(db/20) n / (t - 2)), and if no
   zero cancels a pole it is not smaller in order than 10^(-(db/20) n / (t - 2)).
   When t is 2 the response is over after two samples. *)
Theorem C87_decay_rate c db t : a0 c <> 0 -> clear_poles c -> 0 < db -> estimate_decay_time c db = Ok (Some t) ->
  stable c /\
  (t = 2 /\ (forall n, (2 < n)%nat -> impulse_response c n = 0) \/
   2 < t /\ exists K, 0 <= K /\ forall n, Rabs (impulse_response c n) <= K * (INR n + 1) * Rpower 10 (- (db / 20) * (INR n / (t - 2)))) /\
  ((forall z, denominator c z = RtoC 0 -> numerator c z <> RtoC 0) -> 2 < t ->
    ~ is_lim_seq (fun n => impulse_response c n / Rpower 10 (- (db / 20) * (INR n / (t - 2)))) 0).
Proof. exact (decay_some c db t). Qed.
Print Assumptions C87_decay_rate.
Example C87_decay_ex : exists t, estimate_decay_time half 60 = Ok (Some t).
Proof.
  destruct (estimate_cases half 60) as (p & q & P & H); [cbn; lra|exact half_clear|]. cbv zeta in H.
  destruct H as [[M _]|[[_ E]|[_ E]]]; [|eauto|eauto].
  exfalso. apply (poles_stable half p q) in P; [|cbn; lra]. pose proof (proj1 P half_stable). lra.
Qed.

(* C87: it is not the time to decay below the peak value by the given amount: with
   a double pole at 0.9 the estimate for 20 dB is at most 24 samples, and the
   24th sample is above a tenth of the ninth *)
Theorem C87_decay_refuted : exists c t, stable c /\ estimate_decay_time c 20 = Ok (Some t) /\ t <= INR 24 /\
  impulse_response c 9 / 10 < impulse_response c 24.
Proof.
  destruct double_pole_decay as (t & E & T). exists double_pole, t.
  split; [exact (proj1 (decay_some double_pole 20 t ltac:(cbn; lra) double_pole_clear ltac:(lra) E))|].
  split; [exact E|]. split; [cbn; lra|]. rewrite !double_pole_h. cbn. lra.
Qed.
Print Assumptions C87_decay_refuted.
