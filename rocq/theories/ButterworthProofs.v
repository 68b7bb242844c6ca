From Verif Require Import Common RealUtil BiquadModel ComplexModel ComplexProofs DesignModel DesignSpec DesignProofs DesignProofs2 ButterworthModel.
From Coquelicot Require Import Complex.
From Coq Require Import Psatz.
Local Open Scope R_scope.

Lemma coeffs_eq (c d : coeffs R) : b0 c = b0 d -> b1 c = b1 d -> b2 c = b2 d -> a0 c = a0 d -> a1 c = a1 d -> a2 c = a2 d -> c = d.
Proof. destruct c, d. cbn. intros. now subst. Qed.

(* a section made from a pair of conjugate poles is the bilinear transform of the analog one *)
Lemma pole_section K s n0 n1 n2 : 0 < K -> fst s < 0 ->
  let den := (1, -2 * fst s, cabs2 s) in let p := bilinear_pole K s in
  let D := (K - fst s) * (K - fst s) + snd s * snd s in
  0 < D /\
  portable_coeffs (fst (fst (bilinear_map (n0, n1, n2) K)) / D) (snd (fst (bilinear_map (n0, n1, n2) K)) / D) (snd (bilinear_map (n0, n1, n2) K) / D) (-2 * fst p) (cabs2 p)
  = normalize (digital (n0, n1, n2) den K).
Proof.
  intros HK HS den p D. assert (DP : 0 < D) by (unfold D; nra). split; [exact DP|].
  assert (A0 : a0 (digital (n0, n1, n2) den K) = D) by (unfold digital, den, D, cabs2; cbn; ring).
  apply coeffs_eq; unfold normalize; cbn [b0 b1 b2 a0 a1 a2 portable_coeffs].
  - rewrite A0. reflexivity.
  - rewrite A0. reflexivity.
  - rewrite A0. reflexivity.
  - rewrite A0. field. lra.
  - rewrite A0. unfold p, bilinear_pole, den, digital, cabs2. cbn. fold D. field. lra.
  - rewrite A0. unfold p, bilinear_pole, den, digital, cabs2. cbn [fst snd a2 make_coeffs bilinear_map]. fold D.
    transitivity (((K * K - fst s * fst s - snd s * snd s) * (K * K - fst s * fst s - snd s * snd s) + 4 * K * K * snd s * snd s) / (D * D)); [field; lra|].
    replace ((K * K - fst s * fst s - snd s * snd s) * (K * K - fst s * fst s - snd s * snd s) + 4 * K * K * snd s * snd s)
      with (((K + fst s) * (K + fst s) + snd s * snd s) * D) by (unfold D; ring).
    transitivity (((K + fst s) * (K + fst s) + snd s * snd s) / D); [field; lra|]. f_equal. ring.
Qed.

Section Match.
Variables (fs g : R).
Hypothesis Hg : 0 < g.
Hypothesis Hfs : g < fs / 2.
Lemma match_K : 2 * fs * sin (PI * g / fs) = prewarp g fs * cos (PI * g / fs) /\ cos (PI * g / fs) <> 0 /\ 0 < prewarp g fs.
Proof.
  destruct (half_angle g fs Hg Hfs) as (P & _ & S & C & T). unfold prewarp. split; [|split; [lra|]].
  - unfold tan. field. lra.
  - apply Rmult_lt_0_compat; lra.
Qed.
Lemma section_value num d1 d2 : 0 < d1 -> 0 < d2 ->
  has_value (normalize (digital num (1, d1, d2) (2 * fs))) (on_circle g fs)
    (Cdiv (analog num (0, prewarp g fs)) (analog (1, d1, d2) (0, prewarp g fs))) /\ analog (1, d1, d2) (0, prewarp g fs) <> RtoC 0.
Proof.
  intros H1 H2. destruct match_K as (MK & MC & MP). assert (0 < fs) by lra.
  assert (NA : analog (1, d1, d2) (0, prewarp g fs) <> RtoC 0).
  { unfold analog. cbn [fst snd]. intros E. apply (f_equal snd) in E. cbn in E. nra. }
  split; [|exact NA].
  apply normalize_value; [pose proof (digital_a0 num d1 d2 (2 * fs) ltac:(lra) H1 H2); lra|]. rewrite on_circle_half by lra. apply value_at_match; assumption.
Qed.
End Match.

Lemma sqrt2 : 0 < sqrt 2 /\ sqrt 2 * sqrt 2 = 2.
Proof. split; [apply sqrt_lt_R0; lra|apply sqrt_sqrt; lra]. Qed.

Lemma Cmod_ratio (a b : C) r : b <> RtoC 0 -> 0 <= r -> (fst a * fst a + snd a * snd a) = r * r * (fst b * fst b + snd b * snd b) -> Cmod (Cdiv a b) = r.
Proof.
  intros NB HR E. rewrite Cmod_div by exact NB. assert (B : 0 < Cmod b) by now apply Cmod_gt_0.
  assert (EA : Cmod a = r * Cmod b).
  { unfold Cmod. replace (fst a ^ 2 + snd a ^ 2) with ((r * r) * (fst b ^ 2 + snd b ^ 2)).
    - rewrite sqrt_mult; [now rewrite sqrt_square|apply Rle_0_sqr|]. apply Rplus_le_le_0_compat; apply pow2_ge_0.
    - cbn. rewrite !Rmult_1_r. lra. }
  rewrite EA. field. lra.
Qed.

(* ratio of tangents *)
Definition warped (g f fs : R) : R := tan (PI * g / fs) / tan (PI * f / fs).

Lemma lowpass_is f fs : 0 < f -> f < fs / 2 ->
  butterworth_lowpass f fs = Some (normalize (digital (0, 0, prewarp f fs * prewarp f fs) (1, sqrt 2 * prewarp f fs, prewarp f fs * prewarp f fs) (2 * fs))) /\
  butterworth_highpass f fs = Some (normalize (digital (1, 0, 0) (1, sqrt 2 * prewarp f fs, prewarp f fs * prewarp f fs) (2 * fs))).
Proof.
  intros Hf Hfs. destruct (match_K fs f Hf Hfs) as (_ & _ & W). set (w := prewarp f fs) in *. destruct sqrt2 as [R1 R2].
  unfold butterworth_lowpass, butterworth_highpass. rewrite (Rltb_true 0 f), (Rltb_true f (fs / 2)) by lra. cbn [andb]. cbv zeta.
  unfold corner_pole. fold w. set (s := (- (1 / sqrt 2) * w, 1 / sqrt 2 * w)).
  assert (IR : 0 < 1 / sqrt 2) by (apply Rdiv_lt_0_compat; lra).
  assert (IS : 1 / sqrt 2 * (1 / sqrt 2) = 1 / 2) by (replace (1 / sqrt 2 * (1 / sqrt 2)) with (1 / (sqrt 2 * sqrt 2)) by (field; lra); rewrite R2; reflexivity).
  assert (I2 : 2 * (1 / sqrt 2) = sqrt 2) by (rewrite <- R2 at 1; field; lra).
  assert (S0 : fst s < 0) by (cbn; nra). assert (KP : 0 < 2 * fs) by lra.
  assert (D1 : -2 * fst s = sqrt 2 * w) by (unfold s; cbn [fst]; transitivity (2 * (1 / sqrt 2) * w); [ring|now rewrite I2]).
  assert (D2 : cabs2 s = w * w) by (unfold cabs2, s; cbn [fst snd]; transitivity (2 * (1 / sqrt 2 * (1 / sqrt 2)) * (w * w)); [ring|rewrite IS; field]).
  destruct (pole_section (2 * fs) s 0 0 (w * w) KP S0) as [DP E1]. destruct (pole_section (2 * fs) s 1 0 0 KP S0) as [_ E2].
  cbv zeta in E1, E2. rewrite D1, D2 in E1, E2. unfold bilinear_map in E1, E2. cbn [fst snd] in E1, E2.
  set (D := (2 * fs - fst s) * (2 * fs - fst s) + snd s * snd s) in *.
  split; [rewrite <- E1|rewrite <- E2]; f_equal.
  - assert (G : 1 / 4 * cabs2 (fst (bilinear_pole (2 * fs) s) - 1, snd (bilinear_pole (2 * fs) s)) = w * w / D).
    { unfold bilinear_pole, cabs2. cbn [fst snd]. fold D. rewrite <- D2. unfold cabs2.
      transitivity ((((2 * fs * (2 * fs) - fst s * fst s - snd s * snd s - D) * (2 * fs * (2 * fs) - fst s * fst s - snd s * snd s - D) + (2 * (2 * fs) * snd s) * (2 * (2 * fs) * snd s)) / 4) / (D * D)); [field; lra|].
      replace ((2 * fs * (2 * fs) - fst s * fst s - snd s * snd s - D) * (2 * fs * (2 * fs) - fst s * fst s - snd s * snd s - D) + (2 * (2 * fs) * snd s) * (2 * (2 * fs) * snd s))
        with (4 * (fst s * fst s + snd s * snd s) * D) by (unfold D; ring).
      field. lra. }
    rewrite G. apply coeffs_eq; cbn [b0 b1 b2 a0 a1 a2 portable_coeffs]; try reflexivity; field; lra.
  - assert (G : - (1 / 4) * (1 + 2 * fst (bilinear_pole (2 * fs) s) + cabs2 (bilinear_pole (2 * fs) s)) = - (4 * fs * fs / D)).
    { unfold bilinear_pole, cabs2. cbn [fst snd]. fold D.
      transitivity (- (1 / 4) * ((D + (2 * fs * (2 * fs) - fst s * fst s - snd s * snd s)) * (D + (2 * fs * (2 * fs) - fst s * fst s - snd s * snd s)) + (2 * (2 * fs) * snd s) * (2 * (2 * fs) * snd s)) / (D * D)); [field; lra|].
      replace ((D + (2 * fs * (2 * fs) - fst s * fst s - snd s * snd s)) * (D + (2 * fs * (2 * fs) - fst s * fst s - snd s * snd s)) + (2 * (2 * fs) * snd s) * (2 * (2 * fs) * snd s))
        with (4 * (2 * fs * (2 * fs)) * D) by (unfold D; ring).
      field. lra. }
    rewrite G. apply coeffs_eq; cbn [b0 b1 b2 a0 a1 a2 portable_coeffs]; try reflexivity; field; lra.
Qed.

Lemma warped_prewarp g f fs : 0 < fs -> tan (PI * f / fs) <> 0 -> prewarp g fs = warped g f fs * prewarp f fs.
Proof. intros H H1. unfold prewarp, warped. field. exact H1. Qed.

Lemma butterworth_lowpass_props f fs : 0 < f -> f < fs / 2 -> exists c, butterworth_lowpass f fs = Some c /\ stable c /\
  has_value c (RtoC 1) (RtoC 1) /\ has_value c (RtoC (-1)) (RtoC 0) /\
  forall g, 0 < g -> g < fs / 2 -> exists h, has_value c (on_circle g fs) h /\ Cmod h = / sqrt (1 + warped g f fs ^ 4).
Proof.
  intros Hf Hfs. destruct (lowpass_is f fs Hf Hfs) as [E _]. eexists. split; [exact E|]. clear E.
  destruct (match_K fs f Hf Hfs) as (_ & _ & W). pose proof (warped_prewarp) as WP. destruct sqrt2 as [R1 R2].
  destruct (half_angle f fs Hf Hfs) as (P & _ & _ & _ & T).
  set (w := prewarp f fs) in *. assert (D1 : 0 < sqrt 2 * w) by nra. assert (D2 : 0 < w * w) by nra. assert (K : 0 < 2 * fs) by lra.
  pose proof (digital_a0 (0, 0, w * w) _ _ _ K D1 D2) as A0.
  split; [apply normalize_stable; [lra|now apply digital_stable]|].
  split; [apply normalize_value; [lra|]; apply (has_value_eq _ _ (RtoC (w * w / (w * w)))); [apply (value_at_dc (0, 0, w * w) (1, sqrt 2 * w, w * w)); cbn; lra|f_equal; field; lra]|].
  split; [apply normalize_value; [lra|]; apply (has_value_eq _ _ (RtoC (0 / 1))); [apply (value_at_nyquist (0, 0, w * w) (1, sqrt 2 * w, w * w)); cbn; lra|f_equal; field]|].
  intros g Hg Hg2. destruct (section_value fs g Hg Hg2 (0, 0, w * w) _ _ D1 D2) as [V N]. eexists. split; [exact V|].
  rewrite (WP g f fs P ltac:(lra)) in *. fold w in N |- *. set (r := warped g f fs) in *.
  assert (Q : 0 < 1 + r ^ 4) by (replace (r ^ 4) with ((r * r) * (r * r)) by ring; nra).
  assert (SQ : / sqrt (1 + r ^ 4) * / sqrt (1 + r ^ 4) * (1 + r ^ 4) = 1).
  { rewrite <- (sqrt_sqrt (1 + r ^ 4)) at 3 by lra. field. apply Rgt_not_eq, sqrt_lt_R0, Q. }
  apply Cmod_ratio; [exact N|left; apply Rinv_0_lt_compat, sqrt_lt_R0, Q|].
  unfold analog. cbn [fst snd Cplus Cmult RtoC].
  match goal with |- ?l = _ * _ * ?rr => replace rr with (w * w * (w * w) * (1 + r ^ 4)); [transitivity (w * w * (w * w)); [ring|transitivity (w * w * (w * w) * 1); [ring|rewrite <- SQ at 1; ring]]|] end.
  ring_simplify. rewrite <- (Rpow_mult_distr (sqrt 2)) || idtac.
  replace (sqrt 2 ^ 2) with 2 by (cbn; lra). ring.
Qed.

Lemma butterworth_highpass_props f fs : 0 < f -> f < fs / 2 -> exists c, butterworth_highpass f fs = Some c /\ stable c /\
  has_value c (RtoC 1) (RtoC 0) /\ has_value c (RtoC (-1)) (RtoC 1) /\
  forall g, 0 < g -> g < fs / 2 -> exists h, has_value c (on_circle g fs) h /\ Cmod h = / sqrt (1 + warped f g fs ^ 4).
Proof.
  intros Hf Hfs. destruct (lowpass_is f fs Hf Hfs) as [_ E]. eexists. split; [exact E|]. clear E.
  destruct (match_K fs f Hf Hfs) as (_ & _ & W). destruct sqrt2 as [R1 R2].
  destruct (half_angle f fs Hf Hfs) as (P & _ & _ & _ & T). pose proof (fun g => warped_prewarp f g fs P) as WP.
  set (w := prewarp f fs) in *. assert (D1 : 0 < sqrt 2 * w) by nra. assert (D2 : 0 < w * w) by nra. assert (K : 0 < 2 * fs) by lra.
  pose proof (digital_a0 (1, 0, 0) _ _ _ K D1 D2) as A0.
  split; [apply normalize_stable; [lra|now apply digital_stable]|].
  split; [apply normalize_value; [lra|]; apply (has_value_eq _ _ (RtoC (0 / (w * w)))); [apply (value_at_dc (1, 0, 0) (1, sqrt 2 * w, w * w)); cbn; lra|f_equal; field; lra]|].
  split; [apply normalize_value; [lra|]; apply (has_value_eq _ _ (RtoC (1 / 1))); [apply (value_at_nyquist (1, 0, 0) (1, sqrt 2 * w, w * w)); cbn; lra|f_equal; field]|].
  intros g Hg Hg2. destruct (section_value fs g Hg Hg2 (1, 0, 0) _ _ D1 D2) as [V N]. eexists. split; [exact V|].
  destruct (half_angle g fs Hg Hg2) as (_ & _ & _ & _ & TG). specialize (WP g ltac:(lra)). set (r := warped f g fs) in *. set (v := prewarp g fs) in *. clearbody w. subst w.
  assert (Q : 0 < 1 + r ^ 4) by (replace (r ^ 4) with ((r * r) * (r * r)) by ring; nra).
  assert (SQ : / sqrt (1 + r ^ 4) * / sqrt (1 + r ^ 4) * (1 + r ^ 4) = 1).
  { rewrite <- (sqrt_sqrt (1 + r ^ 4)) at 3 by lra. field. apply Rgt_not_eq, sqrt_lt_R0, Q. }
  apply Cmod_ratio; [exact N|left; apply Rinv_0_lt_compat, sqrt_lt_R0, Q|].
  unfold analog. cbn [fst snd Cplus Cmult RtoC].
  match goal with |- ?l = _ * _ * ?rr => replace rr with (v * v * (v * v) * (1 + r ^ 4)); [transitivity (v * v * (v * v)); [ring|transitivity (v * v * (v * v) * 1); [ring|rewrite <- SQ at 1; ring]]|] end.
  ring_simplify. replace (sqrt 2 ^ 2) with 2 by (cbn; lra). ring.
Qed.

(* The analog prototype of the bandpass: its two pole pairs multiply out to the Butterworth form *)
Lemma bandpass_poles ex c w0s (pole := (- c, c)) (d := csqrt ex (csub (csquare pole) (w0s, 0))) : 0 < c -> 0 < w0s ->
  let s0 := cadd pole d in let s1 := csub pole d in
  fst s0 < 0 /\ fst s1 < 0 /\
  fst s0 + fst s1 = -2 * c /\
  cabs2 s0 + cabs2 s1 + 4 * (fst s0 * fst s1) = 8 * c * c + 2 * w0s /\
  fst s0 * cabs2 s1 + fst s1 * cabs2 s0 = -2 * c * w0s /\
  cabs2 s0 * cabs2 s1 = w0s * w0s.
Proof.
  intros HC HW. destruct (csqrt_spec ex (csub (csquare pole) (w0s, 0))) as (E & X0 & _). fold d in E, X0. clearbody d.
  destruct d as [x y]. unfold pole, cmul, csub, csquare in E. cbn [fst snd] in *. injection E as E1 E2.
  assert (XY : x * y = - (c * c)) by lra. assert (YX : y * y = x * x + w0s) by lra.
  assert (X1 : 0 < x) by (destruct X0 as [?|<-]; [assumption|nra]).
  assert (X2 : x < c).
  { apply Rnot_le_lt. intros L. assert (x * x * (y * y) = c * c * (c * c)) by (replace (x * x * (y * y)) with ((x * y) * (x * y)) by ring; rewrite XY; ring).
    assert (c * c <= x * x) by nra. assert (0 < x * x) by nra. assert (c * c * (c * c) <= x * x * (x * x)) by nra. nra. }
  unfold cadd, csub, cabs2, pole. cbn [fst snd]. split; [lra|]. split; [lra|]. split; [ring|].
  split; [nra|]. split.
  - transitivity (-2 * c * (c * c + y * y + c * c - x * x + 2 * (x * y)) ); [ring|]. rewrite XY, YX. ring.
  - transitivity ((2 * (c * c) + x * x + y * y) * (2 * (c * c) + x * x + y * y) - 4 * (c * c) * (y - x) * (y - x)); [ring|].
    replace (4 * (c * c) * (y - x) * (y - x)) with (4 * (c * c) * (x * x + y * y - 2 * (x * y))) by ring. rewrite XY.
    replace (w0s * w0s) with ((y * y - x * x) * (y * y - x * x)) by (rewrite YX; ring).
    transitivity ((y * y - x * x) * (y * y - x * x) + 4 * (x * y) * (x * y) - 4 * (c * c) * (c * c)); [ring|]. rewrite XY. ring.
Qed.

(* distance of a frequency from the band centre on the warped axis, in half bandwidths *)
Definition band_offset (g lo hi fs : R) : R :=
  let t x := tan (PI * x / fs) in (t g * t g - t lo * t hi) / ((t hi - t lo) * t g).

Lemma butterworth_bandpass_props ex lo hi fs : 0 < lo -> lo < hi -> hi < fs / 2 -> exists c0 c1,
  butterworth_bandpass ex lo hi fs = Some (c0, c1) /\ stable c0 /\ stable c1 /\
  forall g, 0 < g -> g < fs / 2 -> exists h0 h1, has_value c0 (on_circle g fs) h0 /\ has_value c1 (on_circle g fs) h1 /\
    Cmod (Cmult h0 h1) = / sqrt (1 + band_offset g lo hi fs ^ 4).
Proof.
  intros Hl Hlh Hh. assert (Hl2 : lo < fs / 2) by lra. assert (Hh0 : 0 < hi) by lra.
  destruct (match_K fs lo Hl Hl2) as (_ & _ & W1). destruct (match_K fs hi Hh0 Hh) as (_ & _ & W2). destruct sqrt2 as [R1 R2].
  destruct (half_angle lo fs Hl Hl2) as (P & AL & _ & _ & TL). destruct (half_angle hi fs Hh0 Hh) as (_ & AH & _ & _ & TH).
  assert (TT : tan (PI * lo / fs) < tan (PI * hi / fs)).
  { apply tan_increasing; try lra. apply Rmult_lt_compat_r; [now apply Rinv_0_lt_compat|]. pose proof PI_RGT_0. nra. }
  unfold butterworth_bandpass. rewrite (Rltb_true 0 lo), (Rltb_true lo hi), (Rltb_true hi (fs / 2)) by lra. cbn [andb]. cbv zeta.
  set (w1 := prewarp lo fs) in *. set (w2 := prewarp hi fs) in *.
  assert (BW : 0 < w2 - w1) by (unfold w1, w2, prewarp; nra). set (bw := w2 - w1) in *. set (c := 1 / 2 / sqrt 2 * bw).
  assert (IR : 0 < 1 / 2 / sqrt 2) by (apply Rdiv_lt_0_compat; lra).
  assert (CP : 0 < c) by (unfold c; nra).
  assert (CC : 8 * c * c = bw * bw).
  { unfold c. replace (8 * (1 / 2 / sqrt 2 * bw) * (1 / 2 / sqrt 2 * bw)) with (2 * bw * bw / (sqrt 2 * sqrt 2)) by (field; lra). rewrite R2. field. }
  replace (- (1 / 2 / sqrt 2) * bw) with (- c) by (unfold c; ring).
  destruct (bandpass_poles ex c (w2 * w1) CP ltac:(nra)) as (N0 & N1 & S1 & S2 & S3 & S4). cbv zeta in *.
  set (d := csqrt ex (csub (csquare (- c, c)) (w2 * w1, 0))) in *. set (s0 := cadd (- c, c) d) in *. set (s1 := csub (- c, c) d) in *.
  clearbody s0 s1. clear d. assert (KP : 0 < 2 * fs) by lra.
  destruct (pole_section (2 * fs) s1 0 0 ((2 * fs - fst s1) * (2 * fs - fst s1) + snd s1 * snd s1) KP N1) as [DP1 E1].
  set (D1 := (2 * fs - fst s1) * (2 * fs - fst s1) + snd s1 * snd s1) in *.
  destruct (pole_section (2 * fs) s0 (bw * bw / D1) 0 0 KP N0) as [DP0 E0].
  set (D0 := (2 * fs - fst s0) * (2 * fs - fst s0) + snd s0 * snd s0) in *.
  cbv zeta in E0, E1. unfold bilinear_map in E0, E1. cbn [fst snd] in E0, E1.
  assert (G : bw * (2 * fs) * (bw * (2 * fs)) / cabs2 (fst s0 - 2 * fs, snd s0) / cabs2 (fst s1 - 2 * fs, snd s1) = bw * bw / D1 * (2 * fs) * (2 * fs) / D0).
  { replace (cabs2 (fst s0 - 2 * fs, snd s0)) with D0 by (unfold D0, cabs2; cbn; ring). replace (cabs2 (fst s1 - 2 * fs, snd s1)) with D1 by (unfold D1, cabs2; cbn; ring).
    field. lra. }
  rewrite G. clear G.
  assert (EC0 : portable_coeffs (bw * bw / D1 * (2 * fs) * (2 * fs) / D0) (-2 * (bw * bw / D1 * (2 * fs) * (2 * fs) / D0)) (bw * bw / D1 * (2 * fs) * (2 * fs) / D0)
     (-2 * fst (bilinear_pole (2 * fs) s0)) (cabs2 (bilinear_pole (2 * fs) s0)) = normalize (digital (bw * bw / D1, 0, 0) (1, -2 * fst s0, cabs2 s0) (2 * fs))).
  { rewrite <- E0. apply coeffs_eq; cbn [b0 b1 b2 a0 a1 a2 portable_coeffs]; try reflexivity; field; lra. }
  assert (EC1 : portable_coeffs 1 2 1 (-2 * fst (bilinear_pole (2 * fs) s1)) (cabs2 (bilinear_pole (2 * fs) s1)) = normalize (digital (0, 0, D1) (1, -2 * fst s1, cabs2 s1) (2 * fs))).
  { rewrite <- E1. apply coeffs_eq; cbn [b0 b1 b2 a0 a1 a2 portable_coeffs]; try reflexivity; field; lra. }
  rewrite EC0, EC1. clear EC0 EC1 E0 E1.
  do 2 eexists. split; [reflexivity|]. assert (Q0 : 0 < cabs2 s0) by (unfold cabs2; nra). assert (Q1 : 0 < cabs2 s1) by (unfold cabs2; nra).
  assert (F0 : 0 < -2 * fst s0) by lra. assert (F1 : 0 < -2 * fst s1) by lra.
  pose proof (digital_a0 (bw * bw / D1, 0, 0) _ _ _ KP F0 Q0). pose proof (digital_a0 (0, 0, D1) _ _ _ KP F1 Q1).
  split; [apply normalize_stable; [lra|now apply digital_stable]|]. split; [apply normalize_stable; [lra|now apply digital_stable]|].
  intros g Hg Hg2. destruct (section_value fs g Hg Hg2 (bw * bw / D1, 0, 0) _ _ F0 Q0) as [V0 M0].
  destruct (section_value fs g Hg Hg2 (0, 0, D1) _ _ F1 Q1) as [V1 M1]. do 2 eexists. split; [exact V0|]. split; [exact V1|].
  destruct (match_K fs g Hg Hg2) as (_ & _ & WG). destruct (half_angle g fs Hg Hg2) as (_ & _ & _ & _ & TG).
  assert (BO : w2 * w1 - prewarp g fs * prewarp g fs = - band_offset g lo hi fs * (bw * prewarp g fs)).
  { unfold band_offset, bw, w1, w2, prewarp. field. lra. }
  set (w := prewarp g fs) in *. set (u := band_offset g lo hi fs) in *.
  assert (Q : 0 < 1 + u ^ 4) by (replace (u ^ 4) with ((u * u) * (u * u)) by ring; nra).
  assert (SQ : / sqrt (1 + u ^ 4) * / sqrt (1 + u ^ 4) * (1 + u ^ 4) = 1).
  { rewrite <- (sqrt_sqrt (1 + u ^ 4)) at 3 by lra. field. apply Rgt_not_eq, sqrt_lt_R0, Q. }
  set (A0 := analog (1, -2 * fst s0, cabs2 s0) (0, w)) in *. set (A1 := analog (1, -2 * fst s1, cabs2 s1) (0, w)) in *.
  assert (EA : Cmult A0 A1 = (bw * bw * (w * w) * (u * u - 1), - (4 * c * (w * w) * bw * u))).
  { apply injective_projections; unfold A0, A1, analog; cbn [fst snd Cplus Cmult RtoC].
    - transitivity (cabs2 s0 * cabs2 s1 - w * w * (cabs2 s0 + cabs2 s1 + 4 * (fst s0 * fst s1)) + w * w * (w * w)); [ring|]. rewrite S2, S4, CC.
      transitivity ((w2 * w1 - w * w) * (w2 * w1 - w * w) - w * w * (bw * bw)); [ring|]. rewrite BO. ring.
    - transitivity (-2 * w * ((fst s0 * cabs2 s1 + fst s1 * cabs2 s0) - w * w * (fst s0 + fst s1))); [ring|]. rewrite S1, S3.
      transitivity (4 * c * w * (w2 * w1 - w * w)); [ring|]. rewrite BO. ring. }
  assert (NA : Cmult A0 A1 <> RtoC 0) by (apply Cmult_neq_0; assumption).
  match goal with |- Cmod ?v = _ => replace v with (Cdiv (RtoC (- (bw * bw) * (w * w))) (Cmult A0 A1)) end.
  - apply Cmod_ratio; [exact NA|left; apply Rinv_0_lt_compat, sqrt_lt_R0, Q|]. rewrite EA. cbn [fst snd RtoC].
    match goal with |- ?l = _ * _ * ?rr => replace rr with ((bw * bw * (w * w)) * (bw * bw * (w * w)) * (1 + u ^ 4)) end.
    + transitivity ((bw * bw * (w * w)) * (bw * bw * (w * w)) * 1); [ring|rewrite <- SQ at 1; ring].
    + transitivity ((bw * bw * (w * w)) * (bw * bw * (w * w)) * ((u * u - 1) * (u * u - 1)) + (w * w) * (w * w) * (bw * bw) * (u * u) * (2 * (8 * c * c))); [rewrite CC; ring|ring].
  - replace (RtoC (- (bw * bw) * (w * w))) with (Cmult (analog (bw * bw / D1, 0, 0) (0, w)) (analog (0, 0, D1) (0, w))).
    + field. split; assumption.
    + apply injective_projections; unfold analog; cbn; field; lra.
Qed.

Lemma band_offset_edges lo hi fs : 0 < lo -> lo < hi -> hi < fs / 2 -> band_offset lo lo hi fs = -1 /\ band_offset hi lo hi fs = 1.
Proof.
  intros Hl Hlh Hh. destruct (half_angle lo fs Hl ltac:(lra)) as (P & AL & _ & _ & TL). destruct (half_angle hi fs ltac:(lra) Hh) as (_ & AH & _ & _ & TH).
  assert (TT : tan (PI * lo / fs) < tan (PI * hi / fs)).
  { apply tan_increasing; try lra. apply Rmult_lt_compat_r; [now apply Rinv_0_lt_compat|]. pose proof PI_RGT_0. nra. }
  unfold band_offset. split; field; lra.
Qed.
