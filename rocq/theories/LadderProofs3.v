(* The coefficient smoother of the ladder filter. *)
From Verif Require Import Common ListLemmas Mealy RealUtil BiquadModel DesignModel CascadeModel LadderModel LadderSpec LadderProofs LadderProofs2.
From Coq Require Import Psatz.
Local Open Scope R_scope.

(* a lowpass with two real poles p and q *)
Definition overdamped (f : biquad R) (p q : R) : Prop :=
  0 <= q /\ q <= p /\ 0 < p /\ p < 1 /\ fb1 f = - (p + q) /\ fb2 f = p * q /\
  ff0 f = (1 - p) * (1 - q) / 4 /\ ff1 f = (1 - p) * (1 - q) / 2 /\ ff2 f = (1 - p) * (1 - q) / 4.

(* design with Q <= 1/2 and a corner frequency well below the sample rate *)
Lemma lowpass_overdamped fs f Q c : 0 < f -> f <= fs / 10 -> 2 / 5 <= Q <= 1 / 2 -> lowpass fs f Q = Ok c ->
  a0 c = 1 /\
  forall n s, biquad_init 0 1 Rmult Rdiv (fun x => Reqb x 0) n c = Ok s -> exists p q, overdamped s p q.
Proof.
  intros Hf Hr HQ HC.
  assert (HX : 0 < PI * f / fs /\ PI * f / fs <= 2 / 5).
  { pose proof PI_RGT_0. pose proof PI_4. assert (0 < fs) by lra. assert (E : f / fs <= / 10) by (apply (Rmult_le_reg_r fs); [lra|]; unfold Rdiv; rewrite Rmult_assoc, Rinv_l by lra; lra).
    assert (0 < f / fs) by (apply Rdiv_lt_0_compat; lra). unfold Rdiv in *. rewrite Rmult_assoc. split; nra. }
  destruct HX as [HX0 HX1]. pose proof PI2_3_2 as HP.
  set (w := 2 * PI * f) in *. assert (W0 : 0 < w) by (unfold w; pose proof PI_RGT_0; nra).
  assert (HT : exists t, 0 < t /\ t <= / 2 /\ compute_K f fs = w / t).
  { unfold compute_K. destruct (Rltb_spec f (fs * / 10000000)) as [L|L].
    - exists (PI * f / fs). split; [exact HX0|]. split; [lra|]. unfold w. pose proof PI_RGT_0. field. repeat split; lra.
    - exists (tan (PI * f / fs)). split; [apply tan_gt_0; lra|]. split; [|reflexivity].
      unfold tan. set (x := PI * f / fs) in *.
      assert (S : sin x <= 2 / 5) by (pose proof (sin_lt_x x HX0); lra).
      assert (S0 : 0 < sin x) by (apply sin_gt_0; lra).
      assert (C2 : 9 / 10 <= cos x).
      { pose proof (sin2_cos2 x) as SC. unfold Rsqr in SC. assert (0 < cos x) by (apply cos_gt_0; lra). nra. }
      apply (Rmult_le_reg_r (cos x)); [lra|]. unfold Rdiv. rewrite Rmult_assoc, Rinv_l by lra. lra. }
  destruct HT as (t & T0 & T1 & HK).
  unfold lowpass, check_arguments in HC.
  rewrite (Rltb_true f (fs / 2)), (Rltb_true 0 f), (Rltb_true 0 Q) in HC by lra. cbn [ocheck] in HC.
  unfold bilinear_transform in HC. rewrite (Rltb_true 0 fs), (Rleb_true 0 f), (Rltb_true f (fs / 2)) in HC by lra. cbn [ocheck] in HC.
  cbv zeta in HC. rewrite HK in HC. fold w in HC.
  assert (HD : 0 < 1 + t / Q + t * t) by (assert (0 < t / Q) by (apply Rdiv_lt_0_compat; lra); nra).
  set (D := 1 + t / Q + t * t) in *.
  assert (EC : b0 c = t * t / D /\ b1 c = 2 * (t * t) / D /\ b2 c = t * t / D /\ a0 c = 1 /\ a1 c = 2 * (t * t - 1) / D /\ a2 c = (1 - t / Q + t * t) / D).
  { assert (c = normalize (make_coeffs (bilinear_map (0, 0, w * w) (w / t)) (bilinear_map (1, w / Q, w * w) (w / t)))) as -> by congruence.
    unfold normalize, make_coeffs, bilinear_map. cbn [fst snd b0 b1 b2 a0 a1 a2].
    assert (DE : 1 * (w / t) * (w / t) + w / Q * (w / t) + w * w = w * w / (t * t) * D) by (unfold D; field; split; lra).
    rewrite DE. assert (w * w / (t * t) <> 0) by (apply Rgt_not_eq, Rdiv_lt_0_compat; nra).
    assert (D <> 0) by lra. clearbody D.
    repeat split; field; repeat split; lra. }
  destruct EC as (E0 & E1 & E2 & E3 & E4 & E5). split; [exact E3|]. intros n s HI.
  unfold biquad_init in HI. apply ocheck_inv in HI as [_ HI]. apply ocheck_inv in HI as [_ HI]. cbv zeta in HI.
  assert (HS : ff0 s = t * t / D /\ ff1 s = 2 * (t * t) / D /\ ff2 s = t * t / D /\ fb1 s = 2 * (t * t - 1) / D /\ fb2 s = (1 - t / Q + t * t) / D).
  { rewrite E3 in HI. injection HI as <-. cbn [ff0 ff1 ff2 fb1 fb2]. rewrite E0, E1, E2, E4, E5. repeat split; field; lra. }
  destruct HS as (F0 & F1 & F2 & F3 & F4).
  (* the poles *)
  set (e := sqrt (/ (Q * Q) - 4)).
  assert (IQ : 4 <= / (Q * Q) /\ / (Q * Q) <= 25 / 4).
  { split; [replace 4 with (/ (/ 4)) by lra|replace (25 / 4) with (/ (4 / 25)) by lra]; apply Rinv_le_contravar; nra. }
  assert (EE : e * e = / (Q * Q) - 4) by (apply sqrt_sqrt; lra).
  assert (Ee : 0 <= e) by apply sqrt_pos. assert (Ee2 : e <= 3 / 2) by nra.
  exists ((1 - t * t + t * e) / D), ((1 - t * t - t * e) / D).
  assert (ID : 0 < / D) by now apply Rinv_0_lt_compat.
  unfold overdamped.
  assert (SQ : (1 - t * t + t * e) * (1 - t * t - t * e) = (1 - t / Q + t * t) * D).
  { replace ((1 - t * t + t * e) * (1 - t * t - t * e)) with ((1 - t * t) * (1 - t * t) - t * t * (e * e)) by ring. rewrite EE. unfold D. field. lra. }
  assert (GG : (1 - (1 - t * t + t * e) / D) * (1 - (1 - t * t - t * e) / D) = 4 * (t * t) / D).
  { transitivity (1 - 2 * (1 - t * t) / D + ((1 - t * t + t * e) * (1 - t * t - t * e)) / (D * D)); [field; lra|]. rewrite SQ.
    transitivity ((D - 2 * (1 - t * t) + (1 - t / Q + t * t)) / D); [field; repeat split; lra|]. f_equal. unfold D. field. lra. }
  rewrite GG.
  assert (P1 : (1 - t * t + t * e) / D < 1).
  { apply (Rmult_lt_reg_r D); [lra|]. unfold Rdiv. rewrite Rmult_assoc, Rinv_l by lra. rewrite Rmult_1_r, Rmult_1_l.
    unfold D. assert (E2' : e < / Q).
    { apply Rsqr_incrst_0; unfold Rsqr; [|lra|apply Rlt_le, Rinv_0_lt_compat; lra]. rewrite EE.
      replace (/ Q * / Q) with (/ (Q * Q)) by (field; lra). lra. }
    unfold Rdiv. nra. }
  split; [apply Rmult_le_pos; [nra|lra]|]. split; [apply Rmult_le_compat_r; [lra|nra]|].
  split; [apply Rmult_lt_0_compat; [nra|lra]|]. split; [exact P1|].
  split; [rewrite F3; field; lra|]. split; [rewrite F4|].
  - transitivity (((1 - t * t + t * e) * (1 - t * t - t * e)) / (D * D)); [rewrite SQ; field; lra|field; lra].
  - rewrite F0, F1, F2. repeat split; field; lra.
Qed.

Section Range.
Variables (f : biquad R) (p q : R).
Hypothesis HO : overdamped f p q.
Let g := (1 - p) * (1 - q).
Lemma gain_pos : 0 < g.
Proof. destruct HO as (A & B & C & D & _). unfold g. apply Rmult_lt_0_compat; lra. Qed.
Lemma gain_sum : fb1 f + fb2 f + 1 = g.
Proof. destruct HO as (_ & _ & _ & _ & E1 & E2 & _). rewrite E1, E2. unfold g. ring. Qed.

Definition within (lo hi : R) (s : R * R) : Prop :=
  lo <= g * fst s <= hi /\ lo <= g * snd s <= hi /\ (1 - q) * lo <= g * (fst s - q * snd s) <= (1 - q) * hi.
Lemma within_steady lo hi v : lo <= v <= hi -> within lo hi (v / (fb1 f + fb2 f + 1), v / (fb1 f + fb2 f + 1)).
Proof.
  intros H. rewrite gain_sum. unfold within. cbn [fst snd]. pose proof gain_pos as G. destruct HO as (A & B & C & D & _).
  replace (g * (v / g)) with v by (field; lra). replace (g * (v / g - q * (v / g))) with ((1 - q) * v) by (field; lra).
  split; [exact H|]. split; [exact H|]. split; apply Rmult_le_compat_l; lra.
Qed.
Lemma within_step lo hi s x : within lo hi s -> lo <= x <= hi ->
  within lo hi (fst (channel_step Rplus Rminus Rmult f s x)) /\ lo <= snd (channel_step Rplus Rminus Rmult f s x) <= hi.
Proof.
  intros (W1 & W2 & W3) HX. unfold channel_step. cbn [fst snd].
  destruct HO as (A & B & C & D & E1 & E2 & E3 & E4 & E5). rewrite E1, E2, E3, E4, E5.
  set (s1 := fst s) in *. set (s2 := snd s) in *.
  set (nx := x - (s1 * - (p + q) + s2 * (p * q))).
  assert (V : g * (nx - q * s1) = p * (g * (s1 - q * s2)) + (1 - p) * ((1 - q) * x)) by (unfold nx, g; ring).
  assert (V1 : (1 - q) * lo <= g * (nx - q * s1) <= (1 - q) * hi).
  { rewrite V. assert (X1 : (1 - q) * lo <= (1 - q) * x) by (apply Rmult_le_compat_l; lra).
    assert (X2 : (1 - q) * x <= (1 - q) * hi) by (apply Rmult_le_compat_l; lra).
    set (L := (1 - q) * lo) in *. set (U := (1 - q) * hi) in *. set (z := (1 - q) * x) in *. set (y := g * (s1 - q * s2)) in *.
    split; nra. }
  assert (W : lo <= g * nx <= hi).
  { replace (g * nx) with (g * (nx - q * s1) + q * (g * s1)) by ring.
    set (y := g * s1) in *. set (z := g * (nx - q * s1)) in *. split; nra. }
  split; [split; [exact W|]; split; [exact W1|exact V1]|].
  replace (nx * ((1 - p) * (1 - q) / 4) + (s1 * ((1 - p) * (1 - q) / 2) + s2 * ((1 - p) * (1 - q) / 4)))
    with (g * nx / 4 + (g * s1 / 2 + g * s2 / 4)) by (unfold g; field). lra.
Qed.
(* strictly below the target *)
Definition below (hi : R) (s : R * R) : Prop := g * fst s < hi /\ g * snd s < hi /\ g * (fst s - q * snd s) < (1 - q) * hi.
Lemma below_steady hi v : v < hi -> below hi (v / (fb1 f + fb2 f + 1), v / (fb1 f + fb2 f + 1)).
Proof.
  intros H. rewrite gain_sum. unfold below. cbn [fst snd]. pose proof gain_pos as G. destruct HO as (A & B & C & D & _).
  replace (g * (v / g)) with v by (field; lra). replace (g * (v / g - q * (v / g))) with ((1 - q) * v) by (field; lra).
  split; [exact H|]. split; [exact H|]. apply Rmult_lt_compat_l; lra.
Qed.
Lemma below_step hi s : below hi s ->
  below hi (fst (channel_step Rplus Rminus Rmult f s hi)) /\ snd (channel_step Rplus Rminus Rmult f s hi) < hi.
Proof.
  intros (W1 & W2 & W3). unfold channel_step. cbn [fst snd].
  destruct HO as (A & B & C & D & E1 & E2 & E3 & E4 & E5). rewrite E1, E2, E3, E4, E5.
  set (s1 := fst s) in *. set (s2 := snd s) in *.
  set (nx := hi - (s1 * - (p + q) + s2 * (p * q))).
  assert (V : g * (nx - q * s1) = p * (g * (s1 - q * s2)) + (1 - p) * ((1 - q) * hi)) by (unfold nx, g; ring).
  assert (V1 : g * (nx - q * s1) < (1 - q) * hi).
  { rewrite V. set (U := (1 - q) * hi) in *. set (y := g * (s1 - q * s2)) in *. nra. }
  assert (W : g * nx < hi).
  { replace (g * nx) with (g * (nx - q * s1) + q * (g * s1)) by ring.
    set (y := g * s1) in *. set (z := g * (nx - q * s1)) in *. nra. }
  split; [split; [exact W|]; split; [exact W1|exact V1]|].
  replace (nx * ((1 - p) * (1 - q) / 4) + (s1 * ((1 - p) * (1 - q) / 2) + s2 * ((1 - p) * (1 - q) / 4)))
    with (g * nx / 4 + (g * s1 / 2 + g * s2 / 4)) by (unfold g; field). lra.
Qed.
End Range.
