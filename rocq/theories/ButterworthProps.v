(* C50: the portable Butterworth designs.  has_value c z h, stable and on_circle are the
   independent definitions of DesignSpec.v (transfer function evaluated at a point of the plane,
   all poles inside the unit circle, point of the circle for a frequency). *)
From Verif Require Import Common RealUtil BiquadModel ComplexModel DesignSpec DesignProofs ButterworthModel ButterworthProofs.
From Coquelicot Require Import Complex.
From Coq Require Import Psatz.
Local Open Scope R_scope.

(* position of a frequency on the warped axis *)
Definition t_ (g fs : R) : R := tan (PI * g / fs).

(* every invalid corner is rejected *)
Theorem C50_rejects : forall f fs, ~ (0 < f < fs / 2) -> butterworth_lowpass f fs = None /\ butterworth_highpass f fs = None.
Proof.
  intros f fs H. unfold butterworth_lowpass, butterworth_highpass.
  destruct (Rltb_spec 0 f), (Rltb_spec f (fs / 2)); cbn [andb]; auto. exfalso. apply H. lra.
Qed.
Print Assumptions C50_rejects.
Theorem C50_bandpass_rejects : forall ex lo hi fs, ~ (0 < lo /\ lo < hi /\ hi < fs / 2) -> butterworth_bandpass ex lo hi fs = None.
Proof.
  intros ex lo hi fs H. unfold butterworth_bandpass.
  destruct (Rltb_spec 0 lo), (Rltb_spec lo hi), (Rltb_spec hi (fs / 2)); cbn [andb]; auto. exfalso. apply H. lra.
Qed.
Print Assumptions C50_bandpass_rejects.

(* every valid corner gives a stable filter with unit gain at DC, zero at Nyquist and the
   Butterworth magnitude at every frequency between *)
Theorem C50_lowpass : forall f fs, 0 < f < fs / 2 -> exists c, butterworth_lowpass f fs = Some c /\ a0 c = 1 /\ stable c /\
  has_value c (RtoC 1) (RtoC 1) /\ has_value c (RtoC (-1)) (RtoC 0) /\
  forall g, 0 < g < fs / 2 -> exists h, has_value c (on_circle g fs) h /\ Cmod h = / sqrt (1 + (t_ g fs / t_ f fs) ^ 4).
Proof.
  intros f fs [H1 H2]. destruct (butterworth_lowpass_props f fs H1 H2) as (c & E & HS & HD & HN & HG). exists c.
  split; [exact E|]. split.
  - unfold butterworth_lowpass in E. destruct (_ && _)%bool; [|discriminate]. now injection E as <-.
  - split; [exact HS|]. split; [exact HD|]. split; [exact HN|]. intros g [? ?]. now apply HG.
Qed.
Print Assumptions C50_lowpass.
Theorem C50_highpass : forall f fs, 0 < f < fs / 2 -> exists c, butterworth_highpass f fs = Some c /\ a0 c = 1 /\ stable c /\
  has_value c (RtoC 1) (RtoC 0) /\ has_value c (RtoC (-1)) (RtoC 1) /\
  forall g, 0 < g < fs / 2 -> exists h, has_value c (on_circle g fs) h /\ Cmod h = / sqrt (1 + (t_ f fs / t_ g fs) ^ 4).
Proof.
  intros f fs [H1 H2]. destruct (butterworth_highpass_props f fs H1 H2) as (c & E & HS & HD & HN & HG). exists c.
  split; [exact E|]. split.
  - unfold butterworth_highpass in E. destruct (_ && _)%bool; [|discriminate]. now injection E as <-.
  - split; [exact HS|]. split; [exact HD|]. split; [exact HN|]. intros g [? ?]. now apply HG.
Qed.
Print Assumptions C50_highpass.

(* gain 1/sqrt 2 at the corner *)
Theorem C50_corner : forall f fs, 0 < f < fs / 2 -> exists cl ch hl hh,
  butterworth_lowpass f fs = Some cl /\ butterworth_highpass f fs = Some ch /\
  has_value cl (on_circle f fs) hl /\ has_value ch (on_circle f fs) hh /\ Cmod hl = / sqrt 2 /\ Cmod hh = / sqrt 2.
Proof.
  intros f fs H. destruct (C50_lowpass f fs H) as (cl & El & _ & _ & _ & _ & Gl). destruct (C50_highpass f fs H) as (ch & Eh & _ & _ & _ & _ & Gh).
  destruct (Gl f H) as (hl & Vl & Ml). destruct (Gh f H) as (hh & Vh & Mh). exists cl, ch, hl, hh.
  destruct (half_angle f fs ltac:(lra) ltac:(lra)) as (_ & _ & _ & _ & T).
  assert (E : 1 + (t_ f fs / t_ f fs) ^ 4 = 2) by (unfold t_; field; lra). rewrite E in Ml, Mh. repeat split; try assumption; apply Vl || apply Vh.
Qed.
Print Assumptions C50_corner.

(* the bandpass cascade: stable, 1/sqrt 2 at both edges, 1 at the geometric (warped) centre, the
   Butterworth magnitude everywhere between *)
Theorem C50_bandpass : forall ex lo hi fs, 0 < lo -> lo < hi -> hi < fs / 2 -> exists c0 c1,
  butterworth_bandpass ex lo hi fs = Some (c0, c1) /\ stable c0 /\ stable c1 /\
  forall g, 0 < g < fs / 2 -> exists h0 h1, has_value c0 (on_circle g fs) h0 /\ has_value c1 (on_circle g fs) h1 /\
    Cmod (Cmult h0 h1) = / sqrt (1 + ((t_ g fs ^ 2 - t_ lo fs * t_ hi fs) / ((t_ hi fs - t_ lo fs) * t_ g fs)) ^ 4) /\
    (g = lo \/ g = hi -> Cmod (Cmult h0 h1) = / sqrt 2) /\
    (t_ g fs ^ 2 = t_ lo fs * t_ hi fs -> Cmod (Cmult h0 h1) = 1).
Proof.
  intros ex lo hi fs H1 H2 H3. destruct (butterworth_bandpass_props ex lo hi fs H1 H2 H3) as (c0 & c1 & E & S0 & S1 & G). exists c0, c1.
  split; [exact E|]. split; [exact S0|]. split; [exact S1|]. intros g [G1 G2]. destruct (G g G1 G2) as (h0 & h1 & V0 & V1 & M). exists h0, h1.
  split; [exact V0|]. split; [exact V1|]. destruct (band_offset_edges lo hi fs H1 H2 H3) as [EL EH].
  assert (EQ : band_offset g lo hi fs = (t_ g fs ^ 2 - t_ lo fs * t_ hi fs) / ((t_ hi fs - t_ lo fs) * t_ g fs)).
  { unfold band_offset, t_. f_equal. ring. }
  split; [rewrite M, EQ; reflexivity|]. split.
  - intros [-> | ->]; rewrite M; [rewrite EL|rewrite EH]; f_equal; f_equal; ring.
  - intros EC. rewrite M, EQ, EC. replace (t_ lo fs * t_ hi fs - t_ lo fs * t_ hi fs) with 0 by ring. unfold Rdiv. rewrite Rmult_0_l.
    replace (1 + 0 ^ 4) with 1 by ring. rewrite sqrt_1. lra.
Qed.
Print Assumptions C50_bandpass.

(* corner at a quarter of the sample rate: a concrete instance of the hypothesis with its exact
   coefficients (1, 2, 1)(1 - 1/sqrt 2)/2 *)
Example C50_example : exists c, butterworth_lowpass 12000 48000 = Some c /\ b0 c = b2 c /\ b1 c = 2 * b0 c /\ a1 c = 0.
Proof.
  unfold butterworth_lowpass. rewrite (Rltb_true 0 12000), (Rltb_true 12000 (48000 / 2)) by lra. cbn [andb]. eexists. split; [reflexivity|].
  cbn [b0 b1 b2 a1 portable_coeffs]. split; [reflexivity|]. split; [reflexivity|].
  unfold corner_pole, bilinear_pole, prewarp. cbn [fst snd]. replace (PI * 12000 / 48000) with (PI / 4) by field. rewrite tan_PI4.
  assert (S : sqrt 2 * sqrt 2 = 2) by (apply sqrt_sqrt; lra). assert (S0 : 0 < sqrt 2) by (apply sqrt_lt_R0; lra).
  assert (IS : 1 / sqrt 2 * (1 / sqrt 2) = 1 / 2) by (replace (1 / sqrt 2 * (1 / sqrt 2)) with (1 / (sqrt 2 * sqrt 2)) by (field; lra); rewrite S; reflexivity).
  set (i := 1 / sqrt 2) in *. clearbody i.
  replace (2 * 48000 * (2 * 48000) - - i * (2 * 48000 * 1) * (- i * (2 * 48000 * 1)) - i * (2 * 48000 * 1) * (i * (2 * 48000 * 1)))
    with (96000 * 96000 * (1 - 2 * (i * i))) by ring.
  rewrite IS. replace (1 - 2 * (1 / 2)) with 0 by field. unfold Rdiv. ring.
Qed.
