(* C27: second order filter designs are stable and have the documented gains. *)
From Verif Require Import Common RealUtil BiquadModel DesignModel DesignSpec DesignProofs DesignProofs2 DesignProofs3.
From Coquelicot Require Import Complex.
From Coq Require Import Psatz.
Local Open Scope R_scope.

(* Gains at DC (z = 1), Nyquist (z = -1) and at the corner or centre frequency.  The last one
   needs f >= fs / 10^7: below that the code does not prewarp, see the refuted theorem. *)
Theorem C27_lowpass fs f q : valid_design fs f q ->
  exists c, lowpass fs f q = Ok c /\ stable c /\
    has_value c (RtoC 1) (RtoC 1) /\ has_value c (RtoC (-1)) (RtoC 0) /\
    (fs / 10000000 <= f -> has_value c (on_circle f fs) (0, - q)).
Proof. exact (lowpass_props fs f q). Qed.
Print Assumptions C27_lowpass.
Theorem C27_highpass fs f q : valid_design fs f q ->
  exists c, highpass fs f q = Ok c /\ stable c /\
    has_value c (RtoC 1) (RtoC 0) /\ has_value c (RtoC (-1)) (RtoC 1) /\
    (fs / 10000000 <= f -> has_value c (on_circle f fs) (0, q)).
Proof. exact (highpass_props fs f q). Qed.
Print Assumptions C27_highpass.
Theorem C27_bandpass fs f q : valid_design fs f q ->
  exists c, bandpass fs f q = Ok c /\ stable c /\
    has_value c (RtoC 1) (RtoC 0) /\ has_value c (RtoC (-1)) (RtoC 0) /\
    (fs / 10000000 <= f -> has_value c (on_circle f fs) (RtoC 1)).
Proof. exact (bandpass_props fs f q). Qed.
Print Assumptions C27_bandpass.
Theorem C27_bandstop fs f q : valid_design fs f q ->
  exists c, bandstop fs f q = Ok c /\ stable c /\
    has_value c (RtoC 1) (RtoC 1) /\ has_value c (RtoC (-1)) (RtoC 1) /\
    (fs / 10000000 <= f -> has_value c (on_circle f fs) (RtoC 0)).
Proof. exact (bandstop_props fs f q). Qed.
Print Assumptions C27_bandstop.
Theorem C27_peak fs f q g : valid_design fs f q -> 0 <= g ->
  exists c, peak fs f q g = Ok c /\ stable c /\
    has_value c (RtoC 1) (RtoC 1) /\ has_value c (RtoC (-1)) (RtoC 1) /\
    (fs / 10000000 <= f -> has_value c (on_circle f fs) (RtoC g)).
Proof. exact (peak_props fs f q g). Qed.
Print Assumptions C27_peak.

Example C27_lowpass_instance : valid_design 48000 1000 (7 / 10) /\ 48000 / 10000000 <= 1000.
Proof. unfold valid_design. lra. Qed.
(* the design at a quarter of the sample rate, worked out *)
Example C27_lowpass_quarter : lowpass 4 1 1 =
  Ok {| b0 := 1 / 3; b1 := 2 / 3; b2 := 1 / 3; a0 := 1; a1 := 0; a2 := 1 / 3 |}.
Proof.
  unfold lowpass, check_arguments, bilinear_transform. rewrite !Rltb_true by lra. rewrite Rleb_true by lra.
  cbn [ocheck]. cbv zeta.
  assert (EK : compute_K 1 4 = 2 * PI * 1).
  { unfold compute_K. rewrite Rltb_false by lra. replace (PI * 1 / 4) with (PI / 4) by field. rewrite tan_PI4. field. }
  rewrite EK. f_equal. unfold normalize, make_coeffs, bilinear_map. cbn. pose proof PI_neq0. f_equal; field; auto; repeat split; auto; nra.
Qed.

(* Without the lower limit on f the centre frequency is not exact: tan x > x. *)
Theorem C27_bandpass_centre_refuted : exists fs f q c, valid_design fs f q /\ bandpass fs f q = Ok c /\
  ~ has_value c (on_circle f fs) (RtoC 1).
Proof.
  destruct (bandpass_props 100000000 1 1) as (c & E & _); [unfold valid_design; lra|].
  exists 100000000, 1, 1, c. split; [unfold valid_design; lra|]. split; [exact E|].
  apply (bandpass_low_centre 100000000 1 1); [lra|lra|lra|exact E].
Qed.
Print Assumptions C27_bandpass_centre_refuted.

(* Designs by band edges: half power exactly at the edges. *)
Theorem C27_ranged_bandpass fs lo hi : valid_edges fs lo hi ->
  exists c, ranged_bandpass fs lo hi = Ok c /\ stable c /\
    has_value c (RtoC 1) (RtoC 0) /\ has_value c (RtoC (-1)) (RtoC 0) /\
    (exists h, has_value c (on_circle lo fs) h /\ Cmod h = 1 / sqrt 2) /\
    (exists h, has_value c (on_circle hi fs) h /\ Cmod h = 1 / sqrt 2).
Proof. exact (ranged_bandpass_props fs lo hi). Qed.
Print Assumptions C27_ranged_bandpass.
Theorem C27_ranged_bandstop fs lo hi : valid_edges fs lo hi ->
  exists c, ranged_bandstop fs lo hi = Ok c /\ stable c /\
    has_value c (RtoC 1) (RtoC 1) /\ has_value c (RtoC (-1)) (RtoC 1) /\
    (exists h, has_value c (on_circle lo fs) h /\ Cmod h = 1 / sqrt 2) /\
    (exists h, has_value c (on_circle hi fs) h /\ Cmod h = 1 / sqrt 2).
Proof. exact (ranged_bandstop_props fs lo hi). Qed.
Print Assumptions C27_ranged_bandstop.
Example C27_ranged_instance : valid_edges 44100 300 3400.
Proof. unfold valid_edges. lra. Qed.

Theorem C27_low_shelf fs f q g : valid_design fs f q -> 0 < g ->
  exists c, low_shelf fs f q g = Ok c /\ stable c /\
    has_value c (RtoC 1) (RtoC g) /\ has_value c (RtoC (-1)) (RtoC 1).
Proof. exact (low_shelf_props fs f q g). Qed.
Print Assumptions C27_low_shelf.
Theorem C27_high_shelf fs f q g : valid_design fs f q -> 0 < g ->
  exists c, high_shelf fs f q g = Ok c /\ stable c /\
    has_value c (RtoC 1) (RtoC 1) /\ has_value c (RtoC (-1)) (RtoC g).
Proof. exact (high_shelf_props fs f q g). Qed.
Print Assumptions C27_high_shelf.
Example C27_shelf_instance : valid_design 48000 200 (1 / 2) /\ 0 < 4.
Proof. unfold valid_design. lra. Qed.

(* Symmetric peaks with reciprocal gains cancel at every point of the plane. *)
Theorem C27_symmetric_peaks_inverse fs f q g : valid_design fs f q -> 0 < g ->
  exists c c', peak_symmetric fs f q g = Ok c /\ peak_symmetric fs f q (/ g) = Ok c' /\
    stable c /\ stable c' /\
    (fs / 10000000 <= f -> has_value c (on_circle f fs) (RtoC g)) /\
    forall z h h', has_value c z h -> has_value c' z h' -> Cmult h h' = RtoC 1.
Proof.
  intros (H1 & H2 & H3) Hg. assert (Hi : 0 < / g) by (apply Rinv_0_lt_compat; exact Hg).
  assert (V : forall x, 0 < x -> valid_design fs f (if Rltb x 1 then q * x else q)).
  { intros x Hx. unfold valid_design. destruct (Rltb x 1); repeat split; auto. nra. }
  destruct (peak_props fs f _ g (V g Hg)) as (c & E & S & _ & _ & M); [lra|].
  destruct (peak_props fs f _ (/ g) (V _ Hi)) as (c' & E' & S' & _); [lra|].
  exists c, c'. split; [exact E|]. split; [exact E'|]. split; [exact S|]. split; [exact S'|]. split; [exact M|].
  intros z h h' [D <-] [D' <-]. exact (peak_symmetric_inverse fs f q g c c' z E E' D D').
Qed.
Print Assumptions C27_symmetric_peaks_inverse.
(* A gain of zero is accepted by the plain peak design and aborts the symmetric one. *)
Theorem C27_symmetric_peak_zero_gain fs f q : valid_design fs f q ->
  is_ok (peak fs f q 0) = true /\ peak_symmetric fs f q 0 = CheckFail.
Proof.
  intros HV. split.
  - destruct (peak_props fs f q 0 HV) as (c & E & _); [lra|]. rewrite E. reflexivity.
  - destruct HV as (H1 & H2 & H3). unfold peak_symmetric, peak, check_arguments.
    rewrite (Rltb_true 0 1), (Rltb_true f), (Rltb_true 0 f), (Rltb_false 0 (q * 0)) by lra. reflexivity.
Qed.
Print Assumptions C27_symmetric_peak_zero_gain.

(* Allpass filters: unit magnitude on the whole unit circle; at the corner the response is
   e^(i phase) and the group delay (minus the derivative of the phase) is the requested one. *)
Theorem C27_allpass fs f phase delay : valid_allpass fs f phase delay ->
  exists c, allpass fs f phase delay = Ok c /\ stable c /\
    (forall z, Cmod z = 1 -> exists h, has_value c z h /\ Cmod h = 1) /\
    has_value c (on_circle f fs) (cos phase, sin phase) /\
    phase_at c fs (2 * PI * f) phase (- delay).
Proof. exact (allpass_props fs f phase delay). Qed.
Print Assumptions C27_allpass.
Theorem C27_allpass_minimal fs f phase : 0 < f -> f < fs / 2 ->
  / 100000 < Rabs phase -> / 100000 < Rabs (sin phase) ->
  exists c, allpass_minimal fs f phase = Ok c /\ stable c /\
    (forall z, Cmod z = 1 -> exists h, has_value c z h /\ Cmod h = 1) /\
    has_value c (on_circle f fs) (cos phase, sin phase).
Proof.
  intros H1 H2 H3 H4. destruct (full_angle f fs H1 H2) as (S2 & _).
  assert (0 < infimal_group_delay fs f phase).
  { unfold infimal_group_delay. apply Rdiv_lt_0_compat; [|exact S2]. apply Rdiv_lt_0_compat; lra. }
  destruct (allpass_props fs f phase (minimum_group_delay fs f phase)) as (c & E & S & U & P & _).
  - unfold valid_allpass. repeat split; auto. fold (infimal_group_delay fs f phase). unfold minimum_group_delay. lra.
  - exists c. auto.
Qed.
Print Assumptions C27_allpass_minimal.
Example C27_allpass_instance : valid_allpass 4 1 (PI / 2) 1.
Proof.
  unfold valid_allpass. replace (2 * PI * 1 / 4) with (PI / 2) by field. rewrite sin_PI2, Rabs_R1.
  pose proof PI_RGT_0. pose proof PI2_1. rewrite Rabs_right by lra. lra.
Qed.
(* CheckAllPassConfiguration also accepts the smallest group delay itself, where the
   coefficients are 0 / 0. *)
Theorem C27_allpass_accepted_refuted : exists fs f phase delay,
  0 < f /\ f < fs / 2 /\ check_allpass fs f phase delay = true /\ allpass fs f phase delay = Undef.
Proof.
  exists 4, 1, (PI / 2), (infimal_group_delay 4 1 (PI / 2)). split; [lra|]. split; [lra|].
  pose proof PI2_1. apply allpass_infimum_degenerate; [lra|lra| |].
  - rewrite Rabs_right by lra. lra.
  - rewrite sin_PI2, Rabs_R1. lra.
Qed.
Print Assumptions C27_allpass_accepted_refuted.

(* Arguments outside the documented ranges never produce a filter. *)
Theorem C27_bad_arguments fs f q lo hi g : 
  (~ valid_design fs f q -> lowpass fs f q = CheckFail /\ highpass fs f q = CheckFail /\
     bandpass fs f q = CheckFail /\ bandstop fs f q = CheckFail /\ peak fs f q g = CheckFail /\
     low_shelf fs f q g = CheckFail /\ high_shelf fs f q g = CheckFail) /\
  (~ valid_edges fs lo hi -> ranged_bandpass fs lo hi = CheckFail /\ ranged_bandstop fs lo hi = CheckFail) /\
  (g < 0 -> peak fs f q g = CheckFail) /\
  (g <= 0 -> low_shelf fs f q g = CheckFail /\ high_shelf fs f q g = CheckFail).
Proof.
  assert (A : forall T (k : outcome T), ~ valid_design fs f q -> check_arguments fs f q k = CheckFail).
  { intros T k H. unfold check_arguments, valid_design in *.
    destruct (Rltb_spec f (fs / 2)); [|reflexivity]. destruct (Rltb_spec 0 f); [|reflexivity].
    destruct (Rltb_spec 0 q); [tauto|reflexivity]. }
  assert (B : forall T (k : outcome T), ~ valid_edges fs lo hi -> check_edges fs lo hi k = CheckFail).
  { intros T k H. unfold check_edges, valid_edges in *.
    destruct (Rltb_spec hi (fs / 2)); [|reflexivity]. destruct (Rltb_spec lo hi); [|reflexivity].
    destruct (Rltb_spec 0 lo); [tauto|reflexivity]. }
  assert (D : forall T, check_arguments fs f q (@CheckFail T) = CheckFail).
  { intros T. unfold check_arguments. destruct (Rltb f (fs / 2)), (Rltb 0 f), (Rltb 0 q); reflexivity. }
  repeat split; intros; try (apply A; assumption); try (apply B; assumption).
  - unfold peak. rewrite Rleb_false by assumption. apply D.
  - unfold low_shelf. rewrite Rltb_false by assumption. apply D.
  - unfold high_shelf. rewrite Rltb_false by assumption. apply D.
Qed.
Print Assumptions C27_bad_arguments.
