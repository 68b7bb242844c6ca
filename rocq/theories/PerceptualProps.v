(* C79: the perceptual weighting filters. *)
From Verif Require Import Common RealUtil BiquadModel DesignModel DesignSpec CascadeModel CascadeSpec PoleZeroModel PoleZeroSpec LoudnessModel LoudnessProps
  PerceptualModel PerceptualSpec PerceptualProofs PerceptualProofs2 PerceptualProofs3 PerceptualProofs4.
From Coquelicot Require Import Complex.
Local Open Scope R_scope.

(* The analog design: zeros and poles are those of the published curve below the Nyquist frequency, and the
   response is the published one with a factor 1 - s / r taken out for every root r above. *)
Theorem C79_analog : forall w fs, 0 < fs ->
  zeros (perceptual_pz w fs) = below_nyquist fs (standard_zeros w) /\ poles (perceptual_pz w fs) = below_nyquist fs (standard_poles w) /\
  forall s, standard_denominator w s <> RtoC 0 ->
    exists h, analog_value (perceptual_pz w fs) s h /\
      (h * factors (above_nyquist fs (standard_zeros w)) s * standard_denominator w s)%C = (standard_numerator w s * factors (above_nyquist fs (standard_poles w)) s)%C.
Proof.
  intros w fs Hf. rewrite perceptual_zeros, perceptual_poles, table_zeros, table_poles, !below_filter. split; [reflexivity|]. split; [reflexivity|]. intros s. now apply perceptual_analog.
Qed.
Print Assumptions C79_analog.
(* the lists of roots are those of the two polynomials *)
Theorem C79_roots : forall w s,
  standard_denominator w s = product_over (fun p => Cminus s p) (standard_poles w) /\
  exists g, 0 < g /\ standard_numerator w s = Cmult (RtoC g) (product_over (fun z => Cminus s z) (standard_zeros w)).
Proof.
  intros w s. rewrite <- table_denominator, <- table_numerator, table_poles, table_zeros. split; [reflexivity|]. eexists. split; [|reflexivity]. apply (table_shape w).
Qed.
Print Assumptions C79_roots.
(* With every root below the Nyquist frequency the analog design is the published curve exactly. *)
Theorem C79_standard : forall w fs s h, 0 < fs ->
  (forall r, In r (standard_zeros w ++ standard_poles w) -> Cmod r < PI * fs) -> standard_denominator w s <> RtoC 0 ->
  analog_value (perceptual_pz w fs) s h <-> h = (standard_numerator w s / standard_denominator w s)%C.
Proof.
  intros w fs s h Hf H HD. apply perceptual_standard; [exact Hf| | |exact HD]; apply above_nil; intros r Hr; apply H, in_app_iff; auto.
Qed.
Print Assumptions C79_standard.
(* The digital filter, at every sample rate: it exists and is stable.  Its response at x is the analog one at
   2 fs tan (pi x / fs), times (1 + 1/z) for each zero in excess.  Partial: excludes the narrow ranges of
   sample rates described by clear_rate. *)
Theorem C79_digital_partial : forall w fs, 0 < fs -> clear_rate w fs ->
  exists cs, perceptual_coefficients w fs = Ok cs /\ stable_cascade cs /\
    forall x, - (fs / 2) < x < fs / 2 ->
      let s := (0, 2 * fs * tan (PI * x / fs)) in
      cascade_value cs (on_circle x fs)
        (standard_numerator w s * factors (above_nyquist fs (standard_poles w)) s / (standard_denominator w s * factors (above_nyquist fs (standard_zeros w)) s)
         * power (RtoC 1 + / on_circle x fs) (excess_zeros w fs))%C.
Proof. intros w fs Hf HC. destruct (perceptual_digital w fs Hf HC) as (cs & E & _ & R). exists cs. exact (conj E R). Qed.
Print Assumptions C79_digital_partial.
(* With a sufficient sample rate there is no excess, and only poles are left out. *)
Theorem C79_sufficient_partial : forall w fs, 0 < fs -> clear_rate w fs -> sufficient_rate w fs ->
  exists cs, perceptual_coefficients w fs = Ok cs /\ stable_cascade cs /\
    forall x, - (fs / 2) < x < fs / 2 ->
      let s := (0, 2 * fs * tan (PI * x / fs)) in
      cascade_value cs (on_circle x fs) (standard_numerator w s * factors (above_nyquist fs (standard_poles w)) s / standard_denominator w s)%C.
Proof. exact perceptual_sufficient. Qed.
Print Assumptions C79_sufficient_partial.
(* From 8 kHz on every sample rate is sufficient, and all but 1.6 Hz around 38327.5 Hz are clear. *)
Theorem C79_common_rates : forall w fs, 8000 <= fs ->
  sufficient_rate w fs /\ (fs = 38327.5 \/ 0.8 <= Rabs (fs - 38327.5) -> clear_rate w fs).
Proof. intros w fs H. split; [now apply common_sufficient|now apply common_clear]. Qed.
Print Assumptions C79_common_rates.
Example C79_rates : forall w, List.Forall (clear_rate w) [8000; 11025; 16000; 22050; 24000; 32000; 44100; 48000; 88200; 96000; 192000].
Proof.
  intros w. apply Forall_forall. intros fs H. apply C79_common_rates; cbn [In] in H; repeat match type of H with _ \/ _ => destruct H as [H|H] | False => destruct H end; subst fs; try lra; right; match goal with |- _ <= Rabs ?e => destruct (Rle_dec 0 e); [rewrite Rabs_pos_eq by lra|rewrite Rabs_left by lra]; lra end.
Qed.
(* The gain at the reference frequency is 1: within 5 % at 1 kHz for A, B, C, D and RLB, and within 1 % at
   500 Hz for K. *)
Theorem C79_reference_gain_partial : forall w fs, 8000 <= fs -> clear_rate w fs ->
  exists cs, perceptual_coefficients w fs = Ok cs /\
    (w <> K_weighting -> exists h, cascade_value cs (on_circle 1000 fs) h /\ 0.95 <= Cmod h <= 1.05) /\
    (w = K_weighting -> exists h, cascade_value cs (on_circle 500 fs) h /\ 0.99 <= Cmod h <= 1.01).
Proof.
  intros w fs Hf HC. destruct (perceptual_digital w fs ltac:(lra) HC) as (cs & E & _). exists cs. split; [exact E|]. now apply (reference_gain w fs).
Qed.
Print Assumptions C79_reference_gain_partial.
(* There are coefficients, and none has a zero a0: Init of the loudness meter succeeds with them. *)
Theorem C79_meter_partial : forall w fs m ws av n, 0 < fs -> clear_rate w fs -> Z.of_nat (length ws) = n -> (0 < n)%Z -> a0 av <> 0 ->
  exists cs m', perceptual_coefficients w fs = Ok cs /\ cs <> nil /\ List.Forall (fun c => a0 c <> 0) cs /\
    meter_init 0 1 Rmult Rdiv (fun v => Reqb v 0) m ws av n cs = Ok (m', true).
Proof.
  intros w fs m ws av n Hf HC HL HN HA. destruct (perceptual_digital w fs Hf HC) as (cs & E & [NE A0] & _). exists cs.
  destruct (proj2 (proj2 (C76_init R 0 1 Rmult Rdiv (fun v => Reqb v 0) m ws av n cs)) HL HN NE) as (m' & EM).
  - assert (X : forall c : coeffs R, a0 c <> 0 -> Reqb (a0 c) 0 = false) by (intros c Hc; destruct (Reqb_spec (a0 c) 0); congruence). constructor; [now apply X|]. eapply Forall_impl; [|exact A0]. exact X.
  - exists m'. auto.
Qed.
Print Assumptions C79_meter_partial.
(* At low sample rates the complex poles are left out but not the zeros: the filter is about 6 dB (D at 6 kHz)
   or 12 dB (K at 3 kHz) too loud at low frequencies. *)
Theorem C79_low_rates_refuted : exists csd csk,
  perceptual_coefficients D_weighting 6000 = Ok csd /\ perceptual_coefficients K_weighting 3000 = Ok csk /\
  (forall x, 0 < x <= 450 -> exists h h', cascade_value csd (on_circle x 6000) h /\
     analog_value (perceptual_pz D_weighting 6000) (0, 2 * 6000 * tan (PI * x / 6000)) h' /\ h' <> RtoC 0 /\ 1.9 * Cmod h' <= Cmod h) /\
  (forall x, 0 < x <= 225 -> exists h h', cascade_value csk (on_circle x 3000) h /\
     analog_value (perceptual_pz K_weighting 3000) (0, 2 * 3000 * tan (PI * x / 3000)) h' /\ h' <> RtoC 0 /\ 3.6 * Cmod h' <= Cmod h).
Proof.
  destruct pi_range as [P1 P2]. pose proof (low_clear 6000 D_weighting (or_introl (conj eq_refl eq_refl))) as CD. pose proof (low_clear 3000 K_weighting (or_intror (conj eq_refl eq_refl))) as CK.
  destruct (perceptual_digital D_weighting 6000 ltac:(lra) CD) as (csd & ED & _). destruct (perceptual_digital K_weighting 3000 ltac:(lra) CK) as (csk & EK & _).
  exists csd, csk. split; [exact ED|]. split; [exact EK|].
  assert (NZ : forall w fs y h, 0 < fs -> y <> 0 -> analog_value (perceptual_pz w fs) (0, y) h -> h <> RtoC 0).
  { intros w fs y h Hf Hy [HP ->]. apply PoleZeroProofs.Cdiv_neq; [|exact HP]. apply DesignProofs.Cmult_neq; [apply DesignProofs.RtoC_neq, Rgt_not_eq, perceptual_gain_pos, Hf|].
    apply PoleZeroProofs.po_neq. intros z Hz E. apply in_perceptual_zeros in Hz. destruct (root_cases w z) as [->|[(p & -> & HZ & _)|[HZ _]]]; [apply in_app_iff; now left| | |].
    - apply (f_equal snd) in E. cbn in E. lra.
    - apply (f_equal fst) in E. cbn in E. lra.
    - apply (f_equal fst) in E. destruct z. cbn in E, HZ. lra. }
  assert (TN : forall fs x, 0 < fs -> 0 < x -> PI * x / fs <= 1 / 4 -> 2 * fs * tan (PI * x / fs) <> 0).
  { intros fs x Hf Hx H. assert (0 < PI * x / fs) by (apply Rdiv_lt_0_compat; nra). pose proof (tan_gt_0 (PI * x / fs) ltac:(lra) ltac:(lra)). nra. }
  split; intros x Hx.
  - assert (B : PI * x / 6000 <= 1 / 4) by (apply (Rmult_le_reg_r 6000); [lra|]; nra).
    destruct (low_rate D_weighting 6000 1 csd x ltac:(lra) CD (D_excess 6000 ltac:(lra)) ED ltac:(lra) B) as (h & h' & V & A & _ & M). exists h, h'. split; [exact V|]. split; [exact A|]. split; [refine (NZ _ _ _ _ _ _ A); [lra|apply TN; lra]|lra].
  - assert (B : PI * x / 3000 <= 1 / 4) by (apply (Rmult_le_reg_r 3000); [lra|]; nra).
    destruct (low_rate K_weighting 3000 2 csk x ltac:(lra) CK (K_excess 3000 ltac:(lra)) EK ltac:(lra) B) as (h & h' & V & A & _ & M). exists h, h'. split; [exact V|]. split; [exact A|]. split; [refine (NZ _ _ _ _ _ _ A); [lra|apply TN; lra]|].
    pose proof (Cmod_ge_0 h'). cbn [pow] in M. lra.
Qed.
Print Assumptions C79_low_rates_refuted.
Example C79_case : clear_rate K_weighting 48000 /\ sufficient_rate K_weighting 48000 /\ above_nyquist 48000 (standard_zeros K_weighting ++ standard_poles K_weighting) = nil.
Proof.
  destruct pi_range as [P1 P2]. pose proof (common_sufficient K_weighting 48000 ltac:(lra)) as HS. split; [apply common_clear; [lra|right; rewrite Rabs_pos_eq; lra]|]. split; [exact HS|]. apply above_nil. intros r Hr. apply in_app_iff in Hr. destruct Hr as [Hr|Hr].
  - now apply (sufficient_zeros K_weighting).
  - now apply (sufficient_low K_weighting).
Qed.
