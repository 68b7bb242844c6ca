(* C80: MultiCrossoverFilter. *)
From Verif Require Import Common ListLemmas RealUtil BiquadModel DesignModel DesignSpec CascadeModel CascadeSpec PoleZeroModel PoleZeroSpec PoleZeroProofs4 PoleZeroProofs6 PoleZeroProofs18 PoleZeroProps LadderModel LadderSpec
  MultiCrossModel MultiCrossSpec MultiCrossProofs MultiCrossProofs2 MultiCrossProofs3 MultiCrossProofs4 MultiCrossProofs5 MultiCrossProofs6 MultiCrossProofs7 MultiCrossProofs8 MultiCrossProofs9.
From Coquelicot Require Import Complex.
Local Open Scope R_scope.

(* eps and sm are the constants of the ladder filters (see LadderModel). *)

(* ---------- what the bands add up to ---------- *)
(* Linkwitz-Riley: at every frequency the magnitudes of the bands add up to one.  Partial: crossovers and all-pass
   sections whose coefficients are below the threshold of Simplify are left out (C49 shows what happens there). *)
Theorem C80_linkwitz_riley_partial : forall eps sm n nb nch fs freqs s g, (1 <= n)%nat -> (Z.of_nat n <= 50000)%Z ->
  splitter_init eps sm Linkwitz_Riley_crossover (2 * Z.of_nat n) nb nch fs freqs = Ok s ->
  Forall (fine_crossover n fs) freqs -> clear_allpass (sp_bank s) -> - (fs / 2) <= g <= fs / 2 ->
  exists hs, Z.of_nat (length hs) = nb /\ (forall b, (b < length hs)%nat -> band_value (length hs) (sp_bank s) b (on_circle g fs) (nth b hs (RtoC 0))) /\
    rsum (map Cmod hs) = 1.
Proof.
  intros eps sm n nb nch fs freqs s g H1 H2 E HF HC G. apply splitter_parts in E. destruct E as (NB & _ & _ & D & _).
  destruct (linkwitz_riley_bands n (Z.to_nat nb) fs freqs (sp_bank s) g H1 H2 ltac:(lia) HF D (linkwitz_riley_design_scaled n _ fs freqs _ H1 H2 HF D HC) G) as (hs & L & V & M).
  exists hs. rewrite L. split; [lia|]. split; assumption.
Qed.
Print Assumptions C80_linkwitz_riley_partial.
(* Butterworth: the powers of the bands add up to one. *)
Theorem C80_butterworth_partial : forall eps sm n nb nch fs freqs s g, (1 <= n)%nat -> (Z.of_nat n <= 50000)%Z ->
  splitter_init eps sm Butterworth_crossover (Z.of_nat n) nb nch fs freqs = Ok s ->
  Forall (fine_crossover n fs) freqs -> clear_allpass (sp_bank s) -> - (fs / 2) <= g <= fs / 2 ->
  exists hs, Z.of_nat (length hs) = nb /\ (forall b, (b < length hs)%nat -> band_value (length hs) (sp_bank s) b (on_circle g fs) (nth b hs (RtoC 0))) /\
    rsum (map (fun h => (Cmod h) ^ 2) hs) = 1.
Proof.
  intros eps sm n nb nch fs freqs s g H1 H2 E HF HC G. apply splitter_parts in E. destruct E as (NB & _ & _ & D & _).
  destruct (butterworth_bands n (Z.to_nat nb) fs freqs (sp_bank s) g H1 H2 ltac:(lia) D (butterworth_design_scaled n _ fs freqs _ H1 H2 HF D HC) G) as (hs & L & V & M).
  exists hs. rewrite L. split; [lia|]. split; assumption.
Qed.
Print Assumptions C80_butterworth_partial.

(* ---------- neighbouring bands ---------- *)
(* The all-pass sections do what they are for: at each crossover frequency the two bands that meet there are in
   phase, so that their magnitudes add.  For Linkwitz-Riley filters this includes the two highest bands, which are
   in phase at every frequency. *)
Theorem C80_in_phase_partial : forall eps sm n nb nch fs freqs s l, (1 <= n)%nat -> (Z.of_nat n <= 50000)%Z ->
  splitter_init eps sm Linkwitz_Riley_crossover (2 * Z.of_nat n) nb nch fs freqs = Ok s ->
  Forall (fine_crossover n fs) freqs -> clear_allpass (sp_bank s) -> (l < length freqs)%nat ->
  exists h h', band_value (Z.to_nat nb) (sp_bank s) l (on_circle (nth l freqs 0) fs) h /\ band_value (Z.to_nat nb) (sp_bank s) (S l) (on_circle (nth l freqs 0) fs) h' /\
    Cmod (Cplus h h') = Cmod h + Cmod h'.
Proof.
  intros eps sm n nb nch fs freqs s l H1 H2 E HF HC Hl. apply splitter_parts in E. destruct E as (NB & _ & _ & D & _). destruct (design_inv _ _ _ _ _ _ D) as (L & _).
  destruct (Nat.lt_ge_cases l (Z.to_nat nb - 2)) as [C|C].
  - exact (lower_pairs _ _ _ _ _ _ l D (linkwitz_riley_design_scaled n _ fs freqs _ H1 H2 HF D HC) C).
  - assert (EL : l = (Z.to_nat nb - 2)%nat) by lia. pose proof (design_crossovers _ _ _ _ _ _ l D ltac:(lia)) as X. destruct (crossover_range _ _ _ _ _ X) as (F1 & F2 & _).
    destruct (top_pair n (Z.to_nat nb) fs freqs (sp_bank s) (nth l freqs 0) H1 H2 ltac:(lia) HF D ltac:(lra)) as (h & h' & A & B & AL). exists h, h'. rewrite EL at 1. split; [exact A|]. replace (S l) with (Z.to_nat nb - 1)%nat by lia. split; [exact B|]. now apply aligned_sum.
Qed.
Print Assumptions C80_in_phase_partial.
Theorem C80_top_bands_partial : forall eps sm n nb nch fs freqs s g, (1 <= n)%nat -> (Z.of_nat n <= 50000)%Z ->
  splitter_init eps sm Linkwitz_Riley_crossover (2 * Z.of_nat n) nb nch fs freqs = Ok s ->
  Forall (fine_crossover n fs) freqs -> - (fs / 2) < g < fs / 2 ->
  exists h h', band_value (Z.to_nat nb) (sp_bank s) (Z.to_nat nb - 2) (on_circle g fs) h /\ band_value (Z.to_nat nb) (sp_bank s) (Z.to_nat nb - 1) (on_circle g fs) h' /\
    Cmod (Cplus h h') = Cmod h + Cmod h'.
Proof.
  intros eps sm n nb nch fs freqs s g H1 H2 E HF G. apply splitter_parts in E. destruct E as (NB & _ & _ & D & _).
  destruct (top_pair n (Z.to_nat nb) fs freqs (sp_bank s) g H1 H2 ltac:(lia) HF D G) as (h & h' & A & B & AL). exists h, h'. split; [exact A|]. split; [exact B|]. now apply aligned_sum.
Qed.
Print Assumptions C80_top_bands_partial.
Theorem C80_butterworth_in_phase_partial : forall eps sm n nb nch fs freqs s l, (1 <= n)%nat -> (Z.of_nat n <= 50000)%Z ->
  splitter_init eps sm Butterworth_crossover (Z.of_nat n) nb nch fs freqs = Ok s ->
  Forall (fine_crossover n fs) freqs -> clear_allpass (sp_bank s) -> (S l < length freqs)%nat ->
  exists h h', band_value (Z.to_nat nb) (sp_bank s) l (on_circle (nth l freqs 0) fs) h /\ band_value (Z.to_nat nb) (sp_bank s) (S l) (on_circle (nth l freqs 0) fs) h' /\
    Cmod (Cplus h h') = Cmod h + Cmod h'.
Proof.
  intros eps sm n nb nch fs freqs s l H1 H2 E HF HC Hl. apply splitter_parts in E. destruct E as (NB & _ & _ & D & _). destruct (design_inv _ _ _ _ _ _ D) as (L & _).
  apply (lower_pairs _ _ _ _ _ _ l D (butterworth_design_scaled n _ fs freqs _ H1 H2 HF D HC)). lia.
Qed.
Print Assumptions C80_butterworth_in_phase_partial.

(* ---------- the coefficients that are reported ---------- *)
(* GetCoefficientsForBand: merging the sections of a band does not change its response. *)
Theorem C80_band_coefficients_partial : forall eps sm type n nb nch fs freqs s b, (1 <= n)%nat -> (Z.of_nat n <= 50000)%Z ->
  splitter_init eps sm type (match type with Linkwitz_Riley_crossover => 2 * Z.of_nat n | Butterworth_crossover => Z.of_nat n end)%Z nb nch fs freqs = Ok s ->
  Forall (fine_crossover n fs) freqs -> clear_allpass (sp_bank s) -> (Z.of_nat b < nb)%Z ->
  exists cs, band_coefficients (Z.to_nat nb) (sp_bank s) b = Ok cs /\ forall z h, z <> RtoC 0 -> cascade_value cs z h <-> band_value (Z.to_nat nb) (sp_bank s) b z h.
Proof.
  intros eps sm type n nb nch fs freqs s b H1 H2 E HF HC Hb. apply splitter_parts in E. destruct E as (NB & _ & _ & D & _ & _ & _ & _ & LH & _).
  assert (SC : all_scaled (sp_bank s)) by (destruct type; [eapply butterworth_design_scaled; eauto|eapply linkwitz_riley_design_scaled; eauto]).
  destruct (design_ok _ _ _ _ _ _ D SC) as [SB _]. destruct (band_coefficients_ok (Z.to_nat nb) (sp_bank s) b SB) as (cs & EC & _ & V). exists cs. split; [exact EC|].
  intros z h Z0. rewrite (V z h Z0). symmetry. apply band_value_iff. lia.
Qed.
Print Assumptions C80_band_coefficients_partial.

(* ---------- signals ---------- *)
(* Every channel of band b of the output is the input channel filtered by the sections of that band. *)
Theorem C80_signals_partial : forall eps sm type order nb nch fs freqs s x, splitter_init eps sm type order nb nch fs freqs = Ok s -> reflective_bank (sp_bank s) -> frames_of nch x ->
  exists s' bands, split_block eps s x = Ok (s', bands) /\ Z.of_nat (length bands) = nb /\
    forall b, (b < length bands)%nat -> frames_of nch (nth b bands []) /\ length (nth b bands []) = length x /\
      forall i, (i < nch)%nat -> chain_implements (concat (firstn b (highpass_coeffs (sp_bank s))) ++ nth b (lowpass_coeffs (sp_bank s)) [] ++ nth b (allpass_coeffs (sp_bank s)) [])
        (channel i x) (channel i (nth b bands [])).
Proof. exact split_ok. Qed.
Print Assumptions C80_signals_partial.
(* One call with two blocks joined is the same as two calls; no hypothesis on the state, so the same holds while
   the frequencies are being changed. *)
Theorem C80_block_size : forall eps s x1 x2 s2 y, split_block eps s (x1 ++ x2) = Ok (s2, y) <->
  exists s1 y1 y2, split_block eps s x1 = Ok (s1, y1) /\ split_block eps s1 x2 = Ok (s2, y2) /\ y = zip_app y1 y2.
Proof. exact split_app. Qed.
Print Assumptions C80_block_size.
(* Reset after any number of blocks gives the state after Init. *)
Theorem C80_reset : forall eps sm type order nb nch fs freqs s xs s' ys, splitter_init eps sm type order nb nch fs freqs = Ok s -> run (split_block eps) s xs = Ok (s', ys) -> splitter_reset s' = Ok s.
Proof. exact reset_after_feeding. Qed.
Print Assumptions C80_reset.

(* ---------- which arguments Init accepts ---------- *)
Theorem C80_two_bands : forall eps sm type order nch fs f lo hi, (1 <= nch)%nat -> a0 sm <> 0 -> crossover type order f fs = Ok (lo, hi) -> Forall well_scaled lo -> Forall well_scaled hi ->
  exists s, splitter_init eps sm type order 2 nch fs [f] = Ok s /\ lowpass_coeffs (sp_bank s) = [lo] /\ highpass_coeffs (sp_bank s) = [hi] /\ allpass_coeffs (sp_bank s) = [].
Proof.
  intros eps sm type order nch fs f lo hi NC A E WL WH. pose proof (two_bands_design type order fs f lo hi E) as D.
  destruct (splitter_init_ok eps sm type order 2 nch fs [f] _ ltac:(lia) NC A D) as (s & ES & B & _).
  - apply (scaled_proper type order 2 fs [f]); [exact D|]. unfold all_scaled. cbn [lowpass_coeffs highpass_coeffs appended]. auto.
  - exists s. rewrite B. auto.
Qed.
Print Assumptions C80_two_bands.
(* Three bands, Linkwitz-Riley: Init succeeds exactly if the phase of the upper crossover's lowpass filter at the
   lower crossover frequency is further than 1e-5 from a multiple of pi (h is the response of one of the two
   Butterworth filters there), and aborts otherwise. *)
Theorem C80_three_bands_partial : forall eps sm n nch fs f0 f1 p h, (1 <= n)%nat -> (Z.of_nat n <= 50000)%Z -> (1 <= nch)%nat -> a0 sm <> 0 ->
  0 < f0 -> f0 <= f1 -> f1 < fs / 2 -> fine_crossover n fs f0 -> fine_crossover n fs f1 ->
  butterworth_prototype (Z.of_nat n) = Ok p -> analog_value p (0, tan (PI * f0 / fs) / tan (PI * f1 / fs)) h ->
  ((exists s, splitter_init eps sm Linkwitz_Riley_crossover (2 * Z.of_nat n) 3 nch fs [f0; f1] = Ok s) <-> / 100000 < Rabs (snd (Cmult h h)) / Cmod (Cmult h h)) /\
  (Rabs (snd (Cmult h h)) / Cmod (Cmult h h) <= / 100000 -> splitter_init eps sm Linkwitz_Riley_crossover (2 * Z.of_nat n) 3 nch fs [f0; f1] = CheckFail).
Proof.
  intros eps sm n nch fs f0 f1 p h H HN NC A P0 P1 P2 F0 F1 EP HV. rewrite (butterworth_is n H) in EP. injection EP as <-. split; [split|].
  - intros [s E]. apply splitter_parts in E. destruct E as (_ & _ & _ & D & _). apply (three_accept n fs f0 f1 h); auto. exists (sp_bank s). split; [exact D|].
    destruct (Rlt_dec (/ 100000) (Rabs (snd (Cmult h h)) / Cmod (Cmult h h))) as [L|L].
    + destruct (proj2 (three_accept n fs f0 f1 h H HN P0 P1 P2 F0 F1 HV) L) as (d & ED & PB). change (Z.to_nat 3) with 3%nat in D. rewrite D in ED. injection ED as <-. exact PB.
    + exfalso. pose proof (three_reject n fs f0 f1 h H HN P0 P1 P2 F0 F1 HV ltac:(lra)) as R. change (Z.to_nat 3) with 3%nat in D. rewrite D in R. discriminate.
  - intros L. destruct (proj2 (three_accept n fs f0 f1 h H HN P0 P1 P2 F0 F1 HV) L) as (d & ED & PB). destruct (splitter_init_ok eps sm Linkwitz_Riley_crossover (2 * Z.of_nat n) 3 nch fs [f0; f1] d ltac:(lia) NC A ED PB) as (s & E & _). eauto.
  - intros L. pose proof (three_reject n fs f0 f1 h H HN P0 P1 P2 F0 F1 HV L) as R. unfold splitter_init. cbn [Z.ltb Z.compare ocheck]. cbv zeta. change (Z.to_nat 3) with 3%nat. rewrite R. reflexivity.
Qed.
Print Assumptions C80_three_bands_partial.
(* For order 4 the condition is explicit in the ratio W of the prewarped frequencies. *)
Theorem C80_order_4_partial : forall eps sm nch fs f0 f1, (1 <= nch)%nat -> a0 sm <> 0 -> 0 < f0 -> f0 <= f1 -> f1 < fs / 2 -> fine_crossover 2 fs f0 -> fine_crossover 2 fs f1 ->
  let W := tan (PI * f0 / fs) / tan (PI * f1 / fs) in
  (exists s, splitter_init eps sm Linkwitz_Riley_crossover 4 3 nch fs [f0; f1] = Ok s) <-> / 100000 < 2 * sqrt 2 * Rabs W * Rabs (1 - W * W) / (1 + W ^ 4).
Proof.
  intros eps sm nch fs f0 f1 NC A P0 P1 P2 F0 F1 W. rewrite <- (order_4 W). change 4%Z with (2 * Z.of_nat 2)%Z. cbv zeta.
  apply (C80_three_bands_partial eps sm 2 nch fs f0 f1 (butterworth 2)); auto; try lia; [apply butterworth_is; lia|apply butterworth_2].
Qed.
Print Assumptions C80_order_4_partial.
(* Increasing frequencies in the allowed range are not enough: with order 6 and W = 1 / sqrt 2 Init aborts. *)
Theorem C80_valid_frequencies_refuted : forall eps sm nch fs, 0 < fs -> exists f0 f1, 0 < f0 /\ f0 < f1 /\ f1 < fs / 2 /\
  (exists lo hi, crossover Linkwitz_Riley_crossover 6 f0 fs = Ok (lo, hi)) /\ (exists lo hi, crossover Linkwitz_Riley_crossover 6 f1 fs = Ok (lo, hi)) /\
  splitter_init eps sm Linkwitz_Riley_crossover 6 3 nch fs [f0; f1] = CheckFail.
Proof.
  intros eps sm nch fs F. assert (R2 : 0 < / sqrt 2) by (apply Rinv_0_lt_compat, sqrt_lt_R0; lra). assert (B1 : / sqrt 2 < 99 / 100).
  { pose proof (sqrt_sqrt 2 ltac:(lra)) as S2. assert (P : 0 < sqrt 2) by (apply sqrt_lt_R0; lra). apply (Rmult_lt_reg_r (sqrt 2)); [exact P|]. rewrite Rinv_l by lra. nra. }
  assert (B0 : 1 / 100 < / sqrt 2).
  { pose proof (sqrt_sqrt 2 ltac:(lra)) as S2. assert (P : 0 < sqrt 2) by (apply sqrt_lt_R0; lra). apply (Rmult_lt_reg_r (sqrt 2)); [exact P|]. rewrite Rinv_l by lra. nra. }
  destruct (at_tan_ok fs (/ sqrt 2) F R2) as (T0 & A0 & U0). destruct (at_tan_ok fs 1 F ltac:(lra)) as (T1 & A1 & U1). pose proof (at_tan_lt fs (/ sqrt 2) 1 F ltac:(lra)) as LT.
  assert (F0 : fine_crossover 3 fs (at_tan fs (/ sqrt 2))) by (apply fine_at; [assumption|lra|auto|lra]). assert (F1 : fine_crossover 3 fs (at_tan fs 1)) by (apply fine_at; [assumption|lra|auto|lra]).
  exists (at_tan fs (/ sqrt 2)), (at_tan fs 1). split; [exact A0|]. split; [exact LT|]. split; [exact U1|].
  assert (HV : analog_value (butterworth 3) (0, tan (PI * at_tan fs (/ sqrt 2) / fs) / tan (PI * at_tan fs 1 / fs)) (Cinv (Cmult (1, / sqrt 2) (1 - / sqrt 2 * / sqrt 2, / sqrt 2)))).
  { rewrite T0, T1. replace (/ sqrt 2 / 1) with (/ sqrt 2) by (unfold Rdiv; rewrite Rinv_1; ring). apply butterworth_3. }
  destruct (three_crossovers 3 fs _ _ _ ltac:(lia) ltac:(lia) A0 (Rlt_le _ _ LT) U1 F0 F1 HV) as (lo0 & hi0 & lo1 & hi1 & _ & E0 & E1 & _). split; [eauto|]. split; [eauto|].
  pose proof (three_reject 3 fs _ _ _ ltac:(lia) ltac:(lia) A0 (Rlt_le _ _ LT) U1 F0 F1 HV) as R. pose proof order_6 as O6. cbv zeta in O6. rewrite O6 in R. specialize (R ltac:(lra)).
  unfold splitter_init. cbn [Z.ltb Z.compare ocheck]. cbv zeta. change (Z.to_nat 3) with 3%nat. change 6%Z with (2 * Z.of_nat 3)%Z. rewrite R. reflexivity.
Qed.
Print Assumptions C80_valid_frequencies_refuted.
(* Arguments that are refused. *)
Theorem C80_refuses : forall eps sm type order nb nch fs freqs,
  (nb <= 1)%Z \/ (Z.of_nat (length freqs) <> nb - 1)%Z \/ (exists i, (S i < length freqs)%nat /\ nth (S i) freqs 0 < nth i freqs 0) \/
  (freqs <> [] /\ let f := nth 0 freqs 0 in (order <= 0)%Z \/ f <= 0 \/ fs / 2 <= f \/ (type = Linkwitz_Riley_crossover /\ (order mod 2 <> 0)%Z)) ->
  splitter_init eps sm type order nb nch fs freqs = CheckFail.
Proof.
  intros eps sm type order nb nch fs freqs H. unfold splitter_init. destruct (Z.ltb_spec 1 nb) as [NB|NB]; [|reflexivity]. cbn [ocheck]. cbv zeta. unfold design_bank. destruct (Nat.eqb_spec (length freqs) (Z.to_nat nb - 1)) as [L|L]; [|reflexivity]. cbn [ocheck].
  destruct (is_sorted freqs) eqn:SO; [|reflexivity]. cbn [ocheck]. destruct H as [H|[H|[(i & Hi & H)|(NE & H)]]]; [lia|lia| |].
  - exfalso. clear L. revert i Hi H. induction freqs as [|x [|y r] IH]; intros i Hi H; cbn [length] in Hi; [lia|lia|]. cbn [is_sorted] in SO. apply andb_prop in SO as [S1 S2].
    destruct i as [|i]; [cbn [nth] in H; destruct (Rleb_spec x y); [lra|discriminate]|]. apply (IH S2 i); [cbn [length]; lia|exact H].
  - destruct freqs as [|f r]; [contradiction|]. cbn [traverse nth] in *. rewrite (C49_refused type order f fs H). reflexivity.
Qed.
Print Assumptions C80_refuses.

(* ---------- concrete filterbanks ---------- *)
(* Three bands, order 2, W = 1/4 and 1/2: the hypotheses of the theorems above hold for the filterbank that Init makes. *)
Example C80_example : forall eps sm fs, 0 < fs -> a0 sm <> 0 -> exists f0 f1 s, f0 < f1 /\ splitter_init eps sm Linkwitz_Riley_crossover 2 3 2 fs [f0; f1] = Ok s /\
  Forall (fine_crossover 1 fs) [f0; f1] /\ clear_allpass (sp_bank s) /\ reflective_bank (sp_bank s).
Proof.
  intros eps sm fs F A. destruct (example_bank fs F) as (d & ED & CA & RB). exists (at_tan fs (1 / 4)), (at_tan fs (1 / 2)).
  assert (FC : Forall (fine_crossover 1 fs) [at_tan fs (1 / 4); at_tan fs (1 / 2)]) by (constructor; [apply fine_at; auto; lra|constructor; [apply fine_at; auto; lra|constructor]]).
  pose proof (linkwitz_riley_design_scaled 1 3 fs _ d ltac:(lia) ltac:(lia) FC ED CA) as SC. pose proof (scaled_proper _ _ _ _ _ _ ED SC) as PB.
  destruct (splitter_init_ok eps sm Linkwitz_Riley_crossover 2 3 2 fs _ d ltac:(lia) ltac:(lia) A ED PB) as (s & ES & B & _). exists s. rewrite B. split; [apply at_tan_lt; [exact F|lra]|]. auto.
Qed.
Example C80_butterworth_example : forall eps sm fs, 0 < fs -> a0 sm <> 0 -> exists f s, splitter_init eps sm Butterworth_crossover 2 2 2 fs [f] = Ok s /\ Forall (fine_crossover 2 fs) [f] /\ clear_allpass (sp_bank s).
Proof.
  intros eps sm fs F A. destruct (at_tan_ok fs 1 F ltac:(lra)) as (_ & A1 & U1). assert (FC : fine_crossover 2 fs (at_tan fs 1)) by (apply fine_at; [assumption|lra|auto|lra]).
  destruct (butterworth_crossover_ok 2 fs (at_tan fs 1) ltac:(lia) ltac:(lia) A1 U1) as (lo & hi & E & _). destruct (butterworth_scaled 2 fs _ lo hi ltac:(lia) ltac:(lia) FC E) as [W1 W2].
  destruct (C80_two_bands eps sm Butterworth_crossover 2 2 fs (at_tan fs 1) lo hi ltac:(lia) A E W1 W2) as (s & ES & _). exists (at_tan fs 1), s. split; [exact ES|]. split; [auto|]. apply splitter_parts in ES. destruct ES as (_ & _ & _ & D & _).
  change (Z.to_nat 2) with 2%nat in D. change 2%Z with (Z.of_nat 2) in D. rewrite (two_bands_design _ _ _ _ _ _ E) in D. injection D as D. rewrite <- D. constructor.
Qed.
(* equal frequencies are refused with order 4 (W = 1) *)
Example C80_equal_frequencies : forall eps sm fs, 0 < fs -> a0 sm <> 0 -> exists f, 0 < f /\ f < fs / 2 /\ forall s, splitter_init eps sm Linkwitz_Riley_crossover 4 3 1 fs [f; f] <> Ok s.
Proof.
  intros eps sm fs F A. destruct (at_tan_ok fs (1 / 2) F ltac:(lra)) as (T & A1 & U1). exists (at_tan fs (1 / 2)). split; [exact A1|]. split; [exact U1|]. intros s E.
  assert (FC : fine_crossover 2 fs (at_tan fs (1 / 2))) by (apply fine_at; [assumption|lra|auto|lra]).
  pose proof (proj1 (C80_order_4_partial eps sm 1 fs _ _ ltac:(lia) A A1 (Rle_refl _) U1 FC FC) (ex_intro _ s E)) as Q. cbv zeta in Q. rewrite T in Q. replace (1 / 2 / (1 / 2)) with 1 in Q by field. replace (1 - 1 * 1) with 0 in Q by ring. rewrite Rabs_R0 in Q. unfold Rdiv in Q. rewrite Rmult_0_r, Rmult_0_l in Q. lra.
Qed.
