From Verif Require Import Common ListLemmas NthLemmas Mealy RealUtil BiquadModel DesignModel DesignSpec CascadeModel CascadeSpec PoleZeroModel PoleZeroSpec PoleZeroProofs4 PoleZeroProofs6 PoleZeroProofs18 LadderModel LadderSpec FixedDelayLineModel FixedDelayLineProofs EnvelopeModel EnvelopeSpec EnvelopeProofs DrcCurveModel DrcCurveSpec DrcModel DrcSpec DrcProofs DrcProps
  MultiCrossModel MultiCrossSpec MultiCrossProofs MultiCrossProofs2 MultiCrossProofs3 MultiCrossProofs4 MultiCrossProofs5 MultiCrossProofs6 MultiCrossProofs7 MultiCrossProofs8 MultiCrossProofs9 MultiCrossProps MultiCompModel MultiCompSpec MultiCompProofs MultiCompProofs2 MultiCompProofs3 MultiCompProofs4 MultiCompProofs5 MultiCompProofs6.
Local Open Scope R_scope.

(* ---------- a constant gain ---------- *)
Lemma constant_output p g fs n x : (forall l, documented_gain p l = g) -> documented_output p fs n 0 x x = map (map (fun v => v * amplitude g)) x.
Proof.
  intros H. unfold documented_output. cbv zeta. cbn [repeat app]. rewrite firstn_all. set (ls := map (level_of _) _). assert (L : length ls = length x) by (unfold ls; now rewrite map_length, follower_length, map_length). clearbody ls.
  revert ls L. induction x as [|f x IH]; intros [|l ls] L; cbn [length] in L; try lia; cbn [combine map]; [reflexivity|]. cbn [fst snd]. rewrite H. f_equal. apply IH. lia.
Qed.
Lemma amplitude_0 : amplitude 0 = 1.
Proof. unfold amplitude. rewrite Rmult_0_r. apply exp_0. Qed.
Lemma default_gain l : documented_gain default_params l = 0.
Proof.
  unfold documented_gain, default_params. cbn [dynamics_type input_gain_db threshold_db ratio_of knee_width_db output_gain_db]. cbv zeta. unfold documented_compressor.
  destruct (Rle_dec (l + 0 - 0) (- (0 / 2))); [ring|]. destruct (Rle_dec (0 / 2) (l + 0 - 0)); [field|]. lra.
Qed.
Lemma neutral_output fs n x : documented_output default_params fs n 0 x x = x.
Proof.
  rewrite (constant_output default_params 0) by exact default_gain. rewrite amplitude_0. rewrite <- (map_id x) at 2. apply map_ext. intros f. rewrite <- (map_id f) at 2. apply map_ext. intros v. ring.
Qed.
Lemma amplitude_20 : amplitude 20 = 10.
Proof. unfold amplitude. replace (ln 10 / 20 * 20) with (ln 10) by field. apply exp_ln. lra. Qed.

(* ---------- one band, with and without Reset ---------- *)
Lemma reset_band junk : exists s0 s1 s2, drc_make (flat 20 0) = Ok s0 /\ drc_init junk s0 1 1 48000 = Ok s1 /\ drc_reset s1 = Ok s2 /\
  forall v, (exists t, drc_process junk s1 [[v]] [[v]] = Ok (t, [[v * 10]])) /\ (exists t, drc_process junk s2 [[v]] [[v]] = Ok (t, [[v * 1]])).
Proof.
  destruct (initialised junk (flat 20 0) 1 1 48000 0) as (s & e & E & EE & RE & EN & EM & EP & EC); try (cbn; lra || lia).
  unfold drc_session in E. apply obind_inv in E as (s0 & E0 & E). cbn [run drc_step] in E. unfold omap in E. apply obind_inv in E as ([s1 o1] & E1 & Q). apply obind_inv in E1 as (s1' & E1 & Q2). injection Q2 as <- <-. cbn [obind fst] in Q. injection Q as ->.
  assert (XN : next_params s = default_params). { destruct (make_sound _ _ E0) as ((Q1 & Q2 & _) & _ & X0 & _). destruct (init_ready _ _ _ _ _ _ Q1 Q2 E1) as (_ & _ & _ & _ & _ & X & _). congruence. }
  assert (ER : exists e', env_reset e = Ok e'). { unfold env_reset. destruct (ready_rows _ _ _ _ RE) as [Ra Rr]. rewrite !steady_one by assumption. cbn [obind]. eauto. } destruct ER as (e' & ER).
  set (sr := {| num_channels := num_channels s; max_block := max_block s; params := next_params s; change_needed := false; next_params := next_params s; lookahead_delay := lookahead_delay s; detector := Some e' |}).
  exists s0, s, sr. split; [exact E0|]. split; [exact E1|]. split; [unfold drc_reset; rewrite (ready_env _ _ _ _ RE), ER; reflexivity|]. intros v.
  assert (V : valid_block (num_channels s) (max_block s) ([[v]], [[v]])) by (unfold valid_block; rewrite EN, EM; cbn; repeat split; auto; repeat constructor).
  assert (RR : ready sr e' 0 []). { destruct RE as [X1 X2 X3 X4 X5]. constructor; try reflexivity; try assumption. exact (reset_rows e e' X2 ER). }
  split.
  - destruct (process_ready junk s e 0 [] [[v]] [[v]] RE V) as (t & Q & _). cbv zeta in Q. exists t. rewrite Q. unfold effective. rewrite EC, EP. unfold env_values, scaled. cbn [map scan snd slice length skipn firstn repeat app combine fst]. rewrite flat_gain, amplitude_20. reflexivity.
  - destruct (process_ready junk sr e' 0 [] [[v]] [[v]] RR V) as (t & Q & _). cbv zeta in Q. exists t. rewrite Q. unfold effective. cbn [change_needed params sr]. rewrite XN. unfold env_values, scaled. cbn [map scan snd slice length skipn firstn repeat app combine fst]. rewrite default_gain, amplitude_0. reflexivity.
Qed.

(* ---------- a filterbank with two bands ---------- *)
Lemma two_bands eps sm nch fs : a0 sm <> 0 -> (1 <= nch)%nat -> 0 < fs -> exists s l h, splitter_init eps sm Linkwitz_Riley_crossover 2 2 nch fs [at_tan fs (1 / 4)] = Ok s /\
  lowpass_coeffs (sp_bank s) = [[l]] /\ highpass_coeffs (sp_bank s) = [[h]] /\ allpass_coeffs (sp_bank s) = [] /\ reflective_bank (sp_bank s) /\ a0 l = 1 /\ a0 h = 1 /\ b0 l + b0 h < 0.
Proof.
  intros A N F. destruct (at_tan_ok fs (1 / 4) F ltac:(lra)) as (T & A1 & U1). assert (FC : fine_crossover 1 fs (at_tan fs (1 / 4))) by (apply fine_at; [assumption|lra|auto|lra]).
  destruct FC as (G1 & G2 & G3). destruct (linkwitz_riley_ok 1 fs (at_tan fs (1 / 4)) ltac:(lia) ltac:(lia) A1 U1 G1 G2 G3) as (lo & hi & E & _). assert (FC : fine_crossover 1 fs (at_tan fs (1 / 4))) by (split; auto).
  destruct (lr2_sections fs _ lo hi A1 U1 FC ltac:(rewrite T; lra) E) as (l & h & -> & -> & R1 & R2 & Q1 & Q2 & Q3). rewrite T in Q3. specialize (Q3 ltac:(lra)).
  destruct (C80_two_bands eps sm Linkwitz_Riley_crossover 2 nch fs (at_tan fs (1 / 4)) [l] [h] N A E) as (s & ES & B1 & B2 & B3).
  - destruct (linkwitz_riley_scaled 1 fs _ [l] [h] ltac:(lia) ltac:(lia) FC E) as [W1 _]. exact W1.
  - destruct (linkwitz_riley_scaled 1 fs _ [l] [h] ltac:(lia) ltac:(lia) FC E) as [_ W2]. exact W2.
  - exists s, l, h. split; [exact ES|]. rewrite B1, B2, B3. unfold reflective_bank. rewrite B1, B2, B3. auto 10.
Qed.
