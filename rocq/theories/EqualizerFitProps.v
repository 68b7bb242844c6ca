(* C93: fitting the parametric equaliser to a magnitude response. *)
From Verif Require Import Common RealUtil CInt BiquadModel DesignModel DesignSpec DesignProofs CascadeModel CascadeSpec EqualizerModel EqualizerSpec EqualizerProofs EqualizerProps
  DecibelsModel NelderMeadModel NelderMeadSpec NelderMeadProofs NelderMeadProofs2 NelderMeadProofs3 NelderMeadProofs5 NelderMeadProps
  EqualizerFitModel EqualizerFitSpec EqualizerFitProofs EqualizerFitProofs2 EqualizerFitProofs3 EqualizerFitProofs4 EqualizerFitProofs5.
From Coquelicot Require Import Complex.
Local Open Scope R_scope.

(* Fitting the gains: with a solver of positive definite systems, the gains start at 6 dB, and every
   pass multiplies them by the unique minimiser of the regularised least squares problem whose
   columns are the decibel responses of the stages at the gains so far; it stops early only when no
   gain changed by the threshold or more.  Nothing but the gains changes. *)
Theorem C93_gains : forall ldlt freqs targets fs p e e', solves_spd ldlt ->
  match_gains ldlt freqs targets fs p e = Ok e' ->
  length freqs = length targets /\ shape_of e' = shape_of e /\ num_enabled e = num_stages e /\
  fit_run fs freqs targets e (threshold_db p) (Z.to_nat (inner_iterations p)) (repeat 6 (S (num_stages e))) (gains_of e').
Proof.
  intros ldlt freqs targets fs p e e' HL H. destruct (match_gains_keeps _ _ _ _ _ _ _ H) as (_ & L & _). split; [exact L|]. exact (match_gains_run ldlt freqs targets fs HL L p e e' H).
Qed.
Print Assumptions C93_gains.
(* such a solver exists *)
Theorem C93_solver_exists : exists ldlt, solves_spd ldlt.
Proof. exists elimination. exact elimination_solves. Qed.
Print Assumptions C93_solver_exists.
(* The columns are the responses of the stages in order, when the stages designed at these gains are
   of second order by the measure of the code; otherwise stages may have been merged. *)
Theorem C93_columns_partial : forall fs e ds cs, gain_db e = 0 -> (0 < num_enabled e)%nat -> designs fs (stages e) = Ok ds -> Forall second_order ds ->
  get_coefficients e fs = Ok cs -> cs = ds.
Proof.
  intros fs e ds cs HG HN HD HS HC. destruct (coefficients_valid _ _ _ HC) as [Hfs _]. pose proof (coefficients_so fs e ds Hfs HD HS) as E. rewrite HC in E. injection E as ->.
  unfold num_enabled in HN. rewrite <- (designs_length _ _ _ HD) in HN. destruct ds as [|c ds]; [cbn in HN; lia|]. rewrite HG, db_zero. cbn [cascade_of adjust_gain]. f_equal.
  destruct c. unfold set_b, vec_b. cbn. rewrite !Rmult_1_r. reflexivity.
Qed.
Print Assumptions C93_columns_partial.

(* The result does not depend on the gains found in the equaliser, and fitting again changes nothing. *)
Theorem C93_previous_gains : forall ldlt freqs targets fs p e1 e2, shape_of e1 = shape_of e2 ->
  match_gains ldlt freqs targets fs p e1 = match_gains ldlt freqs targets fs p e2 /\
  forall e', match_gains ldlt freqs targets fs p e1 = Ok e' -> match_gains ldlt freqs targets fs p e' = Ok e'.
Proof. intros ldlt freqs targets fs p e1 e2 H. split; [apply match_gains_shape; exact H|]. intros e'. apply match_gains_again. Qed.
Print Assumptions C93_previous_gains.

(* A flat target gives an equaliser with all gains zero, which reproduces it exactly (no lowpass or
   highpass stages; at least one pass). *)
Theorem C93_flat : forall ldlt freqs targets fs p e e', solves_spd ldlt -> (forall t, In t targets -> t = 0) -> (0 < inner_iterations p)%Z ->
  match_gains ldlt freqs targets fs p e = Ok e' ->
  gains_of e' = repeat 0 (S (num_stages e)) /\
  ((forall s b, In (s, b) (stages e) -> type s <> Lowpass /\ type s <> Highpass) -> forall r, (0 < length freqs)%nat -> rms_of fs freqs targets e' r -> r = 0).
Proof.
  intros ldlt freqs targets fs p e e' HL HT HI H. destruct (C93_gains _ _ _ _ _ _ _ HL H) as (L & HS & HE & HR).
  destruct (run_flat _ _ _ _ _ _ _ _ HT L HR ltac:(lia)) as [Lg Z]. split.
  - apply (nth_ext _ _ 0 0); [rewrite repeat_length; exact Lg|]. intros k Hk. rewrite Z, nth_repeat_lt; [reflexivity|lia].
  - intros HP r HF HRM. destruct (gains_zero _ Z) as [G0 GS]. pose proof HRM as (cs & hs & EC & _). destruct (coefficients_valid _ _ _ EC) as [Hfs HV].
    apply (flat_rms fs freqs targets e' r Hfs HV); auto. apply clear_same; [exact G0|]. intros s b Hin. split; [eapply GS; exact Hin|].
    apply In_nth_error in Hin as (i & Hi). assert (X : nth_error (shape_of e') i = nth_error (shape_of e) i) by (rewrite HS; reflexivity). unfold shape_of in X. rewrite !nth_error_map, Hi in X.
    destruct (nth_error (stages e) i) as [[s0 b0]|] eqn:E0; [|discriminate X]. cbn in X. injection X as X _ _ _. rewrite X. eapply HP, nth_error_In, E0.
Qed.
Print Assumptions C93_flat.

(* FitParametricEqualizer: whatever the solver does, a fit that returns keeps the types and flags,
   stays in the ranges for frequencies and quality factors, leaves a filter that can be designed with
   the gains that fit its frequencies and quality factors, and returns the root mean square error of
   that filter in decibels; the error is not larger than that of the starting guess (moved into the
   ranges, with its gains fitted). *)
Theorem C93_fit : forall ldlt freqs targets fs junk p e r e', good_junk (2 * num_stages e) junk ->
  fit_equalizer ldlt freqs targets fs junk p e = Ok (r, e') ->
  kinds_of e' = kinds_of e /\ in_ranges p e' /\ valid_equalizer fs e' /\ num_enabled e' = num_stages e' /\
  match_gains ldlt freqs targets fs (inner p) e' = Ok e' /\
  length freqs = length targets /\ (0 < length freqs)%nat /\ rms_of fs freqs targets e' r /\
  forall e0 e1 r1, moved_into_ranges p e e0 -> match_gains ldlt freqs targets fs (inner p) e0 = Ok e1 -> rms_of fs freqs targets e1 r1 -> r <= r1.
Proof.
  intros ldlt freqs targets fs junk p e r e' HJ H. destruct (fit_needs _ _ _ _ _ _ _ _ H) as (Hn & Hm & HM & HQ & x0 & HP).
  destruct (fit_setup ldlt freqs targets fs junk p e HJ Hn x0 HP Hm HM HQ) as (s5 & s4 & HR & M & E). rewrite E in H. clear E.
  destruct (each _ (rev (calls s5))) as [ys| |] eqn:EC in H; try discriminate H. cbn [obind] in H.
  assert (CALLS : forall x, In x (calls s5) -> exists y, rms_objective ldlt freqs targets fs (inner p) e x = Ok y) by (intros x Hx; apply (each_in _ _ _ EC); apply -> in_rev; exact Hx).
  pose proof HR as [RE RL RU RO RP].
  destruct (C42_best Fin _ s4 _ _ _ _ _ _ RE RO M) as (x & EA & _ & Hx & _ & BEST). rewrite EA in H. cbn [obind] in H.
  destruct (C42_bounds Fin _ s4 _ _ _ _ s5 x RE M (or_introl Hx)) as [Lx Wx]. rewrite RL, RU in Wx.
  pose proof H as HO. unfold rms_objective in H. destruct (set_parameters e x) as [e1| |] eqn:E1; try discriminate H. cbn [obind] in H.
  destruct (match_gains ldlt freqs targets fs (inner p) e1) as [e2| |] eqn:E2; try discriminate H. cbn [obind] in H.
  destruct (rms_error freqs targets fs e2) as [r2| |] eqn:E3; try discriminate H. injection H as -> ->.
  destruct (set_parameters_ok _ _ _ E1) as (_ & K1 & N1 & _). destruct (match_gains_keeps _ _ _ _ _ _ _ E2) as (S2 & L2 & EN).
  pose proof (rms_error_ok ldlt freqs targets fs e' r L2 E3) as RMS.
  assert (NF : (0 < length freqs)%nat).
  { unfold rms_error in E3. destruct (gain_magnitudes freqs fs e'); try discriminate E3. cbn [obind] in E3. destruct (amplitude_to_db_array _); try discriminate E3. cbn [obind oguard] in E3.
    destruct (Nat.eqb_spec (length targets) 0); [discriminate E3|]. lia. }
  split; [rewrite (shape_kinds _ _ S2); exact K1|]. split.
  { pose proof (within_ranges ldlt fs p e x e1 Hm ltac:(lra) Wx E1) as RG. intros s b Hin. apply In_nth_error in Hin as (i & Hi).
    assert (X : nth_error (shape_of e') i = nth_error (shape_of e1) i) by (rewrite S2; reflexivity). unfold shape_of in X. rewrite !nth_error_map, Hi in X.
    destruct (nth_error (stages e1) i) as [[s0 b0]|] eqn:E0; [|discriminate X]. cbn in X. injection X as _ X1 X2 _. rewrite X1, X2. eapply RG, nth_error_In, E0. }
  split; [pose proof RMS as (cs & hs & C & _); exact (proj2 (coefficients_valid _ _ _ C))|].
  split; [rewrite (shape_enabled _ _ S2), (shape_num _ _ S2); exact EN|]. split; [exact (match_gains_again _ _ _ _ _ _ _ E2)|]. split; [exact L2|]. split; [exact NF|]. split; [exact RMS|].
  intros e0 e3 r3 HMV HG HRM.
  assert (In0 : In x0 (points s4)) by (rewrite RP; left; reflexivity).
  pose proof (reachable_wf _ _ _ RE) as W.
  pose proof (clamp_pushed (2 * num_stages e) s4 x0 (w_pl _ _ W _ In0) (w_lo _ _ W) (w_hi _ _ W)) as PI.
  pose proof (BEST x0 _ In0 PI) as LE. pose proof (vertex_called _ _ _ _ _ _ _ _ _ _ _ _ _ _ _ _ HR M In0 PI) as INC.
  destruct (CALLS _ INC) as ([r4 e4] & E4). rewrite RL, RU in PI.
  unfold search_value in LE. rewrite HO, E4 in LE. cbn [xle] in LE.
  unfold rms_objective in E4. destruct (set_parameters e (clamp s4 x0)) as [e5| |] eqn:E5; try discriminate E4. cbn [obind] in E4.
  destruct (get_parameters_ok _ _ HP) as [HF _].
  pose proof (shape_moved ldlt p e e0 Hm ltac:(lra) HF HMV x0 _ e5 HP PI E5) as S5.
  rewrite (match_gains_shape ldlt freqs targets fs (inner p) e5 e0 S5), HG in E4. cbn [obind] in E4.
  destruct (rms_error freqs targets fs e3) as [r5| |] eqn:E6; try discriminate E4. injection E4 as -> ->.
  rewrite (rms_of_unique ldlt freqs targets fs e4 r3 r4 NF HRM (rms_error_ok ldlt _ _ _ _ _ L2 E6)). exact LE.
Qed.
Print Assumptions C93_fit.

(* A fit with a positive number of stages, positive starting frequencies and proper ranges returns,
   if every equaliser of these types with parameters in the ranges could be fitted. *)
Theorem C93_returns : forall ldlt freqs targets fs junk p e, good_junk (2 * num_stages e) junk -> (0 < num_stages e)%nat ->
  (forall s b, In (s, b) (stages e) -> 0 < frequency_hz s) -> 0 < min_frequency p -> min_frequency p < max_frequency p -> min_quality p <= max_quality p ->
  (forall e0, kinds_of e0 = kinds_of e -> in_ranges p e0 -> exists e1 r1, match_gains ldlt freqs targets fs (inner p) e0 = Ok e1 /\ rms_error freqs targets fs e1 = Ok r1) ->
  exists r e', fit_equalizer ldlt freqs targets fs junk p e = Ok (r, e').
Proof.
  intros ldlt freqs targets fs junk p e HJ Hn HF Hm HM HQ HA.
  destruct (fit_setup ldlt freqs targets fs junk p e HJ Hn _ (get_parameters_intro e HF) Hm HM HQ) as (s5 & s4 & [RE RL RU RO RP] & M & E).
  assert (OBJ : forall x, In x (calls s5) -> exists r e', rms_objective ldlt freqs targets fs (inner p) e x = Ok (r, e')).
  { intros x Hx. destruct (C42_bounds Fin _ s4 _ _ _ _ s5 x RE M (or_introl Hx)) as [Lx Wx]. rewrite RL, RU in Wx.
    destruct (set_parameters_intro e x Lx) as (e1 & E1). destruct (set_parameters_ok _ _ _ E1) as (_ & K1 & _).
    destruct (HA e1 K1 (within_ranges ldlt fs p e x e1 Hm ltac:(lra) Wx E1)) as (e2 & r2 & E2 & E3). exists r2, e2. unfold rms_objective. rewrite E1. cbn [obind]. rewrite E2. cbn [obind]. rewrite E3. reflexivity. }
  assert (EACH : exists ys, each (rms_objective ldlt freqs targets fs (inner p) e) (rev (calls s5)) = Ok ys).
  { destruct (choice_list (fun x y => rms_objective ldlt freqs targets fs (inner p) e x = Ok y) (rev (calls s5))) as [ys Hys]; [|exists ys; apply each_intro; exact Hys].
    intros x Hx. apply in_rev in Hx. destruct (OBJ x Hx) as (r & e' & Eo). exists (r, e'). exact Eo. }
  destruct EACH as [ys EY]. destruct (C42_best Fin _ s4 _ _ _ _ _ _ RE RO M) as (x & EA & _ & Hx & _). destruct (OBJ x Hx) as (r & e' & Eo).
  exists r, e'. rewrite E, EY. cbn [obind]. rewrite EA. cbn [obind]. exact Eo.
Qed.
Print Assumptions C93_returns.

(* What is refused: different numbers of frequencies and targets, a bypassed stage (although the
   header says that the status is ignored), no stages, improper ranges. *)
Theorem C93_refused : forall ldlt freqs targets fs p c e junk,
  (length freqs <> length targets \/ (num_enabled e < num_stages e)%nat -> match_gains ldlt freqs targets fs c e = CheckFail) /\
  (num_stages e = 0%nat -> fit_equalizer ldlt freqs targets fs junk p e = CheckFail) /\
  (min_frequency p <= 0 \/ max_frequency p <= min_frequency p \/ max_quality p < min_quality p \/ (num_enabled e < num_stages e)%nat ->
   good_junk (2 * num_stages e) junk -> forall r, fit_equalizer ldlt freqs targets fs junk p e <> Ok r).
Proof.
  intros ldlt freqs targets fs p c e junk. split; [|split].
  - intros [H|H]; unfold match_gains, ocheck at 1; destruct (Nat.eqb_spec (length freqs) (length targets)) as [E|E]; try reflexivity; try contradiction.
    cbv zeta. unfold set_gains, ocheck. rewrite repeat_length. replace (1 + num_enabled e =? num_stages e + 1)%nat with false by lia. reflexivity.
  - intros H. unfold fit_equalizer. cbv zeta. rewrite H. reflexivity.
  - intros H HJ [r e'] HF. destruct (fit_needs _ _ _ _ _ _ _ _ HF) as (Hn & Hm & HM & HQ & x0 & HP).
    destruct H as [H|[H|[H|H]]]; try lra. destruct (C93_fit _ _ _ _ _ _ _ _ _ HJ HF) as (K & _ & _ & EN & _).
    pose proof (kinds_num _ _ K) as X.
    assert (EE : forall e, num_enabled e = length (filter snd (kinds_of e))).
    { intros e0. unfold num_enabled, kinds_of. induction (stages e0) as [|[s b] l IH]; [reflexivity|]. cbn [filter map fst snd]. destruct b; cbn [length]; auto. }
    rewrite (EE e'), K, <- (EE e), X in EN. lia.
Qed.
Print Assumptions C93_refused.

(* The range of frequencies is not adapted to the sample rate: the search tries starting frequencies
   increased by the factor exp 0.1, so if such a frequency, moved into the range, is not below half
   the sample rate, the fit does not return.  This happens with the default settings at 44100 Hz. *)
Theorem C93_frequency_range_refuted :
  (forall ldlt freqs targets fs junk p e s b, good_junk (2 * num_stages e) junk -> In (s, b) (stages e) ->
     fs / 2 <= Rmin (frequency_hz s * exp (1 / 10)) (max_frequency p) -> forall r, fit_equalizer ldlt freqs targets fs junk p e <> Ok r) /\
  exists e, valid_equalizer 44100 e /\ num_enabled e = num_stages e /\ in_ranges default_settings e /\
    forall ldlt freqs targets junk r, good_junk (2 * num_stages e) junk -> fit_equalizer ldlt freqs targets 44100 junk default_settings e <> Ok r.
Proof.
  assert (G : forall ldlt freqs targets fs junk p e s b, good_junk (2 * num_stages e) junk -> In (s, b) (stages e) ->
     fs / 2 <= Rmin (frequency_hz s * exp (1 / 10)) (max_frequency p) -> forall r, fit_equalizer ldlt freqs targets fs junk p e <> Ok r).
  { intros ldlt freqs targets fs junk p e s b HJ Hin HF r H. destruct (fit_needs _ _ _ _ _ _ _ _ H) as (Hn & Hm & HM & HQ & x0 & HP).
    destruct (fit_setup ldlt freqs targets fs junk p e HJ Hn x0 HP Hm HM HQ) as (s5 & s4 & HR & M & E). rewrite E in H. clear E.
    destruct (each _ (rev (calls s5))) as [ys| |] eqn:EC in H; try discriminate H. clear H.
    pose proof HR as [RE RL RU RO RP]. pose proof (reachable_wf _ _ _ RE) as W.
    destruct (get_parameters_ok _ _ HP) as [HFp EX]. apply In_nth_error in Hin as (i & Hi).
    assert (Li : (i < num_stages e)%nat) by (apply nth_error_Some; rewrite Hi; discriminate).
    assert (L0 : length x0 = (2 * num_stages e)%nat) by (rewrite EX, app_length, !map_length; unfold num_stages; lia).
    assert (Inb : In (bump x0 (1 / 10) i) (points s4)) by (rewrite RP; right; apply in_map, in_seq; lia).
    pose proof (clamp_pushed (2 * num_stages e) s4 _ (w_pl _ _ W _ Inb) (w_lo _ _ W) (w_hi _ _ W)) as PI.
    pose proof (vertex_called _ _ _ _ _ _ _ _ _ _ _ _ _ _ _ _ HR M Inb PI) as INC.
    destruct (each_in _ _ _ EC _ (proj1 (in_rev _ _) INC)) as ([r4 e4] & E4). unfold rms_objective in E4.
    destruct (set_parameters e (clamp s4 (bump x0 (1 / 10) i))) as [e5| |] eqn:E5; try discriminate E4. cbn [obind] in E4.
    destruct (match_gains ldlt freqs targets fs (inner p) e5) as [e6| |] eqn:E6; try discriminate E4. cbn [obind] in E4.
    destruct (match_gains_keeps _ _ _ _ _ _ _ E6) as (S6 & _ & EN6). destruct (rms_error freqs targets fs e6) as [r6| |] eqn:E7; try discriminate E4. clear E4.
    unfold rms_error, gain_magnitudes in E7. destruct (get_coefficients e6 fs) as [cs| |] eqn:E8; try discriminate E7. clear E7.
    destruct (coefficients_valid _ _ _ E8) as [_ HV].
    destruct (set_parameters_ok _ _ _ E5) as (_ & _ & N5 & S5). specialize (S5 i s b Hi).
    assert (X : nth_error (shape_of e6) i = nth_error (shape_of e5) i) by (rewrite S6; reflexivity). unfold shape_of in X. rewrite !nth_error_map, S5 in X.
    destruct (nth_error (stages e6) i) as [[s6 b6]|] eqn:E9; [|discriminate X]. cbn [option_map fst snd with_parameters type frequency_hz quality_factor] in X. injection X as _ X1 _ X4.
    assert (EN : b6 = true).
    { assert (Q : num_enabled e6 = num_stages e6) by (rewrite (shape_enabled _ _ S6), (shape_num _ _ S6); exact EN6). exact (all_enabled _ Q i s6 b6 E9). }
    unfold valid_equalizer in HV. rewrite Forall_forall in HV. destruct (HV _ (nth_error_In _ _ E9) EN) as (_ & V2 & _). cbn [fst] in V2. rewrite X1 in V2.
    rewrite RL, RU in PI. destruct PI as [_ PV]. assert (Lb : (i < length (bump x0 (1 / 10) i))%nat) by (unfold bump; rewrite splice_one_length; lia).
    rewrite (PV i Lb) in V2. unfold low_bounds, high_bounds in V2.
    rewrite (proj1 (nth_halves (Some (ln (min_frequency p))) (Some (min_quality p)) None (num_stages e) i Li)), (proj1 (nth_halves (Some (ln (max_frequency p))) (Some (max_quality p)) None (num_stages e) i Li)) in V2.
    cbv zeta in V2. rewrite guess_vertex, Nat.eqb_refl in V2 by lia.
    assert (X0 : nth i x0 0 = ln (frequency_hz s)).
    { rewrite EX, app_nth1 by (rewrite map_length; exact Li). rewrite (nth_error_nth (map (fun p => ln (frequency_hz (fst p))) (stages e)) i (x := ln (frequency_hz s))); [reflexivity|]. rewrite nth_error_map, Hi. reflexivity. }
    rewrite X0 in V2. assert (Pf : 0 < frequency_hz s) by (eapply HFp, nth_error_In, Hi).
    assert (EXP : forall a c, a <= c -> exp a <= exp c) by (intros a c [Hac| ->]; [left; apply exp_increasing; exact Hac|right; reflexivity]).
    assert (B : Rmin (frequency_hz s * exp (1 / 10)) (max_frequency p) <= exp (Rmin (Rmax (ln (frequency_hz s) + 1 / 10) (ln (min_frequency p))) (ln (max_frequency p)))).
    { unfold Rmin at 2. destruct (Rle_dec _ _) as [A|A].
      - apply Rle_trans with (frequency_hz s * exp (1 / 10)); [apply Rmin_l|]. rewrite <- (exp_ln (frequency_hz s)) at 1 by exact Pf. rewrite <- exp_plus. apply EXP, Rmax_l.
      - rewrite exp_ln by lra. apply Rmin_r. }
    lra. }
  split; [exact G|].
  exists {| gain_db := 0; stages := [({| type := Peak; frequency_hz := 21000; quality_factor := 1; stage_gain_db := 0 |}, true)] |}.
  split; [|split; [reflexivity|split]].
  - repeat constructor; cbn; lra.
  - intros s b [H|[]]. injection H as <- <-. cbn. lra.
  - intros ldlt freqs targets junk r HJ. eapply G; [exact HJ|left; reflexivity|]. cbn [frequency_hz default_settings max_frequency].
    pose proof (exp_ineq1_le (1 / 10)) as Q. apply Rmin_glb; lra.
Qed.
Print Assumptions C93_frequency_range_refuted.

(* One peak at any frequency below half the sample rate, a single frequency 0 with target 3 dB: the
   peak does nothing there, so the overall gain does it all, up to the regularisation. *)
Example C93_gains_instance : match_gains elimination [0] [3] 8 one_pass (one_peak 2 3 5 7) = Ok (one_peak 2 3 0 (6 * (6 * 3 / (36 + / 10000)))).
Proof. apply one_peak_fits; [exact elimination_solves|lra|lra]. Qed.
Example C93_flat_instance : exists e', match_gains elimination [0] [0] 8 one_pass (one_peak 2 3 5 7) = Ok e' /\
  (forall s b, In (s, b) (stages (one_peak 2 3 5 7)) -> type s <> Lowpass /\ type s <> Highpass) /\ (0 < inner_iterations one_pass)%Z /\ rms_of 8 [0] [0] e' 0.
Proof.
  destruct (one_peak_fits elimination 0 2 3 5 7 elimination_solves ltac:(lra) ltac:(lra)) as [M (r & E)]. eexists. split; [exact M|].
  assert (T : forall s b, In (s, b) (stages (one_peak 2 3 5 7)) -> type s <> Lowpass /\ type s <> Highpass) by (intros s b [H|[]]; injection H as <- <-; split; discriminate).
  split; [exact T|]. split; [reflexivity|]. apply (rms_error_ok elimination) in E; [|reflexivity].
  destruct (C93_flat elimination [0] [0] 8 one_pass (one_peak 2 3 5 7) _ elimination_solves ltac:(intros t [<-|[]]; reflexivity) eq_refl M) as [_ F].
  rewrite (F T r ltac:(cbn; lia) E) in E. exact E.
Qed.
Example C93_columns_instance : exists c, designs 8 (stages (one_peak 2 3 6 0)) = Ok [c] /\ Forall second_order [c] /\ get_coefficients (one_peak 2 3 6 0) 8 = Ok [c].
Proof.
  destruct (one_peak_designs 2 3 6 0 ltac:(lra) ltac:(lra) six_db) as (c & D & S & _ & E). exists c. split; [exact D|]. split; [repeat constructor; apply S|].
  destruct (get_coefficients (one_peak 2 3 6 0) 8) as [cs| |] eqn:EC; try discriminate E.
  rewrite (C93_columns_partial 8 (one_peak 2 3 6 0) [c] cs eq_refl ltac:(cbn; lia) D ltac:(repeat constructor; apply S) EC). reflexivity.
Qed.
(* Every setting in the ranges can be fitted, so the fit returns; the starting guess is out of the
   ranges on purpose. *)
Example C93_fit_instance : exists r e', fit_equalizer elimination [0] [3] 8 (repeat [0; 0] 3) small_settings (one_peak (1 / 2) 7 0 0) = Ok (r, e').
Proof.
  apply C93_returns; try (cbn; lra); try (cbn; lia).
  - split; [reflexivity|]. intros q Hq. apply repeat_spec in Hq. subst. reflexivity.
  - intros s b [E|[]]. injection E as <- <-. cbn. lra.
  - intros [g [|[[t f q a] b] [|]]] K HR; try discriminate K. injection K as -> ->. destruct (HR _ _ (or_introl eq_refl)) as [F Q]. cbn in F, Q.
    destruct (one_peak_fits elimination 3 f q a g elimination_solves ltac:(lra) ltac:(lra)) as [M (r & E)]. eexists. exists r. split; [exact M|exact E].
Qed.
Example C93_bypassed_instance : match_gains elimination [0] [3] 8 one_pass
  {| gain_db := 0; stages := [({| type := Peak; frequency_hz := 2; quality_factor := 3; stage_gain_db := 0 |}, false)] |} = CheckFail.
Proof. apply (C93_refused elimination [0] [3] 8 small_settings one_pass _ []). right. cbn. lia. Qed.
