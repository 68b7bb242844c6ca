From Verif Require Import Common CInt ListLemmas Mealy NthLemmas RealUtil BiquadModel BiquadSpec BiquadProofs DesignModel CascadeModel CascadeSpec CascadeProofs LoudnessSpec
  ResamplerModel ResamplerSpec EnvDetectModel EnvDetectProofs EnvDetectProofs2 EnvDetectProps LadderModel LadderSpec LadderProofs DecibelsModel PerceptualModel BackgroundModel BackgroundSpec BackgroundProofs MultiCrossModel MultiCrossProofs MultiCrossProofs4 MultiCrossProofs7
  LevelMeterModel LevelMeterSpec LevelMeterProofs LevelMeterProofs2 LevelMeterProofs3 LevelMeterProofs4 LevelMeterProofs5 LevelMeterProofs6.
From Coq Require Import Lra Lia Reals.
Local Open Scope R_scope.

(* two trackers that differ at most in the stored cutoff, and two settled ladder filters with the same coefficients *)
Definition same_level (b b' : bg) : Prop := coeff b = coeff b' /\ burn_in_coeff b = burn_in_coeff b' /\ rejection_samples b = rejection_samples b' /\ BackgroundModel.channels b = BackgroundModel.channels b' /\ sensitivity (bparams b) = sensitivity (bparams b').
Definition same_ladder (f f' : ladder) : Prop := smoothing_samples f = O /\ smoothing_samples f' = O /\ reflection f = reflection f' /\ scattering f = scattering f' /\ tap_gains f = tap_gains f' /\ state f = state f'.
Lemma same_frame b b' factor : same_level b b' -> forall cs fr, frame_channels b factor cs fr = frame_channels b' factor cs fr.
Proof.
  intros (E1 & E2 & E3 & _). induction cs as [|c cs IH]; intros [|[f s] fr]; try reflexivity. cbn [frame_channels]. unfold channel_sample. rewrite E1, E2, E3, IH. reflexivity.
Qed.
Lemma same_frames b b' factor : same_level b b' -> forall frs cs, block_frames b factor cs frs = block_frames b' factor cs frs.
Proof. intros H. induction frs as [|fr frs IH]; intros cs; [reflexivity|]. cbn [block_frames]. rewrite (same_frame b b' factor H). destruct (frame_channels b' factor cs fr); cbn [obind]; [now rewrite IH|reflexivity|reflexivity]. Qed.
Definition related {A B} (P : A -> A -> Prop) (x y : outcome (A * B)) : Prop := match x, y with Ok (a, o), Ok (a', o') => P a a' /\ o = o' | CheckFail, CheckFail => True | Undef, Undef => True | _, _ => False end.
Lemma same_bg_block b b' frs : same_level b b' -> related same_level (bg_block b frs) (bg_block b' frs).
Proof.
  intros H. pose proof H as (E1 & E2 & E3 & E4 & E5). unfold bg_block. rewrite E4, E5. destruct (_ =? 0)%nat; [split; [exact H|reflexivity]|]. unfold oguard. destruct (negb _); cbn; auto. rewrite (same_frames b b' _ H). destruct (block_frames b' _ _ _); cbn; auto. split; [|reflexivity]. repeat split; assumption.
Qed.
Lemma same_sample eps f f' x : same_ladder f f' -> related same_ladder (ladder_sample eps f x) (ladder_sample eps f' x).
Proof.
  intros (Z & Z' & E1 & E2 & E3 & E4). unfold ladder_sample, smooth. rewrite Z, Z'. cbn [obind]. rewrite E4. unfold ocheck. destruct (_ =? _)%nat; cbn; auto. rewrite E1, E2, E3. split; [|reflexivity]. repeat split; cbn; auto.
Qed.
Lemma related_run {A B X} (P : A -> A -> Prop) (step : A -> X -> outcome (A * B)) : (forall a a' x, P a a' -> related P (step a x) (step a' x)) -> forall l a a', P a a' -> related P (run step a l) (run step a' l).
Proof.
  intros HS. induction l as [|x l IH]; intros a a' H; [split; [exact H|reflexivity]|]. cbn [run]. pose proof (HS a a' x H) as K. destruct (step a x) as [[b o]| |], (step a' x) as [[b' o']| |]; cbn in K; try contradiction; cbn [obind]; try exact I. destruct K as [K ->]. cbn [fst snd].
  specialize (IH b b' K). destruct (run step b l) as [[c oc]| |], (run step b' l) as [[c' oc']| |]; cbn in IH; try contradiction; cbn; auto. destruct IH as [IH ->]. auto.
Qed.
Lemma related_out {A B} (P : A -> A -> Prop) (x y : outcome (A * B)) : related P x y -> omap snd x = omap snd y.
Proof. destruct x as [[a o]| |], y as [[a' o']| |]; cbn; intros H; try contradiction; try reflexivity. now destruct H as [_ ->]. Qed.
Definition same_meter (m m' : meter) : Prop := m_detector m = m_detector m' /\ same_level (m_level m) (m_level m') /\ exists f f', m_slow m = Some f /\ m_slow m' = Some f' /\ same_ladder f f'.
Lemma same_process eps m m' x : same_meter m m' -> related same_meter (meter_process eps m x) (meter_process eps m' x).
Proof.
  intros (E1 & E2 & f & f' & E3 & E4 & E5). unfold meter_process, meter_block. cbv zeta. rewrite E1, E3, E4. destruct (detector_block _ _ _ _ _ _ _ _) as [[d r]| |]; cbn [obind omap fst snd]; try exact I. destruct r as [fast|].
  - pose proof (related_run same_ladder (ladder_sample eps) (same_sample eps) fast f f' E5) as K. destruct (run (ladder_sample eps) f fast) as [[g o]| |], (run (ladder_sample eps) f' fast) as [[g' o']| |]; cbn in K; try contradiction; cbn [obind omap fst snd]; try exact I. destruct K as [K ->].
    pose proof (same_bg_block _ _ (map (fun q => combine (fst q) (snd q)) (combine fast o')) E2) as L. destruct (bg_block (m_level m) _) as [[b r]| |], (bg_block (m_level m') _) as [[b' r']| |]; cbn in L; try contradiction; cbn [obind omap fst snd]; try exact I. destruct L as [L ->]. destruct r' as [back|]; [|exact I].
    destruct (frames_to_db fast); cbn [obind omap]; try exact I. destruct (frames_to_db back); cbn [obind omap]; try exact I. cbn. split; [|reflexivity]. split; [reflexivity|]. split; [exact L|]. exists g, g'. auto.
  - cbn. split; [|reflexivity]. split; [reflexivity|]. split; [exact E2|]. exists f, f'. auto.
Qed.

Lemma change_total eps sm mx nch c c' f : (0 < mx)%nat -> a0 c <> 0 -> a0 c' <> 0 -> ladder_init_tf eps sm nch (vec_b c) (vec_a c) = Ok f ->
  exists f1 f2, ladder_change_tf eps mx f (vec_b c') (vec_a c') = Ok f1 /\ ladder_reset f1 = Ok f2.
Proof.
  intros HM A A' H. destruct (is_stable_biquad c A) as (k1 & E & _). destruct (is_stable_biquad c' A') as (k1' & E' & _). unfold ladder_init_tf in H. rewrite E in H. unfold ladder_change_tf. rewrite E'. clear E E'. cbn [obind fst snd] in *.
  set (v := snd (ladder_loop 2 (map (fun x => x / a0 c) (vec_a c)) (map (fun x => x / a0 c) (vec_b c)))) in *. set (v' := snd (ladder_loop 2 (map (fun x => x / a0 c') (vec_a c')) (map (fun x => x / a0 c') (vec_b c')))) in *.
  assert (LV : length v = 3%nat) by reflexivity. assert (LV' : length v' = 3%nat) by reflexivity. clearbody v v'. destruct v as [|x0 [|x1 [|x2 [|]]]]; try discriminate LV. destruct v' as [|y0 [|y1 [|y2 [|]]]]; try discriminate LV'.
  unfold ladder_init in H. do 3 apply ocheck_inv in H as [_ H]. cbv zeta in H. apply obind_inv in H as (rs & R1 & H). apply obind_inv in H as (ts & R2 & H).
  unfold smoother_init, biquad_init in R1, R2. do 2 apply ocheck_inv in R1 as [_ R1]. do 2 apply ocheck_inv in R2 as [_ R2]. injection R1 as <-. injection R2 as <-.
  unfold ladder_reset in H. apply obind_inv in H as (rs & R1 & H). apply obind_inv in H as (ts & R2 & H). cbn in R1, R2. injection R1 as <-. injection R2 as <-. injection H as <-.
  unfold ladder_change. replace (0 <? mx)%nat with true by lia. cbn. eexists. eexists. split; reflexivity.
Qed.

Section Main.
Variables (eps : R) (sm : coeffs R) (ri : R -> R -> option (@config R * Z)) (m0 : meter) (w : weighting) (p : bg_params) (n : nat) (fs : R) (m : meter).
Hypothesis HI : meter_init eps sm ri m0 w p n fs = Ok m.
Hypothesis HU : usable p fs.
Hypothesis HR : resampler_ready ri fs (envelope_rate p).
Lemma cutoff_lost mx v m1 m2 blocks : meter_set_slow_cutoff eps mx m v = Ok m1 -> meter_reset m1 = Ok m2 -> Forall (Forall (fun fr => length fr = n)) blocks ->
  slow_cutoff (bparams (m_level m2)) = v /\ omap snd (run (meter_process eps) m2 blocks) = omap snd (run (meter_process eps) m blocks).
Proof.
  intros HS HZ HF. unfold meter_set_slow_cutoff in HS. apply obind_inv in HS as (b1 & S1 & HS). apply obind_inv in HS as (c1 & S2 & HS). apply obind_inv in HS as (sl1 & S3 & HS). injection HS as <-.
  unfold meter_reset in HZ. cbn [m_detector m_slow m_weighting m_level] in HZ. apply obind_inv in HZ as (d2 & Z1 & HZ). apply obind_inv in HZ as (sl2 & Z2 & HZ). injection HZ as <-.
  unfold set_slow_cutoff in S1. apply ocheck_inv in S1 as [_ S1]. apply obind_inv in S1 as (? & _ & S1). injection S1 as <-. split; [reflexivity|].
  destruct (meter_at_init _ _ _ _ _ _ _ _ _ HI HU HR) as (b & cs & d & c & sl & A1 & A2 & A3 & A4 & A5 & BP & HN & MA & CD). pose proof MA as (M1 & M2 & M3 & M4).
  destruct (meter_runs _ _ _ _ _ _ _ _ _ HI HU HR [] (Forall_nil _)) as (? & ? & ? & ? & ? & ? & ? & d' & ? & ? & _ & _ & _ & _ & _ & _ & _ & _ & _ & _ & _ & _ & (d'' & ? & D1 & D2 & _ & _ & D5) & (mm & outs & R1 & (_ & _ & N3 & _) & _) & _).
  cbn [run] in R1. injection R1 as <- _. rewrite N3, D1 in Z1. injection Z1 as <-.
  set (mt := {| m_weighting := m_weighting m; m_level := m_level m; m_detector := d''; m_slow := m_slow m; m_instantaneous := []; m_background := [] |}).
  destruct (twin _ _ _ _ _ _ _ _ _ HI HU HR blocks mt HF eq_refl eq_refl eq_refl D2 (D5 blocks)) as (m3 & m4 & outs2 & T1 & T2). rewrite T2. cbn [omap obind snd]. transitivity (omap snd (run (meter_process eps) mt blocks)); [|now rewrite T1].
  apply (related_out same_meter). apply (related_run same_meter); [apply same_process|]. split; [reflexivity|]. cbn [m_level m_slow mt].
  split. { rewrite M2. unfold same_level, bg_reset, with_channels. cbn. rewrite repeat_length. repeat split. }
  rewrite M4 in S3. exists sl2, sl. split; [reflexivity|]. split; [exact M4|].
  unfold ladder_init_tf in A5. apply obind_inv in A5 as (kv & _ & A5). destruct (init_settled eps sm _ _ _ _ A5) as (Q1 & Q2 & _).
  unfold ladder_change_tf in S3. apply obind_inv in S3 as (kv' & _ & S3). unfold ladder_change in S3. do 4 apply ocheck_inv in S3 as [_ S3]. cbv zeta in S3. injection S3 as <-.
  unfold ladder_reset in Z2. cbn in Z2. apply obind_inv in Z2 as (rs & _ & Z2). apply obind_inv in Z2 as (ts & _ & Z2). injection Z2 as <-.
  unfold ladder_reset in Q1. apply obind_inv in Q1 as (rs' & _ & Q1). apply obind_inv in Q1 as (ts' & _ & Q1). assert (Q3 := f_equal (fun o => match o with Ok f => state f | _ => [] end) Q1). cbn in Q3. repeat split; [exact Q2|exact Q3].
Qed.
Lemma cutoff_accepted mx v : (0 < mx)%nat -> 0 < v < envelope_rate p / 2 -> exists m1 m2, meter_set_slow_cutoff eps mx m v = Ok m1 /\ meter_reset m1 = Ok m2.
Proof.
  intros HM HV. destruct (meter_at_init _ _ _ _ _ _ _ _ _ HI HU HR) as (b & cs & d & c & sl & A1 & A2 & A3 & A4 & A5 & BP & HN & MA & CD). pose proof MA as (M1 & M2 & M3 & M4).
  destruct HU as [(V1 & _) _]. destruct (smoother_shape (envelope_rate p) (slow_cutoff p) ltac:(lra) ltac:(lra)) as (q & Eq & _). unfold smoother_design in Eq. rewrite A4 in Eq. injection Eq as ->.
  destruct (smoother_shape (envelope_rate p) v ltac:(lra) ltac:(lra)) as (q' & Eq & _). unfold smoother_design in Eq.
  destruct (change_total eps sm mx n (twice q) (twice q') sl HM ltac:(cbn; lra) ltac:(cbn; lra) A5) as (f1 & f2 & F1 & F2).
  destruct (meter_runs _ _ _ _ _ _ _ _ _ HI HU HR [] (Forall_nil _)) as (? & ? & ? & ? & ? & ? & ? & d' & ? & ? & _ & _ & _ & _ & _ & _ & _ & _ & _ & _ & _ & _ & (d'' & ? & D1 & _) & (mm & outs & R1 & (_ & _ & N3 & _) & _) & _).
  cbn [run] in R1. injection R1 as <- _. eexists. eexists. split.
  - unfold meter_set_slow_cutoff, set_slow_cutoff. rewrite M2. change (bparams (with_channels b (repeat fresh_channel n))) with (bparams b). rewrite BP, Eq. destruct (Rltb_spec v (envelope_rate p / 2)) as [_|X]; [|exfalso; apply X; exact (proj2 HV)]. cbn [ocheck obind]. rewrite M4, F1. cbn [obind]. reflexivity.
  - unfold meter_reset. cbn [m_detector m_slow]. rewrite N3, D1. cbn [obind]. rewrite F2. cbn [obind]. reflexivity.
Qed.
End Main.
