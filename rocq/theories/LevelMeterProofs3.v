From Verif Require Import Common CInt ListLemmas Mealy NthLemmas RealUtil BiquadModel BiquadSpec BiquadProofs DesignModel DesignSpec DesignProofs CascadeModel CascadeSpec CascadeProofs LoudnessSpec
  ResamplerModel ResamplerSpec ResamplerProofs ResamplerPropsProofs EnvDetectModel EnvDetectProofs EnvDetectProofs2 EnvDetectProps LadderModel LadderSpec LadderProofs LadderProofs2 MultiCrossModel MultiCrossProofs MultiCrossProofs4 MultiCrossProofs7
  DecibelsModel PerceptualModel BackgroundModel BackgroundSpec BackgroundProofs LevelMeterModel LevelMeterSpec LevelMeterProofs LevelMeterProofs2.
From Coq Require Import Lra Lia Reals.
Local Open Scope R_scope.

Lemma init_parts eps sm ri m0 w p n fs m : meter_init eps sm ri m0 w p n fs = Ok m ->
  exists b cs d c sl, bg_init (m_level m0) p n fs = Ok b /\ perceptual_coefficients w fs = Ok cs /\
    dinit ri (Z.of_nat n) fs (fast_cutoff p) (envelope_rate p) cs = Ok d /\ lowpass (envelope_rate p) (slow_cutoff p) (1 / 2) = Ok c /\
    ladder_init_tf eps sm n (vec_b c) (vec_a c) = Ok sl /\ b = with_channels b (repeat fresh_channel n) /\
    m = {| m_weighting := w; m_level := b; m_detector := d; m_slow := Some sl; m_instantaneous := []; m_background := [] |}.
Proof.
  intros E. unfold meter_init in E. apply obind_inv in E as (b & E1 & E). apply obind_inv in E as (cs & E2 & E). apply obind_inv in E as (d & E3 & E). apply obind_inv in E as (c & E4 & E). apply obind_inv in E as (sl & E5 & E).
  exists b, cs, d, c, sl. split; [exact E1|]. split; [exact E2|]. split; [exact E3|]. split; [exact E4|]. split; [exact E5|].
  destruct (init_inv _ _ _ _ _ E1) as (_ & _ & _ & _ & IC & _).
  assert (B : b = with_channels b (repeat fresh_channel n)) by (destruct b; cbn in *; rewrite <- IC; reflexivity). split; [exact B|].
  unfold meter_reset in E. cbn [m_detector m_slow m_level m_weighting] in E.
  assert (D : detector_reset 0 d = Ok d).
  { destruct (dinit_inv 0 1 Rmult Rdiv (fun v => Reqb v 0) Rleb Rltb Reqb (fun x => x / 2) smoother_design ri _ _ _ _ _ _ E3) as (n' & c' & Q & _ & _ & _ & _ & _ & _ & _ & _ & _ & _ & (G1 & G2 & _)). assert (QQ : n' = n) by lia. rewrite QQ in *.
    pose proof (dreset_ok 0 1 Rplus Rminus Rmult Rdiv (fun v => Reqb v 0) Rleb Rltb Reqb (fun x => x / 2) smoother_design ri _ _ _ _ _ d n [] (recent d) (downsampler d) E3 eq_refl (Forall_nil _)) as K.
    cbn [scan fst] in K. assert (W : with_all d (recent d) (filters_of d) (downsampler d) = d) by (destruct d; reflexivity). rewrite W in K. apply K. destruct (downsampler d) as [[[? ?] ?]|]; auto. }
  rewrite D in E. cbn [obind] in E. unfold ladder_init_tf in E5. apply obind_inv in E5 as (kv & _ & E5). destruct (init_settled eps sm _ _ _ _ E5) as (S1 & _). rewrite S1 in E. cbn [obind] in E. injection E as <-. f_equal.
  unfold bg_reset. rewrite IC, repeat_length. symmetry. exact B.
Qed.
Lemma meter_at_init eps sm ri m0 w p n fs m : meter_init eps sm ri m0 w p n fs = Ok m -> usable p fs -> resampler_ready ri fs (envelope_rate p) ->
  exists b cs d c sl, bg_init (m_level m0) p n fs = Ok b /\ perceptual_coefficients w fs = Ok cs /\
    dinit ri (Z.of_nat n) fs (fast_cutoff p) (envelope_rate p) cs = Ok d /\ lowpass (envelope_rate p) (slow_cutoff p) (1 / 2) = Ok c /\
    ladder_init_tf eps sm n (vec_b c) (vec_a c) = Ok sl /\ bparams b = p /\ (0 < n)%nat /\ meter_at w (with_channels b (repeat fresh_channel n)) d sl m /\ EnvDetectModel.channels d = n.
Proof.
  intros E _ _. destruct (init_parts _ _ _ _ _ _ _ _ _ E) as (b & cs & d & c & sl & E1 & E2 & E3 & E4 & E5 & E6 & ->). exists b, cs, d, c, sl.
  split; [exact E1|]. split; [exact E2|]. split; [exact E3|]. split; [exact E4|]. split; [exact E5|]. destruct (init_inv _ _ _ _ _ E1) as (I1 & _ & _ & _ & IC & HN & _). split; [exact I1|]. split; [exact HN|]. split.
  { repeat split. cbn [m_level]. exact E6. }
  destruct (dinit_inv 0 1 Rmult Rdiv (fun v => Reqb v 0) Rleb Rltb Reqb (fun x => x / 2) smoother_design ri _ _ _ _ _ _ E3) as (n' & c' & Q & _ & _ & _ & _ & _ & _ & _ & _ & _ & _ & (G1 & G2 & _)). lia.
Qed.
Lemma in_pairs n fast slow : Forall (fun fr => length fr = n) fast -> Forall (fun fr => length fr = n) slow -> length slow = length fast ->
  length (pairs fast slow) = length fast /\ Forall (fun fr => length fr = n) (pairs fast slow) /\
  forall i k, (i < length fast)%nat -> (k < n)%nat -> nth k (nth i (pairs fast slow) []) (0, 0) = (nth k (nth i fast []) 0, nth k (nth i slow []) 0).
Proof.
  intros W1 W2 L. unfold pairs. split; [rewrite map_length, combine_length; lia|]. split.
  - apply Forall_forall. intros fr H. apply in_map_iff in H as ([a b] & <- & H). cbn [fst snd]. rewrite combine_length. rewrite Forall_forall in W1, W2. rewrite (W1 a (in_combine_l _ _ _ _ H)), (W2 b (in_combine_r _ _ _ _ H)). lia.
  - intros i k Hi Hk. rewrite (nth_map_lt (fun q : list R * list R => combine (fst q) (snd q)) (combine fast slow) i ([], []) []) by (rewrite combine_length; lia). rewrite (combine_nth fast slow) by lia. cbn [fst snd].
    assert (Hs : (i < length slow)%nat) by lia. apply combine_nth. rewrite Forall_forall in W1, W2. rewrite (W1 (nth i fast []) (nth_In _ _ Hi)), (W2 (nth i slow []) (nth_In _ _ Hs)). reflexivity.
Qed.
(* the tracking applied to envelopes that are not negative *)
Lemma tracking b0 p n fs b fast slow : bg_init b0 p n fs = Ok b -> usable p fs -> Forall (fun fr => length fr = n) fast -> Forall (fun fr => length fr = n) slow -> length slow = length fast ->
  forall B, 0 <= B -> Forall (Forall (fun v => 0 <= v <= B)) fast -> Forall (Forall (fun v => 0 <= v)) slow ->
  exists cs' back, block_frames b (1 / sensitivity (bparams b)) (repeat fresh_channel n) (pairs fast slow) = Ok (cs', back) /\ tracks p n fast slow back /\
    Forall (Forall (fun v => 0 <= v <= B)) back /\ map background cs' = last back (repeat 0 n) /\ length cs' = n.
Proof.
  intros HI ((V1 & V2 & V3 & V4 & V5 & V6 & V7) & _) W1 W2 L B HB H1 H2.
  destruct (init_inv _ _ _ _ _ HI) as (I1 & I2 & I3 & I4 & I5 & I6 & I7 & I8). destruct (in_pairs n fast slow W1 W2 L) as (P1 & P2 & P3).
  assert (HE : 0 < envelope_rate p) by lra. assert (HT : 0 < time_constant p) by (exact (time_constant_pos _ _ HE V4)).
  assert (RT : 0 <= rejection_time p * envelope_rate p) by (apply Rmult_le_pos; lra).
  destruct (truncate_pos _ _ RT I4) as [_ RP].
  destruct (block_total b (1 / sensitivity (bparams b)) RP (pairs fast slow) (repeat fresh_channel n)) as (cs' & back & E & _ & LC).
  { apply Forall_forall. intros c Hc. apply repeat_spec in Hc. rewrite Hc. cbn. lia. }
  { rewrite repeat_length. exact P2. }
  exists cs', back. split; [exact E|].
  assert (RUN : run bg_step b0 (BgInit p n fs :: map BgBlock [pairs fast slow]) = Ok (with_channels b cs', [None; Some back])).
  { cbn [run map bg_step]. rewrite HI. cbn [omap obind fst snd]. unfold bg_block. rewrite I5, repeat_length. replace (n =? 0)%nat with false by lia. rewrite I1 in *.
    destruct (Reqb_spec (sensitivity p) 0) as [Q|_]; [lra|]. cbn [negb oguard]. cbv zeta. rewrite E. cbn [obind fst snd]. unfold with_channels. rewrite I1. reflexivity. }
  destruct (law_after_init _ _ _ _ _ _ _ _ (Rlt_le _ _ V6) RUN) as (LL & LAW). cbn [levels concat map] in LL, LAW. rewrite !app_nil_r in LL, LAW.
  destruct (block_widths _ _ _ _ _ _ E) as (BW & BL). rewrite repeat_length in BW. split; [|split; [|split]].
  - split; [lia|]. split; [exact BW|]. intros k Hk. specialize (LAW k Hk). rewrite P1 in LAW. destruct LAW as [L0 LS]. split; [exact L0|].
    intros i Hi. specialize (LS i Hi).
    assert (EX : forall j, (j <= i)%nat -> fst (nth k (nth j (pairs fast slow) []) (0, 0)) = nth k (nth j fast []) 0 /\ snd (nth k (nth j (pairs fast slow) []) (0, 0)) = nth k (nth j slow []) 0).
    { intros j Hj. rewrite P3 by lia. auto. }
    set (bb := fun i0 => nth i0 (0 :: BiquadSpec.channel 0 k back) 0) in *. change (map (fun fr => nth k fr 0) back) with (BiquadSpec.channel 0 k back) in LS. fold bb in LS.
    set (f1 := fun j => fst (nth k (nth j (pairs fast slow) []) (0, 0))) in *. set (s1 := fun j => snd (nth k (nth j (pairs fast slow) []) (0, 0))) in *.
    set (f2 := fun j => nth k (nth j fast []) 0). set (s2 := fun j => nth k (nth j slow []) 0).
    assert (EF : forall j, (j <= i)%nat -> f1 j = f2 j) by (intros j Hj; apply EX; exact Hj). assert (ES : forall j, (j <= i)%nat -> s1 j = s2 j) by (intros j Hj; apply EX; exact Hj).
    clearbody f1 f2 s1 s2 bb. clear EX P3.
    assert (AB : forall j, (j <= i)%nat -> (above_input bb f1 j <-> above_input bb f2 j)) by (intros j Hj; unfold above_input; rewrite (EF j Hj); tauto).
    assert (TR : forall j, (j <= i)%nat -> (transient (sensitivity p) f1 s1 j <-> transient (sensitivity p) f2 s2 j)) by (intros j Hj; unfold transient; rewrite (EF j Hj), (ES j Hj); tauto).
    assert (AD : forall j, (j <= i)%nat -> (adapting bb f1 j <-> adapting bb f2 j)). { intros j Hj. unfold adapting. split; intros H q Hq; specialize (H q Hq); rewrite AB in * by lia; assumption. }
    assert (RJ : rejecting (sensitivity p) (Int_part (rejection_time p * envelope_rate p)) bb f1 s1 i <-> rejecting (sensitivity p) (Int_part (rejection_time p * envelope_rate p)) bb f2 s2 i).
    { unfold rejecting. split; intros (j & J1 & J2 & J3 & J4 & J5); exists j; (split; [exact J1|]).
      - rewrite AD in J2 by lia. rewrite TR in J3 by lia. split; [exact J2|]. split; [exact J3|]. split; [exact J4|]. intros q Hq HA. apply TR; [lia|]. apply J5; [exact Hq|]. apply AB; [lia|exact HA].
      - rewrite <- AD in J2 by lia. rewrite <- TR in J3 by lia. split; [exact J2|]. split; [exact J3|]. split; [exact J4|]. intros q Hq HA. apply TR; [lia|]. apply J5; [exact Hq|]. apply AB; [lia|exact HA]. }
    assert (SM : forall a, smoothed a bb f1 s1 i = smoothed a bb f2 s2 i) by (intros a; unfold smoothed; rewrite (EF i), (ES i) by lia; reflexivity).
    destruct LS as (A1 & A2 & A3). rewrite SM in A1, A3. rewrite AD in A1, A2, A3 by lia. rewrite RJ in A2, A3. auto.
  - assert (GC : good_coeffs b).
    { unfold good_coeffs. rewrite I1, I2, I3. split; [exact HE|]. split; apply foc_range; lra. }
    destruct (block_hull 0 B b (1 / sensitivity (bparams b)) GC (pairs fast slow) (repeat fresh_channel n) cs' back) as [_ HU]; [| |exact E|exact HU].
    + apply Forall_forall. intros fr Hf. unfold pairs in Hf. apply in_map_iff in Hf as ([a c] & <- & H). cbn [fst snd]. apply Forall_forall. intros [u v] Huv. unfold in_hull. cbn [fst snd]. rewrite Forall_forall in H1, H2.
      pose proof (H1 a (in_combine_l _ _ _ _ H)) as H3. pose proof (H2 c (in_combine_r _ _ _ _ H)) as H4. rewrite Forall_forall in H3, H4. pose proof (H3 u (in_combine_l _ _ _ _ Huv)). pose proof (H4 v (in_combine_r _ _ _ _ Huv)). cbn in *. lra.
    + apply fresh_hull. lra.
  - rewrite BL. f_equal. clear. induction n as [|n IH]; [reflexivity|]. cbn [repeat map]. f_equal. exact IH.
  - rewrite LC. apply repeat_length.
Qed.

Lemma last_indep {A} (l : list A) a b : l <> [] -> last l a = last l b.
Proof. induction l as [|x l IH]; [congruence|]. intros _. destruct l; [reflexivity|]. apply IH. discriminate. Qed.

Section Main.
Variables (eps : R) (sm : coeffs R) (ri : R -> R -> option (@config R * Z)) (m0 : meter) (w : weighting) (p : bg_params) (n : nat) (fs : R) (m : meter).
Hypothesis HI : meter_init eps sm ri m0 w p n fs = Ok m.
Hypothesis HU : usable p fs.
Hypothesis HR : resampler_ready ri fs (envelope_rate p).

(* everything the components compute, for one way of cutting the input and for all of them *)
Lemma meter_runs blocks : Forall (Forall (fun fr => length fr = n)) blocks ->
  exists cs c fast slow back b cs' d' sl' fouts, perceptual_coefficients w fs = Ok cs /\ lowpass (envelope_rate p) (slow_cutoff p) (1 / 2) = Ok c /\
    rms_envelope ri n fs (fast_cutoff p) (envelope_rate p) cs (concat blocks) fast /\ frames_filtered n [c] fast slow /\ tracks p n fast slow back /\
    Forall (fun fr => length fr = n) fast /\ concat fouts = fast /\ (envelope_rate p = fs -> map (@length _) fouts = map (@length _) blocks) /\
    Forall (Forall (fun v => 0 <= v)) fast /\ (forall B, 0 <= B -> Forall (Forall (fun v => 0 <= v <= B)) fast -> Forall (Forall (fun v => 0 <= v <= B)) slow /\ Forall (Forall (fun v => 0 <= v <= B)) back) /\
    length cs' = n /\ map background cs' = last back (repeat 0 n) /\
    (exists d'' sl, detector_reset 0 d' = Ok d'' /\ EnvDetectModel.channels d'' = n /\ ladder_reset sl' = Ok sl /\ meter_at w (with_channels b (repeat fresh_channel n)) (m_detector m) sl m /\
       forall blocks2, omap snd (run (dblock n) d'' blocks2) = omap snd (run (dblock n) (m_detector m) blocks2)) /\
    (exists m1 outs, run (meter_process eps) m blocks = Ok (m1, map Some outs) /\ meter_at w (with_channels b cs') d' sl' m1 /\
       map fst outs = map (map (map dbfs)) fouts /\ concat (map snd outs) = map (map dbfs) back /\ map (fun o => length (snd o)) outs = map (@length _) fouts) /\
    (exists m2 out, meter_process eps m (concat blocks) = Ok (m2, Some out) /\ meter_at w (with_channels b cs') d' sl' m2 /\ fst out = map (map dbfs) fast /\ snd out = map (map dbfs) back).
Proof.
  intros HF. destruct (meter_at_init _ _ _ _ _ _ _ _ _ HI HU HR) as (b & cs & d & c & sl & E1 & E2 & E3 & E4 & E5 & BP & HN & MA & CD).
  destruct (detector_facts ri n fs _ _ cs d blocks E3 HR HF) as (d' & fouts & R1 & R2 & RE & FW & FP & FL & d'' & RR & RC & RO).
  destruct HU as [HV H4]. pose proof HV as ((V1 & V1') & _).
  destruct (slow_smoother eps sm n _ _ c sl (concat fouts) V1 H4 E4 E5 FW) as (sl' & slow & RL & FS).
  destruct (smoother_strict _ _ V1 H4) as (q & E4' & Q). rewrite E4 in E4'. injection E4' as EQ.
  assert (SR : forall B, 0 <= B -> Forall (Forall (fun v => 0 <= v <= B)) (concat fouts) -> Forall (Forall (fun v => 0 <= v <= B)) slow).
  { intros B HB H. apply (filtered_range n q B (concat fouts)); [lra|exact HB|exact H|exact FW|]. rewrite <- EQ. exact FS. }
  destruct (frames_bound _ FP) as (B & HB & FB). pose proof FS as (LS & WS & _).
  assert (SP : Forall (Forall (fun v => 0 <= v)) slow) by (pose proof (SR B HB FB) as K; revert K; apply Forall_impl; intros l; apply Forall_impl; intros v Hv; lra).
  destruct (tracking _ p n fs b (concat fouts) slow E1 (conj HV H4) FW WS LS B HB FB SP) as (cs' & back & T1 & T2 & T3 & T4 & T5).
  assert (BPos : Forall (Forall (fun v => 0 <= v)) back) by (revert T3; apply Forall_impl; intros l; apply Forall_impl; intros v Hv; lra).
  assert (NS : sensitivity (bparams b) <> 0) by (rewrite BP; destruct HV as (_ & _ & _ & _ & ? & _); lra).
  exists cs, c, (concat fouts), slow, back, b, cs', d', sl', fouts.
  split; [exact E2|]. split; [exact E4|]. split; [exact RE|]. split; [exact FS|]. split; [exact T2|]. split; [exact FW|]. split; [reflexivity|]. split; [exact FL|]. split; [exact FP|]. split.
  { intros B' HB' FB'. split; [exact (SR B' HB' FB')|]. destruct (tracking _ p n fs b (concat fouts) slow E1 (conj HV H4) FW WS LS B' HB' FB' SP) as (cs2 & back2 & T1' & _ & T3' & _). rewrite T1 in T1'. injection T1' as _ <-. exact T3'. }
  split; [exact T5|]. split; [exact T4|]. pose proof MA as (M1 & M2 & M3 & M4). split.
  { exists d'', sl. split; [exact RR|]. split; [exact RC|]. split; [|rewrite M3; auto].
    unfold ladder_init_tf in E5. apply obind_inv in E5 as (kv & _ & E5). destruct (init_settled eps sm _ _ _ _ E5) as (S1 & S2 & _). rewrite <- S1. apply like_reset. exact (run_like eps (concat fouts) sl sl' slow S2 RL). }
  split.
  - destruct (process_blocks eps n w b d' sl' NS ltac:(lia) blocks fouts m d sl slow (repeat fresh_channel n) cs' back MA CD (repeat_length _ _) R1 RL T1 FP BPos) as (m1 & outs & P). exists m1, outs. exact P.
  - destruct (process_blocks eps n w b d' sl' NS ltac:(lia) [concat blocks] [concat fouts] m d sl slow (repeat fresh_channel n) cs' back MA CD (repeat_length _ _)) as (m2 & outs & P1 & P2 & P3 & P4 & _);
      [cbn [run]; rewrite R2; reflexivity|cbn [concat]; rewrite app_nil_r; assumption|cbn [concat]; rewrite app_nil_r; assumption|cbn [concat]; rewrite app_nil_r; assumption|exact BPos|].
    destruct outs as [|o [|o2 outs]]; [discriminate P3| |discriminate P3]. cbn [run] in P1. apply obind_inv in P1 as ([m3 o3] & P1 & P5). cbn [obind run fst snd] in P5. injection P5 as -> ->. cbn [map fst snd concat] in P3, P4. rewrite app_nil_r in P4. injection P3 as P3.
    exists m2, o. auto.
Qed.
End Main.
