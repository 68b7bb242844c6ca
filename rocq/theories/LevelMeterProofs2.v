From Verif Require Import Common CInt ListLemmas Mealy NthLemmas RealUtil BiquadModel BiquadSpec BiquadProofs DesignModel DesignSpec DesignProofs CascadeModel CascadeSpec CascadeProofs LoudnessSpec
  ResamplerModel ResamplerSpec ResamplerProofs ResamplerPropsProofs EnvDetectModel EnvDetectProofs EnvDetectProofs2 EnvDetectProps LadderModel LadderSpec LadderProofs LadderProofs2 MultiCrossModel MultiCrossProofs MultiCrossProofs4
  DecibelsModel PerceptualModel BackgroundModel BackgroundSpec BackgroundProofs LevelMeterModel LevelMeterSpec LevelMeterProofs.
From Coq Require Import Lra Lia Reals.
Local Open Scope R_scope.

(* ---------- the envelope detector ---------- *)
Lemma roots_nonneg e : Forall (Forall (fun v => 0 <= v)) (roots e).
Proof. apply Forall_forall. intros fr H. apply in_map_iff in H as (g & <- & _). apply Forall_forall. intros v Hv. apply in_map_iff in Hv as (u & <- & _). apply sqrt_pos. Qed.
Lemma roots_width n e : Forall (fun fr => length fr = n) e -> Forall (fun fr => length fr = n) (roots e).
Proof. intros H. apply Forall_forall. intros fr Hf. apply in_map_iff in Hf as (g & <- & Hg). rewrite map_length. rewrite Forall_forall in H. now apply H. Qed.
Lemma block_channels n d f d' r : dblock n d f = Ok (d', r) -> EnvDetectModel.channels d' = EnvDetectModel.channels d.
Proof.
  unfold detector_block. destruct (_ =? 0)%nat; [intros E; now injection E as <- _|]. intros E. do 3 apply obind_inv in E as (? & _ & E). cbv zeta in E. now injection E as <- _.
Qed.
Lemma map_some_inj {A} : forall (l l' : list A), map Some l = map Some l' -> l = l'.
Proof. induction l as [|a l IH]; intros [|b l'] H; cbn in H; try discriminate; auto. injection H as -> H. f_equal. auto. Qed.
Lemma detector_facts ri n fs cutoff env cs d blocks : dinit ri (Z.of_nat n) fs cutoff env cs = Ok d -> resampler_ready ri fs env -> Forall (Forall (fun fr => length fr = n)) blocks ->
  exists d' fouts, run (dblock n) d blocks = Ok (d', map Some fouts) /\ dblock n d (concat blocks) = Ok (d', Some (concat fouts)) /\
    rms_envelope ri n fs cutoff env cs (concat blocks) (concat fouts) /\ Forall (fun fr => length fr = n) (concat fouts) /\ Forall (Forall (fun v => 0 <= v)) (concat fouts) /\
    (env = fs -> map (@length _) fouts = map (@length _) blocks) /\
    exists d'', detector_reset 0 d' = Ok d'' /\ EnvDetectModel.channels d'' = n /\ forall blocks2, omap snd (run (dblock n) d'' blocks2) = omap snd (run (dblock n) d blocks2).
Proof.
  intros HI HR HF.
  assert (CH : EnvDetectModel.channels d = n).
  { destruct (dinit_inv 0 1 Rmult Rdiv (fun v => Reqb v 0) Rleb Rltb Reqb (fun x => x / 2) smoother_design ri _ _ _ _ _ _ HI) as (n' & c & E & _ & _ & _ & _ & _ & _ & _ & _ & _ & _ & (G1 & G2 & _)). lia. }
  assert (CR : forall bl e e' r, run (dblock n) e bl = Ok (e', r) -> EnvDetectModel.channels e' = EnvDetectModel.channels e).
  { induction bl as [|b bl IH]; intros e e' r E; cbn [run] in E; [now injection E as <- _|]. apply obind_inv in E as ([e1 o] & E1 & E). apply obind_inv in E as ([e2 os] & E2 & E). injection E as <- _. cbn [fst] in *. rewrite (IH _ _ _ E2). exact (block_channels _ _ _ _ _ E1). }
  assert (RS : forall e e', detector_reset 0 e = Ok e' -> EnvDetectModel.channels e' = EnvDetectModel.channels e).
  { intros e e' E. unfold detector_reset in E. do 2 apply obind_inv in E as (? & _ & E). now injection E as <-. }
  destruct (Req_dec env fs) as [Q|Q].
  - destruct (C77_same_rate R 0 1 Rplus Rminus Rmult Rdiv (fun v => Reqb v 0) Rleb Rltb Reqb (fun x => x / 2) rms_root (frame_dot n) (frame_plus n) smoother_design ri
      n fs cutoff env cs d blocks HI ltac:(destruct (Reqb_spec env fs); congruence) HF) as (d' & outs & out & R1 & R2 & R3 & R4 & _ & d'' & R5 & _ & R6).
    rewrite Q in HI. destruct (C77_formula ri n fs cutoff cs d blocks HI HF) as (d2 & outs2 & c & y & e & S1 & S2 & S3 & S4 & S5).
    rewrite R1 in S1. injection S1 as ED EO. apply map_some_inj in EO. subst outs2. subst out.
    exists d', outs. split; [exact R1|]. split; [exact R2|]. fold (roots e) in S5. split.
    { exists c, y, e. split; [exact S2|]. split; [exact S3|]. split; [exact S4|]. split; [intros _; exact S5|]. intros N. contradiction. }
    rewrite S5. split; [apply roots_width; destruct S4 as (_ & W & _); exact W|]. split; [apply roots_nonneg|]. split; [intros _; exact R4|].
    exists d''. split; [exact R5|]. split; [|exact R6]. rewrite (RS _ _ R5), (CR _ _ _ _ R1). exact CH.
  - destruct HR as [HR|(rc & radius & RI & VC & HT & HP)]; [contradiction|].
    destruct (C77_downsampled R 0 1 Rplus Rminus Rmult Rdiv (fun v => Reqb v 0) Rleb Rltb Reqb (fun x => x / 2) rms_root (frame_dot n) (frame_plus n) smoother_design ri
      n fs cutoff env cs d blocks rc radius HI ltac:(destruct (Reqb_spec env fs); congruence) HF RI VC HT HP (frame_law n)) as (d' & outs & out & pre & y0 & sm0 & e0 & R1 & R2 & R3 & _ & _ & _ & _ & d'' & R5 & _ & R6).
    destruct (C77_downsampled_formula ri n fs cutoff env cs d blocks rc radius HI Q HF RI VC HT HP) as (d2 & outs2 & c & y & e & S1 & S2 & S3 & S4 & S5).
    rewrite R1 in S1. injection S1 as ED EO. apply map_some_inj in EO. subst outs2. subst out.
    exists d', outs. split; [exact R1|]. split; [exact R2|]. match type of S5 with _ = map _ ?r => set (rs := r) in * end. fold (roots rs) in S5. split.
    { exists c, y, e. split; [exact S2|]. split; [exact S3|]. split; [exact S4|]. split; [intros N; contradiction|]. intros _. exists rc, radius. split; [exact RI|exact S5]. }
    rewrite S5. split.
    { apply roots_width. apply Forall_forall. intros fr Hf. unfold rs, resampled in Hf. apply in_map_iff in Hf as (m & <- & _). unfold output, frame_dot. now rewrite map_length, seq_length. }
    split; [apply roots_nonneg|]. split; [intros N; contradiction|]. exists d''. split; [exact R5|]. split; [|exact R6]. rewrite (RS _ _ R5), (CR _ _ _ _ R1). exact CH.
Qed.

(* ---------- the tracking of the level ---------- *)
Definition with_channels (s : bg) (cs : list bg_channel) : bg :=
  {| bparams := bparams s; coeff := coeff s; burn_in_coeff := burn_in_coeff s; rejection_samples := rejection_samples s; channels := cs |}.
Lemma frame_same s k factor : forall cs fr, frame_channels (with_channels s k) factor cs fr = frame_channels s factor cs fr.
Proof. induction cs as [|c cs IH]; intros [|[f sl] fr]; cbn [frame_channels]; try reflexivity. rewrite (sample_same s (with_channels s k)) by reflexivity. rewrite IH. reflexivity. Qed.
Lemma block_same s k factor : forall frs cs, block_frames (with_channels s k) factor cs frs = block_frames s factor cs frs.
Proof. induction frs as [|fr frs IH]; intros cs; cbn [block_frames]; [reflexivity|]. rewrite frame_same. destruct (frame_channels s factor cs fr); cbn [obind]; [|reflexivity|reflexivity]. now rewrite IH. Qed.
Lemma block_app s factor : forall xs ys cs cs2 out, block_frames s factor cs (xs ++ ys) = Ok (cs2, out) ->
  exists cs1 o1 o2, block_frames s factor cs xs = Ok (cs1, o1) /\ block_frames s factor cs1 ys = Ok (cs2, o2) /\ out = o1 ++ o2.
Proof.
  induction xs as [|x xs IH]; intros ys cs cs2 out E; cbn [app block_frames] in *; [exists cs, [], out; auto|].
  apply obind_inv in E as (c1 & E1 & E). apply obind_inv in E as ([c2 o] & E2 & E). injection E as <- <-. cbn [fst snd]. destruct (IH _ _ _ _ E2) as (c3 & o1 & o2 & A & B & ->).
  exists c3, (map background c1 :: o1), o2. rewrite E1. cbn [obind]. rewrite A. cbn [obind fst snd]. auto.
Qed.
Lemma block_widths s factor : forall frs cs cs' out, block_frames s factor cs frs = Ok (cs', out) -> Forall (fun fr => length fr = length cs) out /\ map background cs' = last out (map background cs).
Proof.
  induction frs as [|fr frs IH]; intros cs cs' out E; cbn [block_frames] in E; [injection E as <- <-; split; [constructor|reflexivity]|].
  apply obind_inv in E as (c1 & E1 & E). apply obind_inv in E as ([c2 o] & E2 & E). injection E as <- <-. cbn [fst snd]. destruct (frame_channels_ok _ _ _ _ _ E1) as (_ & L & _). destruct (IH _ _ _ E2) as [W T]. split.
  - constructor; [now rewrite map_length|]. rewrite L in W. exact W.
  - rewrite T. clear. destruct o as [|a o]; [reflexivity|]. cbn [last]. revert a. induction o as [|b o IH]; intros a; [reflexivity|]. exact (IH b).
Qed.
Definition pairs (fast slow : list (list R)) : list (list (R * R)) := map (fun q => combine (fst q) (snd q)) (combine fast slow).
Lemma pairs_app f1 f2 s1 s2 : length f1 = length s1 -> pairs (f1 ++ f2) (s1 ++ s2) = pairs f1 s1 ++ pairs f2 s2.
Proof. intros L. unfold pairs. rewrite <- map_app. f_equal. revert s1 L. induction f1 as [|a f1 IH]; intros [|b s1] L; cbn in *; try discriminate; [reflexivity|]. f_equal. apply IH. lia. Qed.
Lemma run_length eps : forall frames sl sl' slow, run (ladder_sample eps) sl frames = Ok (sl', slow) -> length slow = length frames.
Proof. induction frames as [|a x IH]; intros f u f2 E; cbn [run] in E; [injection E as _ <-; reflexivity|]. apply obind_inv in E as (q & _ & E). apply obind_inv in E as ([q1 q2] & E & E'). injection E' as _ <-. cbn [length snd]. f_equal. eapply IH. exact E. Qed.

(* ---------- composition ---------- *)
Definition meter_at (w : weighting) (b : bg) (d : detector R) (sl : ladder) (m : meter) : Prop :=
  m_weighting m = w /\ m_level m = b /\ m_detector m = d /\ m_slow m = Some sl.
Lemma process_blocks eps n w b d' sl' : sensitivity (bparams b) <> 0 -> (n <> 0)%nat ->
  forall blocks fouts m d sl slow cs cs' back, meter_at w (with_channels b cs) d sl m -> EnvDetectModel.channels d = n -> length cs = n ->
  run (dblock n) d blocks = Ok (d', map Some fouts) -> run (ladder_sample eps) sl (concat fouts) = Ok (sl', slow) ->
  block_frames b (1 / sensitivity (bparams b)) cs (pairs (concat fouts) slow) = Ok (cs', back) ->
  Forall (Forall (fun v => 0 <= v)) (concat fouts) -> Forall (Forall (fun v => 0 <= v)) back ->
  exists m' outs, run (meter_process eps) m blocks = Ok (m', map Some outs) /\ meter_at w (with_channels b cs') d' sl' m' /\
    map fst outs = map (map (map dbfs)) fouts /\ concat (map snd outs) = map (map dbfs) back /\ map (fun o => length (snd o)) outs = map (@length _) fouts.
Proof.
  intros HS HN. induction blocks as [|bl blocks IH]; intros fouts m d sl slow cs cs' back (M1 & M2 & M3 & M4) CD CL RD RL RB PF PB.
  - cbn [run] in RD. injection RD as <- E. destruct fouts as [|f fouts]; [|discriminate E]. cbn [concat run] in RL. injection RL as <- <-. cbn [pairs combine map block_frames concat] in RB. injection RB as <- <-.
    exists m, []. split; [reflexivity|]. split; [repeat split; assumption|]. auto.
  - cbn [run] in RD. apply obind_inv in RD as ([d1 o] & D1 & RD). apply obind_inv in RD as ([d2 os] & D2 & RD). injection RD as E1 E. cbn [fst snd] in *. destruct fouts as [|f fouts]; [discriminate E|]. cbn [map] in E. injection E as -> ->. subst d2.
    cbn [concat] in RL. rewrite ListLemmas.run_app in RL. apply obind_inv in RL as ([sl1 s1] & L1 & RL). apply obind_inv in RL as ([sl2 s2] & L2 & RL). injection RL as -> <-. cbn [fst snd] in *.
    cbn [concat] in RB, PF. pose proof (run_length _ _ _ _ _ L1) as LL. rewrite pairs_app in RB by auto. apply block_app in RB as (c1 & o1 & o2 & B1 & B2 & ->).
    apply Forall_app in PF as [PF1 PF2]. apply Forall_app in PB as [PB1 PB2].
    assert (LC : length c1 = n). { destruct (block_frames_ok _ _ _ _ _ _ B1) as (L & _). now rewrite L. }
    destruct (IH fouts {| m_weighting := w; m_level := with_channels b c1; m_detector := d1; m_slow := Some sl1; m_instantaneous := map (map dbfs) f; m_background := map (map dbfs) o1 |} d1 sl1 s2 c1 cs' o2)
      as (m' & outs & R & MA & O1 & O2 & O3); auto.
    { repeat split. }
    { rewrite (block_channels _ _ _ _ _ D1). exact CD. }
    exists m', ((map (map dbfs) f, map (map dbfs) o1) :: outs). split.
    { cbn [run]. assert (P : meter_process eps m bl = Ok ({| m_weighting := w; m_level := with_channels b c1; m_detector := d1; m_slow := Some sl1; m_instantaneous := map (map dbfs) f; m_background := map (map dbfs) o1 |}, Some (map (map dbfs) f, map (map dbfs) o1))).
      { unfold meter_process, meter_block. cbv zeta. rewrite M1, M2, M3, M4, CD, D1. cbn [obind fst snd]. rewrite L1. cbn [obind fst snd]. fold (pairs f s1).
        unfold bg_block. cbn [channels with_channels bparams]. rewrite CL. replace (n =? 0)%nat with false by lia. destruct (Reqb_spec (sensitivity (bparams b)) 0) as [Q|_]; [contradiction|]. cbn [negb oguard]. cbv zeta.
        rewrite block_same, B1. cbn [obind fst snd]. rewrite (frames_db f PF1). cbn [obind]. rewrite (frames_db o1 PB1). cbn [obind omap fst snd instantaneous_estimate background_estimate m_instantaneous m_background]. reflexivity. }
      rewrite P. cbn [obind fst snd]. rewrite R. reflexivity. }
    split; [exact MA|]. cbn [map fst snd concat]. rewrite O1, O2, O3, map_app. split; [reflexivity|]. split; [reflexivity|]. f_equal. rewrite map_length.
    destruct (block_frames_ok _ _ _ _ _ _ B1) as (_ & L & _). rewrite L. unfold pairs. rewrite map_length, combine_length. lia.
Qed.
