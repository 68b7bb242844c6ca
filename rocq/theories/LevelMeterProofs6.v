From Verif Require Import Common CInt ListLemmas Mealy NthLemmas RealUtil BiquadModel BiquadSpec BiquadProofs DesignModel CascadeModel CascadeSpec LoudnessSpec
  ResamplerModel ResamplerSpec EnvDetectModel EnvDetectProofs EnvDetectProofs2 EnvDetectProps LadderModel DecibelsModel PerceptualModel PerceptualSpec PerceptualProofs3 BackgroundModel BackgroundSpec BackgroundProofs MultiCrossModel MultiCrossProofs MultiCrossProofs4 MultiCrossProofs7
  LevelMeterModel LevelMeterSpec LevelMeterProofs LevelMeterProofs2 LevelMeterProofs3 LevelMeterProofs4 LevelMeterProofs5.
From Coq Require Import Lra Lia Reals.
Local Open Scope R_scope.

(* ---------- Init ---------- *)
Lemma init_total eps sm ri m0 fs0 w p n fs : valid_params (bparams (m_level m0)) fs0 -> valid_params p fs -> (0 < n)%nat -> a0 sm <> 0 -> clear_rate w fs -> exists m, meter_init eps sm ri m0 w p n fs = Ok m.
Proof.
  intros V0 V HN HS HC. pose proof V as (V1 & V2 & V3 & V4 & V5 & V6 & V7). destruct V0 as (P1 & P2 & P3 & P4 & P5 & P6 & P7).
  destruct (init_gen (m_level m0) _ p n fs eq_refl P1 P2 P5 HN V1 V2 V3 V4) as [b Eb].
  { assert (0 <= rejection_time p * envelope_rate p) by (apply Rmult_le_pos; lra). lra. }
  destruct (perceptual_digital w fs ltac:(lra) HC) as (cs & Ecs & (N1 & N2) & _).
  destruct (proj2 (C77_init ri (Z.of_nat n) fs (fast_cutoff p) (envelope_rate p) cs)) as [d Ed]; [repeat split; try lra; try assumption; lia|].
  destruct (smoother_shape (envelope_rate p) (slow_cutoff p) ltac:(lra) ltac:(lra)) as (q & Eq & _). unfold smoother_design in Eq.
  destruct (section_init eps sm n (twice q) ltac:(lia) HS ltac:(cbn; lra)) as [sl Es].
  unfold meter_init. rewrite Eb. cbn [obind]. rewrite Ecs. cbn [obind]. rewrite Ed. cbn [obind]. rewrite Eq. cbn [obind]. rewrite Es. cbn [obind]. unfold meter_reset. cbn [m_detector m_slow].
  assert (D : exists d', detector_reset 0 d = Ok d').
  { destruct (dinit_inv 0 1 Rmult Rdiv (fun v => Reqb v 0) Rleb Rltb Reqb (fun x => x / 2) smoother_design ri _ _ _ _ _ _ Ed) as (n' & c' & Q & _ & _ & _ & _ & _ & _ & _ & _ & _ & _ & _). assert (QQ : n' = n) by lia. rewrite QQ in *.
    pose proof (dreset_ok 0 1 Rplus Rminus Rmult Rdiv (fun v => Reqb v 0) Rleb Rltb Reqb (fun x => x / 2) smoother_design ri _ _ _ _ _ d n [] (recent d) (downsampler d) Ed eq_refl (Forall_nil _)) as K.
    cbn [scan fst] in K. assert (W : with_all d (recent d) (filters_of d) (downsampler d) = d) by (destruct d; reflexivity). rewrite W in K. eexists. apply K. destruct (downsampler d) as [[[? ?] ?]|]; auto. }
  destruct D as [d' ->]. cbn [obind]. unfold ladder_init_tf in Es. apply obind_inv in Es as (kv & _ & Es). destruct (init_settled eps sm _ _ _ _ Es) as (S1 & _). rewrite S1. cbn [obind]. eauto.
Qed.

(* ---------- the past is forgotten except for the levels, filters and counters ---------- *)
Definition same_inside (m m' : meter) : Prop := m_weighting m = m_weighting m' /\ m_level m = m_level m' /\ m_detector m = m_detector m' /\ m_slow m = m_slow m'.
Lemma inside_process eps m m' x : same_inside m m' ->
  match meter_process eps m x, meter_process eps m' x with Ok (a, o), Ok (a', o') => same_inside a a' /\ o = o' | CheckFail, CheckFail => True | Undef, Undef => True | _, _ => False end.
Proof.
  intros (E1 & E2 & E3 & E4). unfold meter_process, meter_block. cbv zeta. rewrite E1, E2, E3, E4. destruct (detector_block _ _ _ _ _ _ _ _) as [[d r]| |]; cbn [obind omap]; auto. cbn [fst snd]. destruct r as [fast|]; cbn [obind omap fst snd].
  - destruct (match m_slow m' with Some f => run (ladder_sample eps) f fast | None => Undef end) as [sr| |]; cbn [obind omap]; auto. destruct (bg_block _ _) as [[b [back|]]| |]; cbn [obind omap fst snd]; auto.
    destruct (frames_to_db fast); cbn [obind omap]; auto. destruct (frames_to_db back); cbn [obind omap]; auto. split; [repeat split|reflexivity].
  - split; [|reflexivity]. repeat split; cbn; assumption.
Qed.
Lemma inside_run eps : forall l m m', same_inside m m' -> omap snd (run (meter_process eps) m l) = omap snd (run (meter_process eps) m' l).
Proof.
  induction l as [|x l IH]; intros m m' H; [reflexivity|]. cbn [run]. pose proof (inside_process eps m m' x H) as K. destruct (meter_process eps m x) as [[a o]| |], (meter_process eps m' x) as [[a' o']| |]; try contradiction; try reflexivity.
  destruct K as [K ->]. cbn [obind fst snd]. specialize (IH a a' K). destruct (run (meter_process eps) a l) as [[b ob]| |], (run (meter_process eps) a' l) as [[b' ob']| |]; cbn [omap obind fst snd] in *; try discriminate IH; try reflexivity. now injection IH as ->.
Qed.
Lemma concat_lengths {A} : forall (a b : list (list A)), concat a = concat b -> map (@length _) a = map (@length _) b -> a = b.
Proof.
  induction a as [|x a IH]; intros [|y b] E L; cbn [map] in L; try discriminate; [reflexivity|]. cbn [concat] in E. injection L as L1 L2.
  assert (K : x = y /\ concat a = concat b). { clear - E L1. revert y L1 E. induction x as [|u x IH]; intros [|v y] L E; cbn in *; try discriminate; [auto|]. injection E as -> E. destruct (IH y ltac:(lia) E) as [-> H]. auto. }
  destruct K as [-> K]. f_equal. auto.
Qed.
Lemma pairs_eq {A B} : forall (a b : list (A * B)), map fst a = map fst b -> map snd a = map snd b -> a = b.
Proof. induction a as [|[x y] a IH]; intros [|[u v] b] E1 E2; cbn in *; try discriminate; [reflexivity|]. injection E1 as -> E1. injection E2 as -> E2. f_equal. auto. Qed.

Section Main.
Variables (eps : R) (sm : coeffs R) (ri : R -> R -> option (@config R * Z)) (m0 : meter) (w : weighting) (p : bg_params) (n : nat) (fs : R) (m : meter).
Hypothesis HI : meter_init eps sm ri m0 w p n fs = Ok m.
Hypothesis HU : usable p fs.
Hypothesis HR : resampler_ready ri fs (envelope_rate p).

Lemma twin blocks mm : Forall (Forall (fun fr => length fr = n)) blocks -> m_weighting mm = m_weighting m -> m_level mm = m_level m -> m_slow mm = m_slow m -> EnvDetectModel.channels (m_detector mm) = n ->
  omap snd (run (dblock n) (m_detector mm) blocks) = omap snd (run (dblock n) (m_detector m) blocks) ->
  exists m1 m2 outs, run (meter_process eps) mm blocks = Ok (m1, map Some outs) /\ run (meter_process eps) m blocks = Ok (m2, map Some outs).
Proof.
  intros HF E1 E2 E3 CM EO. destruct (meter_at_init _ _ _ _ _ _ _ _ _ HI HU HR) as (b & cs & d & c & sl & A1 & A2 & A3 & A4 & A5 & BP & HN & MA & CD).
  destruct (detector_facts ri n fs _ _ cs d blocks A3 HR HF) as (d' & fouts & R1 & _ & RE & FW & FP & FL & _).
  destruct HU as [HV H4]. pose proof HV as ((V1 & V1') & _).
  destruct (slow_smoother eps sm n _ _ c sl (concat fouts) V1 H4 A4 A5 FW) as (sl' & slow & RL & FS).
  destruct (smoother_strict _ _ V1 H4) as (q & A4' & Q). rewrite A4 in A4'. injection A4' as EQ.
  destruct (frames_bound _ FP) as (B & HB & FB). pose proof FS as (LS & WS & _).
  assert (SP : Forall (Forall (fun v => 0 <= v)) slow). { assert (K : Forall (Forall (fun v => 0 <= v <= B)) slow) by (apply (filtered_range n q B (concat fouts)); [lra|exact HB|exact FB|exact FW|rewrite <- EQ; exact FS]). revert K. apply Forall_impl. intros l. apply Forall_impl. intros v Hv. lra. }
  destruct (tracking _ p n fs b (concat fouts) slow A1 (conj HV H4) FW WS LS B HB FB SP) as (cs' & back & T1 & T2 & T3 & T4 & T5).
  assert (BPos : Forall (Forall (fun v => 0 <= v)) back) by (revert T3; apply Forall_impl; intros l; apply Forall_impl; intros v Hv; lra).
  assert (NS : sensitivity (bparams b) <> 0) by (rewrite BP; destruct HV as (_ & _ & _ & _ & ? & _); lra).
  pose proof MA as (M1 & M2 & M3 & M4). rewrite M3, R1 in EO. cbn [omap obind snd] in EO. apply obind_inv in EO as ([d2 o2] & R2 & EO). injection EO as EO. cbn [snd] in EO. subst o2.
  destruct (process_blocks eps n w b d' sl' NS ltac:(lia) blocks fouts m d sl slow (repeat fresh_channel n) cs' back MA CD (repeat_length _ _) R1 RL T1 FP BPos) as (m2 & outs & P1 & _ & P2 & P3 & P4).
  assert (MB : meter_at w (with_channels b (repeat fresh_channel n)) (m_detector mm) sl mm) by (repeat split; congruence).
  destruct (process_blocks eps n w b d2 sl' NS ltac:(lia) blocks fouts mm _ sl slow (repeat fresh_channel n) cs' back MB CM (repeat_length _ _) R2 RL T1 FP BPos) as (m1 & outs' & P1' & _ & P2' & P3' & P4').
  exists m1, m2, outs. split; [|exact P1]. rewrite P1'. do 3 f_equal. apply pairs_eq; [congruence|]. apply concat_lengths; [congruence|]. rewrite !map_map. congruence.
Qed.
Lemma reset_forgets blocks blocks2 : Forall (Forall (fun fr => length fr = n)) blocks -> Forall (Forall (fun fr => length fr = n)) blocks2 ->
  exists m1 outs m2, run (meter_process eps) m blocks = Ok (m1, map Some outs) /\ meter_reset m1 = Ok m2 /\ instantaneous_estimate m2 = [] /\ background_estimate m2 = [] /\ most_recent_background m2 = repeat 0 n /\
    exists m3 m4 outs2, run (meter_process eps) m2 blocks2 = Ok (m3, map Some outs2) /\ run (meter_process eps) m blocks2 = Ok (m4, map Some outs2).
Proof.
  intros H1 H2. destruct (meter_runs _ _ _ _ _ _ _ _ _ HI HU HR blocks H1) as (cs & c & fast & slow & back & b & cs' & d' & sl' & fouts & _ & _ & _ & _ & _ & _ & _ & _ & _ & _ & LC & _ & (d'' & sl & D1 & D2 & D3 & D4 & D5) & (m1 & outs & R1 & (N1 & N2 & N3 & N4) & _) & _).
  exists m1, outs. eexists. split; [exact R1|]. split; [unfold meter_reset; rewrite N3, D1; cbn [obind]; rewrite N4, D3; reflexivity|]. split; [reflexivity|]. split; [reflexivity|].
  split. { unfold most_recent_background. cbn [m_level]. rewrite N2. unfold bg_reset, with_channels. cbn [BackgroundModel.channels]. rewrite LC. clear. induction n as [|k IH]; [reflexivity|]. cbn [repeat map]. f_equal. exact IH. }
  destruct D4 as (M1 & M2 & M3 & M4). apply twin; [exact H2| | | | |]; cbn [m_weighting m_level m_slow m_detector]; [congruence| |congruence|exact D2|].
  - rewrite N2, M2. unfold bg_reset, with_channels. cbn. rewrite LC. reflexivity.
  - apply D5.
Qed.
Lemma regrouped blocks later : Forall (Forall (fun fr => length fr = n)) blocks ->
  exists m1 outs m2 out, run (meter_process eps) m blocks = Ok (m1, map Some outs) /\ meter_process eps m (concat blocks) = Ok (m2, Some out) /\
    concat (map fst outs) = fst out /\ concat (map snd outs) = snd out /\ most_recent_background m1 = most_recent_background m2 /\
    omap snd (run (meter_process eps) m1 later) = omap snd (run (meter_process eps) m2 later).
Proof.
  intros H1. destruct (meter_runs _ _ _ _ _ _ _ _ _ HI HU HR blocks H1) as (cs & c & fast & slow & back & b & cs' & d' & sl' & fouts & _ & _ & _ & _ & _ & _ & E7 & _ & _ & _ & LC & _ & _ & (m1 & outs & R1 & (N1 & N2 & N3 & N4) & R3 & R4 & _) & (m2 & out & S1 & (O1 & O2 & O3 & O4) & S3 & S4)).
  exists m1, outs, m2, out. split; [exact R1|]. split; [exact S1|]. split; [rewrite R3, S3, <- E7, concat_map; reflexivity|]. split; [congruence|]. split; [unfold most_recent_background; congruence|].
  apply inside_run. repeat split; congruence.
Qed.
End Main.

(* ---------- silence ---------- *)
Lemma zero_difference c k : a0 c <> 0 -> forall y, rfilters c (repeat 0 k) y -> y = repeat 0 k.
Proof.
  intros N y H. refine (difference_unique 0 1 Rplus Rmult Rminus Ropp Rdiv Rinv Rfield c N (repeat 0 k) 0 0 0 0 _ _ H _). clear. induction k as [|k IH]; cbn [repeat difference_equation]; [exact I|]. split; [ring|exact IH].
Qed.
Lemma zero_cascade cs k : Forall (fun c => a0 c <> 0) cs -> forall y, rcfilters cs (repeat 0 k) y -> y = repeat 0 k.
Proof.
  induction 1 as [|c cs N _ IH]; intros y H; cbn [cascade_filters] in H; [now subst|]. destruct H as (z & H1 & H2). rewrite (zero_difference c k N z H1) in H2. now apply IH.
Qed.
Lemma zero_frames n cs x y : Forall (fun c => a0 c <> 0) cs -> Forall (fun fr => length fr = n) x -> Forall (Forall (fun v => v = 0)) x -> frames_filtered n cs x y -> Forall (Forall (fun v => v = 0)) y.
Proof.
  intros HA WX HX (L & W & F). apply Forall_forall. intros fr Hfr. apply Forall_forall. intros u Hu. destruct (In_nth _ _ 0 Hu) as (i & Hi & <-). rewrite Forall_forall in W. rewrite (W fr Hfr) in Hi. specialize (F i Hi).
  assert (Z : BiquadSpec.channel 0 i x = repeat 0 (length x)).
  { clear - HX WX Hi. unfold BiquadSpec.channel. induction x as [|a x IH]; [reflexivity|]. cbn [map length repeat]. f_equal; [|apply IH; [exact (Forall_inv_tail WX)|exact (Forall_inv_tail HX)]]. apply (nth_range (P := fun v => v = 0)); [exact (Forall_inv HX)|rewrite (Forall_inv WX); exact Hi]. }
  rewrite Z in F. pose proof (zero_cascade cs _ HA _ F) as Q. assert (I : In (nth i fr 0) (BiquadSpec.channel 0 i y)) by (unfold BiquadSpec.channel; apply in_map_iff; exists fr; auto). rewrite Q in I. now apply repeat_spec in I.
Qed.
Lemma zero_dot n f win : Forall (Forall (fun v => v = 0)) win -> Forall (fun v => v = 0) (frame_dot n f win).
Proof.
  intros H. unfold frame_dot. apply Forall_forall. intros v Hv. apply in_map_iff in Hv as (i & <- & _). revert f. induction H as [|fr win H1 _ IH]; intros [|a f]; cbn [combine map fold_right fst snd]; try reflexivity.
  rewrite IH. assert (Z : nth i fr 0 = 0). { clear - H1. revert i. induction H1 as [|u fr Hu _ IH]; intros [|i]; cbn; auto. } rewrite Z. ring.
Qed.
Lemma zero_roots e : Forall (Forall (fun v => v = 0)) e -> Forall (Forall (fun v => 0 <= v <= 0)) (roots e).
Proof.
  intros H. apply Forall_forall. intros fr Hf. apply in_map_iff in Hf as (g & <- & Hg). apply Forall_forall. intros v Hv. apply in_map_iff in Hv as (u & <- & Hu). rewrite Forall_forall in H. specialize (H g Hg). rewrite Forall_forall in H. rewrite (H u Hu), Rabs_R0, sqrt_0. lra.
Qed.
Lemma in_firstn {A} (x : A) k l : In x (firstn k l) -> In x l.
Proof. intros H. rewrite <- (firstn_skipn k l). apply in_or_app. now left. Qed.
Lemma in_skipn {A} (x : A) k l : In x (skipn k l) -> In x l.
Proof. intros H. rewrite <- (firstn_skipn k l). apply in_or_app. now right. Qed.
Lemma zero_envelope ri n fs cutoff env cs input fast : Forall (fun c => a0 c <> 0) cs -> 0 < cutoff < fs / 2 -> Forall (fun fr => length fr = n) input -> Forall (Forall (fun v => v = 0)) input ->
  rms_envelope ri n fs cutoff env cs input fast -> Forall (Forall (fun v => 0 <= v <= 0)) fast.
Proof.
  intros HA HC WI HZ (c & y & e & E1 & E2 & E3 & E4 & E5). pose proof (zero_frames n cs input y HA WI HZ E2) as ZY.
  destruct (smoother_shape fs cutoff ltac:(lra) ltac:(lra)) as (q & Eq & _). unfold smoother_design in Eq. rewrite E1 in Eq. injection Eq as ->.
  assert (ZE : Forall (Forall (fun v => v = 0)) e).
  { refine (zero_frames n [twice q] (squares y) e _ _ _ E3); [constructor; [cbn; lra|constructor]| |].
    - destruct E2 as (_ & W & _). clear - W. apply Forall_forall. intros fr Hf. apply in_map_iff in Hf as (g & <- & Hg). rewrite map_length. rewrite Forall_forall in W. auto.
    - apply Forall_forall. intros fr Hf. apply in_map_iff in Hf as (g & <- & Hg). apply Forall_forall. intros v Hv. apply in_map_iff in Hv as (u & <- & Hu). rewrite Forall_forall in ZY. specialize (ZY g Hg). rewrite Forall_forall in ZY. rewrite (ZY u Hu). ring. }
  destruct (Req_dec env fs) as [Q|Q]; [rewrite (E4 Q); now apply zero_roots|]. destruct (E5 Q) as (rc & radius & _ & ->). apply zero_roots. apply Forall_forall. intros fr Hf. unfold resampled in Hf. apply in_map_iff in Hf as (k & <- & _). unfold output.
  apply zero_dot. apply Forall_forall. intros g Hg. unfold slice in Hg. apply in_firstn, in_skipn in Hg. apply in_app_iff in Hg as [Hg|Hg]; [|rewrite Forall_forall in ZE; now apply ZE]. apply repeat_spec in Hg. subst g. apply Forall_forall. intros v Hv. now apply repeat_spec in Hv.
Qed.
Lemma all_same (x : R) (f : list (list R)) : Forall (Forall (fun v => v = x)) f -> forall n, Forall (fun fr => length fr = n) f -> f = repeat (repeat x n) (length f).
Proof.
  induction 1 as [|fr f H _ IH]; intros n W; [reflexivity|]. cbn [length repeat]. f_equal; [|apply IH; exact (Forall_inv_tail W)]. pose proof (Forall_inv W) as L. cbn in L. rewrite <- L. clear - H. induction H as [|v fr -> _ IH]; [reflexivity|]. cbn [length repeat]. now f_equal.
Qed.
