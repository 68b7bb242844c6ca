(* The background level detector as a whole.  [eps] and [sm] belong to the ladder filter and [ri] is the
   resampler set up by Init (see LevelMeterModel.v); [m0] is the detector before Init. *)
From Verif Require Import Common CInt ListLemmas MultiCrossProofs RealUtil BiquadModel BiquadSpec DesignModel CascadeModel LoudnessSpec ResamplerModel ResamplerSpec ResamplerProofs EnvDetectModel EnvDetectProps
  LadderModel PerceptualModel PerceptualSpec PerceptualProps PerceptualProofs3 BackgroundModel BackgroundSpec BackgroundProofs LevelMeterModel LevelMeterSpec LevelMeterProofs LevelMeterProofs2 LevelMeterProofs3 LevelMeterProofs4 LevelMeterProofs5 LevelMeterProofs6 LevelMeterProofs7.
From Coq Require Import Lra Lia Reals.
Local Open Scope R_scope.

(* Init accepts every valid set of parameters, whatever the detector was used for before. *)
Theorem C95_init : forall eps sm ri m0 fs0 w p n fs, valid_params (bparams (m_level m0)) fs0 -> valid_params p fs -> (0 < n)%nat -> a0 sm <> 0 -> clear_rate w fs ->
  exists m, meter_init eps sm ri m0 w p n fs = Ok m.
Proof. exact init_total. Qed.
Print Assumptions C95_init.

(* ProcessBlock returns false before Init. *)
Theorem C95_uninitialized : forall eps input, exists m, meter_block eps meter_new input = Ok (m, false) /\ instantaneous_estimate m = [] /\ background_estimate m = [].
Proof. intros eps input. eexists. unfold meter_block. cbv zeta. unfold meter_new at 2 3. cbn [m_detector]. rewrite C77_uninitialized. cbn [obind snd fst]. split; [reflexivity|]. split; reflexivity. Qed.
Print Assumptions C95_uninitialized.

(* The levels reported for a signal, however it is cut into blocks: the instantaneous level is the smoothed
   and resampled RMS level of the weighted signal, and the background level follows it and its slowly
   smoothed version by the documented rules, both in decibels. *)
Theorem C95_levels : forall eps sm ri m0 w p n fs m blocks, meter_init eps sm ri m0 w p n fs = Ok m -> usable p fs -> resampler_ready ri fs (envelope_rate p) ->
  Forall (Forall (fun fr => length fr = n)) blocks ->
  exists cs c fast slow back m' outs,
    perceptual_coefficients w fs = Ok cs /\ lowpass (envelope_rate p) (slow_cutoff p) (1 / 2) = Ok c /\
    rms_envelope ri n fs (fast_cutoff p) (envelope_rate p) cs (concat blocks) fast /\ frames_filtered n [c] fast slow /\ tracks p n fast slow back /\
    run (meter_process eps) m blocks = Ok (m', map Some outs) /\
    concat (map fst outs) = map (map dbfs) fast /\ concat (map snd outs) = map (map dbfs) back /\
    map (fun o => length (snd o)) outs = map (fun o => length (fst o)) outs /\
    (envelope_rate p = fs -> map (fun o => length (fst o)) outs = map (@length _) blocks) /\
    most_recent_background m' = last back (repeat 0 n).
Proof.
  intros eps sm ri m0 w p n fs m blocks HI HU HR HF. destruct (meter_runs _ _ _ _ _ _ _ _ _ HI HU HR blocks HF) as (cs & c & fast & slow & back & b & cs' & d' & sl' & fouts & E1 & E2 & E3 & E4 & E5 & _ & E7 & E8 & _ & _ & _ & LB & _ & (m1 & outs & R1 & (N1 & N2 & N3 & N4) & R3 & R4 & R5) & _).
  assert (L : map (fun o : list (list R) * list (list R) => length (fst o)) outs = map (@length _) fouts).
  { rewrite <- (map_map fst (@length _)), R3, map_map. apply map_ext. intros l. apply map_length. }
  exists cs, c, fast, slow, back, m1, outs. do 6 (split; [assumption|]). split; [rewrite R3, <- E7, concat_map; reflexivity|]. split; [exact R4|]. split; [congruence|]. split; [intros Q; rewrite L; auto|].
  unfold most_recent_background. rewrite N2. exact LB.
Qed.
Print Assumptions C95_levels.

(* Cutting a signal into blocks changes neither the levels nor anything that is reported later. *)
Theorem C95_blocks : forall eps sm ri m0 w p n fs m blocks later, meter_init eps sm ri m0 w p n fs = Ok m -> usable p fs -> resampler_ready ri fs (envelope_rate p) ->
  Forall (Forall (fun fr => length fr = n)) blocks ->
  exists m1 outs m2 out, run (meter_process eps) m blocks = Ok (m1, map Some outs) /\ meter_process eps m (concat blocks) = Ok (m2, Some out) /\
    concat (map fst outs) = fst out /\ concat (map snd outs) = snd out /\ most_recent_background m1 = most_recent_background m2 /\
    omap snd (run (meter_process eps) m1 later) = omap snd (run (meter_process eps) m2 later).
Proof. intros eps sm ri m0 w p n fs m blocks later HI HU HR HF. exact (regrouped _ _ _ _ _ _ _ _ _ HI HU HR blocks later HF). Qed.
Print Assumptions C95_blocks.

(* After Reset the detector behaves as after Init. *)
Theorem C95_reset : forall eps sm ri m0 w p n fs m blocks blocks2, meter_init eps sm ri m0 w p n fs = Ok m -> usable p fs -> resampler_ready ri fs (envelope_rate p) ->
  Forall (Forall (fun fr => length fr = n)) blocks -> Forall (Forall (fun fr => length fr = n)) blocks2 ->
  exists m1 outs m2, run (meter_process eps) m blocks = Ok (m1, map Some outs) /\ meter_reset m1 = Ok m2 /\
    instantaneous_estimate m2 = [] /\ background_estimate m2 = [] /\ most_recent_background m2 = repeat 0 n /\
    exists m3 m4 outs2, run (meter_process eps) m2 blocks2 = Ok (m3, map Some outs2) /\ run (meter_process eps) m blocks2 = Ok (m4, map Some outs2).
Proof. intros eps sm ri m0 w p n fs m blocks blocks2 HI HU HR H1 H2. exact (reset_forgets _ _ _ _ _ _ _ _ _ HI HU HR blocks blocks2 H1 H2). Qed.
Print Assumptions C95_reset.

(* No level is below -240 dB, and the background level never exceeds the largest instantaneous level. *)
Theorem C95_range : forall eps sm ri m0 w p n fs m blocks m' outs, meter_init eps sm ri m0 w p n fs = Ok m -> usable p fs -> resampler_ready ri fs (envelope_rate p) ->
  Forall (Forall (fun fr => length fr = n)) blocks -> run (meter_process eps) m blocks = Ok (m', map Some outs) ->
  Forall (Forall (fun v => -240 <= v)) (concat (map fst outs)) /\ Forall (Forall (fun v => -240 <= v)) (concat (map snd outs)) /\
  forall top, -240 <= top -> Forall (Forall (fun v => v <= top)) (concat (map fst outs)) -> Forall (Forall (fun v => v <= top)) (concat (map snd outs)).
Proof.
  intros eps sm ri m0 w p n fs m blocks m' outs HI HU HR HF HO. destruct (meter_runs _ _ _ _ _ _ _ _ _ HI HU HR blocks HF) as (cs & c & fast & slow & back & b & cs' & d' & sl' & fouts & E1 & E2 & E3 & E4 & E5 & E6 & E7 & E8 & E9 & E10 & _ & _ & _ & (m1 & outs1 & R1 & _ & R3 & R4 & R5) & _).
  rewrite R1 in HO. injection HO as _ HO. apply map_some_inj in HO. subst outs1. assert (R3' : concat (map fst outs) = map (map dbfs) fast) by (rewrite R3, <- E7, concat_map; reflexivity). rewrite R3', R4.
  destruct (frames_bound _ E9) as (B & HB & FB). destruct (E10 B HB FB) as [_ BB].
  assert (UP : forall (P Q : R -> Prop) f, (forall v, P v -> Q (dbfs v)) -> Forall (Forall P) f -> Forall (Forall Q) (map (map dbfs) f)).
  { intros P Q f H F. apply Forall_forall. intros fr Hf. apply in_map_iff in Hf as (g & <- & Hg). apply Forall_forall. intros v Hv. apply in_map_iff in Hv as (u & <- & Hu). apply H. rewrite Forall_forall in F. specialize (F g Hg). rewrite Forall_forall in F. auto. }
  split; [refine (UP _ _ _ _ E9); intros v Hv; rewrite <- dbfs_zero; apply dbfs_le; lra|]. split; [refine (UP _ _ _ _ BB); intros v Hv; rewrite <- dbfs_zero; apply dbfs_le; lra|].
  intros top HT FT. pose proof offset_pos as OP. pose proof (exp_pos (ln 10 / 20 * (top + 240))) as EP. assert (E1' : 1 <= exp (ln 10 / 20 * (top + 240))).
  { rewrite <- exp_0. pose proof ln_ten_pos. destruct (Rle_lt_or_eq_dec 0 (ln 10 / 20 * (top + 240)) ltac:(apply Rmult_le_pos; lra)) as [Q|Q]; [left; now apply exp_increasing|rewrite <- Q; lra]. }
  set (v := 1 / 10 ^ 12 * exp (ln 10 / 20 * (top + 240)) - 1 / 10 ^ 12). assert (V0 : 0 <= v). { unfold v. assert (1 / 10 ^ 12 * 1 <= 1 / 10 ^ 12 * exp (ln 10 / 20 * (top + 240))) by (apply Rmult_le_compat_l; lra). lra. }
  assert (DV : dbfs v = top) by (rewrite (dbfs_shift 0 v (top + 240)); [rewrite dbfs_zero; ring|lra|exact V0|unfold v; ring]).
  assert (FV : Forall (Forall (fun u => 0 <= u <= v)) fast).
  { apply Forall_forall. intros fr Hf. apply Forall_forall. intros u Hu. assert (U0 : 0 <= u) by (rewrite Forall_forall in E9; specialize (E9 fr Hf); rewrite Forall_forall in E9; auto). split; [exact U0|]. apply dbfs_inv; [exact V0| |exact U0]. rewrite DV.
    rewrite Forall_forall in FT. specialize (FT (map dbfs fr) (in_map _ _ _ Hf)). rewrite Forall_forall in FT. apply FT. now apply in_map. }
  destruct (E10 v V0 FV) as [_ BV]. refine (UP _ _ _ _ BV). intros u Hu. rewrite <- DV. apply dbfs_le; lra.
Qed.
Print Assumptions C95_range.

(* Silence is reported as -240 dB in every channel; the most recent background level is then zero. *)
Theorem C95_silence : forall eps sm ri m0 w p n fs m blocks m' outs, meter_init eps sm ri m0 w p n fs = Ok m -> usable p fs -> resampler_ready ri fs (envelope_rate p) -> clear_rate w fs ->
  Forall (Forall (fun fr => length fr = n)) blocks -> run (meter_process eps) m blocks = Ok (m', map Some outs) -> Forall (Forall (Forall (fun v => v = 0))) blocks ->
  Forall (Forall (fun v => v = -240)) (concat (map fst outs)) /\ Forall (Forall (fun v => v = -240)) (concat (map snd outs)) /\ most_recent_background m' = repeat 0 n.
Proof.
  intros eps sm ri m0 w p n fs m blocks m' outs HI HU HR HC HF HO HZ. destruct (meter_runs _ _ _ _ _ _ _ _ _ HI HU HR blocks HF) as (cs & c & fast & slow & back & b & cs' & d' & sl' & fouts & E1 & E2 & E3 & E4 & E5 & E6 & E7 & E8 & E9 & E10 & LC & LB & _ & (m1 & outs1 & R1 & (_ & N2 & _) & R3 & R4 & R5) & _).
  rewrite R1 in HO. injection HO as <- HO. apply map_some_inj in HO. subst outs1. assert (R3' : concat (map fst outs) = map (map dbfs) fast) by (rewrite R3, <- E7, concat_map; reflexivity). rewrite R3', R4.
  destruct HU as [(V1 & V2 & V3 & _) _]. destruct (perceptual_digital w fs ltac:(lra) HC) as (cs2 & Ecs & (_ & NA) & _). rewrite E1 in Ecs. injection Ecs as <-.
  assert (ZF : Forall (Forall (fun v => 0 <= v <= 0)) fast).
  { apply (zero_envelope ri n fs (fast_cutoff p) (envelope_rate p) cs (concat blocks)); [exact NA|lra| | |exact E3]; apply Forall_concat; assumption. }
  destruct (E10 0 (Rle_refl 0) ZF) as [_ ZB].
  assert (UP : forall f, Forall (Forall (fun v => 0 <= v <= 0)) f -> Forall (Forall (fun v => v = -240)) (map (map dbfs) f)).
  { intros f F. apply Forall_forall. intros fr Hf. apply in_map_iff in Hf as (g & <- & Hg). apply Forall_forall. intros v Hv. apply in_map_iff in Hv as (u & <- & Hu). rewrite Forall_forall in F. specialize (F g Hg). rewrite Forall_forall in F. specialize (F u Hu). replace u with 0 by lra. apply dbfs_zero. }
  split; [now apply UP|]. split; [now apply UP|]. unfold most_recent_background. rewrite N2. change (map background cs' = repeat 0 n). rewrite LB. destruct E5 as (_ & WB & _).
  assert (ZB' : Forall (Forall (fun v => v = 0)) back) by (revert ZB; apply Forall_impl; intros l; apply Forall_impl; intros v Hv; lra).
  pose proof (all_same 0 back ZB' n WB) as Q. rewrite Q. clear. induction (length back) as [|k IH]; [reflexivity|]. cbn [repeat]. destruct k; [reflexivity|]. cbn [repeat last] in *. exact IH.
Qed.
Print Assumptions C95_silence.

(* The background level settles to a steady input level: if from some time on the instantaneous level of a
   channel stays within limits whose ratio is below the transient sensitivity, the background level of that
   channel is eventually within the same limits, up to any margin; how soon does not depend on the signal
   or on the blocks. *)
Theorem C95_settles : forall eps sm ri m0 w p n fs m a b N0 top e, meter_init eps sm ri m0 w p n fs = Ok m -> usable p fs -> resampler_ready ri fs (envelope_rate p) ->
  0 < a -> a <= b -> sensitivity p * b < a -> 0 < e ->
  exists N, forall blocks m' outs k, Forall (Forall (fun fr => length fr = n)) blocks -> run (meter_process eps) m blocks = Ok (m', map Some outs) -> (k < n)%nat ->
    let inst := fun i => nth k (nth i (concat (map fst outs)) []) 0 in let back := fun i => nth k (nth i (concat (map snd outs)) []) 0 in
    (forall i, (i < N0)%nat -> (i < length (concat (map fst outs)))%nat -> inst i <= top) ->
    (forall i, (N0 <= i)%nat -> (i < length (concat (map fst outs)))%nat -> dbfs a <= inst i <= dbfs b) ->
    forall i, (N <= i)%nat -> (i < length (concat (map snd outs)))%nat -> dbfs a - e <= back i <= dbfs b + e.
Proof. intros eps sm ri m0 w p n fs m a b N0 top e HI HU HR. exact (settling _ _ _ _ _ _ _ _ _ HI HU HR a b N0 top e). Qed.
Print Assumptions C95_settles.

(* The setters do not affect the instantaneous level. *)
Inductive setting (eps : R) (mx : nat) : meter -> meter -> Prop :=
| set_slow m v m' : meter_set_slow_cutoff eps mx m v = Ok m' -> setting eps mx m m'
| set_time m v m' : meter_set_time_constant m v = Ok m' -> setting eps mx m m'
| set_sens m v : setting eps mx m (meter_set_sensitivity m v)
| set_reject m v m' : meter_set_rejection_time m v = Ok m' -> setting eps mx m m'.
Theorem C95_setters : forall eps mx m m' input r r' o o', setting eps mx m m' -> meter_process eps m input = Ok (r, o) -> meter_process eps m' input = Ok (r', o') ->
  option_map fst o = option_map fst o'.
Proof.
  intros eps mx m m' input r r' o o' HS H1 H2. assert (D : m_detector m' = m_detector m).
  { destruct HS as [m v m' H|m v m' H|m v|m v m' H]; [| | reflexivity |].
    - unfold meter_set_slow_cutoff in H. apply obind_inv in H as (? & _ & H). apply obind_inv in H as (? & _ & H). apply obind_inv in H as (? & _ & H). now injection H as <-.
    - unfold meter_set_time_constant in H. apply obind_inv in H as (? & _ & H). now injection H as <-.
    - unfold meter_set_rejection_time in H. apply obind_inv in H as (? & _ & H). now injection H as <-. }
  assert (K : forall m r o, meter_process eps m input = Ok (r, o) -> exists d fr, detector_block Rplus Rminus Rmult rms_root (frame_dot (EnvDetectModel.channels (m_detector m))) (frame_plus (EnvDetectModel.channels (m_detector m))) (m_detector m) input = Ok (d, fr) /\
    match fr with None => o = None | Some fast => exists i, frames_to_db fast = Ok i /\ option_map fst o = Some i end).
  { clear. intros m r o H. unfold meter_process in H. apply obind_inv in H as ([mm t] & H & E). injection E as _ <-. cbn [fst snd]. unfold meter_block in H. cbv zeta in H. apply obind_inv in H as ([d fr] & H & E). exists d, fr. split; [exact H|]. cbn [fst snd] in E. destruct fr as [fast|]; [|now injection E as _ <-].
    apply obind_inv in E as (sr & _ & E). apply obind_inv in E as ([b [back|]] & _ & E); [|discriminate]. cbn [fst snd] in E. apply obind_inv in E as (i & Ei & E). apply obind_inv in E as (k & _ & E). injection E as <- <-. exists i. split; [exact Ei|reflexivity]. }
  destruct (K _ _ _ H1) as (d & fr & K1 & K2). destruct (K _ _ _ H2) as (d' & fr' & K1' & K2'). rewrite D, K1 in K1'. injection K1' as <- <-. destruct fr as [fast|]; [|congruence]. destruct K2 as (i & E1 & ->). destruct K2' as (i' & E2 & ->). congruence.
Qed.
Print Assumptions C95_setters.

(* The default parameters at 48 kHz, with a resampler from 48000 to 100 Hz. *)
Definition some_resampler (fs env : R) : option (@config R * Z) := Some ({| numer := 480; denom := 1; taps := 961; filters := [repeat (1 / 961) (Z.to_nat 961)] |}, 480%Z).
Definition some_smoothing : coeffs R := {| b0 := 1; b1 := 0; b2 := 0; a0 := 1; a1 := 0; a2 := 0 |}.
Example C95_case : usable default_bg 48000 /\ resampler_ready some_resampler 48000 (envelope_rate default_bg) /\ (forall w, clear_rate w 48000) /\
  (forall eps w n, (0 < n)%nat -> exists m, meter_init eps some_smoothing some_resampler meter_new w default_bg n 48000 = Ok m) /\
  (0 < 1 / 2 /\ 1 / 2 <= 3 / 5 /\ sensitivity default_bg * (3 / 5) < 1 / 2).
Proof.
  assert (CR : forall w, clear_rate w 48000) by (intros w; pose proof (C79_rates w) as H; rewrite Forall_forall in H; apply H; cbn [In]; tauto).
  split; [split; [exact default_valid|cbn; lra]|]. split; [right; do 2 eexists; split; [reflexivity|]; repeat split; cbn [numer denom taps filters]; try lia; constructor; [rewrite repeat_length; lia|constructor]|].
  split; [exact CR|]. split; [|cbn; lra]. intros eps w n Hn. exact (C95_init eps some_smoothing some_resampler meter_new 48000 w default_bg n 48000 default_valid default_valid Hn ltac:(cbn; lra) (CR w)).
Qed.

(* MostRecentBackgroundLevelEstimate is not the last value of GetBackgroundLevelEstimate: it is a linear
   level, not one in decibels. *)
Theorem C95_most_recent_refuted : exists m m' out, meter_init 0 some_smoothing some_resampler meter_new A_weighting default_bg 1 48000 = Ok m /\
  meter_process 0 m (repeat [0] (Z.to_nat 960)) = Ok (m', Some out) /\ snd out <> [] /\ most_recent_background m' <> last (snd out) [].
Proof.
  destruct C95_case as (U & RR & CR & IT & _). destruct (IT 0 A_weighting 1%nat ltac:(lia)) as [m HI]. set (bl := repeat [0] (Z.to_nat 960)).
  assert (W : Forall (Forall (fun fr => length fr = 1%nat)) [bl]) by (constructor; [|constructor]; apply Forall_forall; intros fr H; apply repeat_spec in H; now subst).
  assert (Z : Forall (Forall (Forall (fun v => v = 0))) [bl]) by (constructor; [|constructor]; apply Forall_forall; intros fr H; apply repeat_spec in H; subst; repeat constructor).
  destruct (C95_levels _ _ _ _ _ _ _ _ _ [bl] HI U RR W) as (cs & c & fast & slow & back & m' & outs & E1 & E2 & E3 & E4 & E5 & RU & O1 & O2 & _).
  destruct (C95_silence _ _ _ _ _ _ _ _ _ [bl] m' outs HI U RR (CR _) W RU Z) as (_ & S2 & S3).
  cbn [run] in RU. apply obind_inv in RU as ([mm o] & RP & RU). cbn [obind fst snd] in RU. injection RU as -> RU. destruct outs as [|out [|? ?]]; try discriminate RU. injection RU as ->.
  exists m, m', out. split; [exact HI|]. split; [exact RP|]. cbn [map concat] in O2, S2. rewrite app_nil_r in O2, S2.
  assert (LF : length fast <> 0%nat). 2:{
    assert (NN : snd out <> []). { intros Q. rewrite Q in O2. destruct E5 as (L5 & _). destruct back; [cbn in L5; congruence|discriminate]. }
    split; [exact NN|]. rewrite S3. intros Q. rewrite Forall_forall in S2. assert (I : In (last (snd out) []) (snd out)). { destruct (exists_last NN) as (l & x & ->). rewrite last_last. apply in_or_app. right. now left. }
    specialize (S2 _ I). rewrite <- Q in S2. apply Forall_inv in S2. lra. }
  clear - E3. destruct E3 as (c & y & e & _ & (L1 & _) & (L2 & _) & _ & H). destruct (H ltac:(cbn; lra)) as (rc & radius & E & ->). injection E as <- <-. unfold roots, resampled. rewrite !map_length. intros Q.
  cbn [concat] in L1. rewrite app_nil_r in L1. unfold bl in L1. rewrite repeat_length in L1. unfold squares in L2. rewrite map_length, L1 in L2.
  rewrite seq_length, app_length, repeat_length in Q. change (length e = Z.to_nat 960) in L2. rewrite L2 in Q. cbn [numer denom taps] in Q. unfold num_outputs in Q. rewrite Nat2Z.inj_add, !Z2Nat.id in Q by lia. vm_compute in Q. discriminate Q.
Qed.
Print Assumptions C95_most_recent_refuted.

(* A new cutoff of the slow smoother is lost if Reset is called before any further input: GetCurrentParams
   reports it, but all later levels are those of a detector whose cutoff was never changed. *)
Theorem C95_cutoff_then_reset_refuted : forall eps sm ri m0 w p n fs m mx v, meter_init eps sm ri m0 w p n fs = Ok m -> usable p fs -> resampler_ready ri fs (envelope_rate p) ->
  (0 < mx)%nat -> 0 < v < envelope_rate p / 2 ->
  exists m1 m2, meter_set_slow_cutoff eps mx m v = Ok m1 /\ meter_reset m1 = Ok m2 /\ slow_cutoff (bparams (m_level m2)) = v /\
    forall blocks, Forall (Forall (fun fr => length fr = n)) blocks -> omap snd (run (meter_process eps) m2 blocks) = omap snd (run (meter_process eps) m blocks).
Proof.
  intros eps sm ri m0 w p n fs m mx v HI HU HR HM HV. destruct (cutoff_accepted _ _ _ _ _ _ _ _ _ HI HU HR mx v HM HV) as (m1 & m2 & E1 & E2). exists m1, m2. split; [exact E1|]. split; [exact E2|].
  split; [exact (proj1 (cutoff_lost _ _ _ _ _ _ _ _ _ HI HU HR mx v m1 m2 [] E1 E2 (Forall_nil _)))|]. intros blocks HF. exact (proj2 (cutoff_lost _ _ _ _ _ _ _ _ _ HI HU HR mx v m1 m2 blocks E1 E2 HF)).
Qed.
Print Assumptions C95_cutoff_then_reset_refuted.
