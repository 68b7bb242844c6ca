(* C78: the loudness based two-way compressor (Loudness1771TwoWayCompressor). *)
From Verif Require Import Common ListLemmas Mealy RealUtil BiquadModel BiquadSpec BiquadProofs DesignModel FixedDelayLineModel
  EnvelopeModel EnvelopeSpec DrcCurveModel DrcCurveSpec DrcCurveProofs LoudnessModel LoudnessSpec LoudnessProofs LoudnessProps LoudCompModel LoudCompSpec LoudCompProofs.
From Verif Require DrcModel DrcProofs.
From Coq Require Import Psatz.
Local Open Scope R_scope.
Notation rfilters := (filters 0 Rplus Rminus Rmult).

(* Init returns false exactly for time constants, counts or a sample rate that are not positive, and for a
   wrong number of channel weights. *)
Theorem C78_init junk kc s0 p n m fs :
  (lc_attack p <= 0 \/ lc_release p <= 0 \/ (n <= 0)%Z \/ (m <= 0)%Z \/ fs <= 0 \/ Z.of_nat (length (lc_weights p)) <> n ->
     exists s, lc_init junk kc s0 p n m fs = Ok (s, false)) /\
  (forall s b, lc_init junk kc s0 p n m fs = Ok (s, b) ->
     (b = true <-> 0 < lc_attack p /\ 0 < lc_release p /\ (0 < n)%Z /\ (0 < m)%Z /\ 0 < fs /\ Z.of_nat (length (lc_weights p)) = n)) /\
  (0 < lc_attack p -> 0 < lc_release p -> (0 < n)%Z -> (0 < m)%Z -> 400 < fs -> 0 <= lc_lookahead p -> Z.of_nat (length (lc_weights p)) = n ->
     kc fs <> [] -> Forall (fun c => a0 c <> 0) (lc_averaging p :: kc fs) -> exists s, lc_init junk kc s0 p n m fs = Ok (s, true)).
Proof.
  assert (W : forall mt b, rminit (lc_meter s0) (lc_weights p) (lc_averaging p) n (kc fs) = Ok (mt, b) -> (b = true <-> Z.of_nat (length (lc_weights p)) = n))
    by (intros mt b; apply C76_init).
  split; [|split].
  - intros H. unfold lc_init. destruct (lc_verify p n m fs) eqn:V; cbn [negb]; [|eauto]. unfold lc_verify in V.
    destruct (Rleb_spec (lc_attack p) 0); [discriminate|]. destruct (Rleb_spec (lc_release p) 0); [discriminate|].
    destruct (n <=? 0)%Z eqn:N0; [discriminate|]. destruct (m <=? 0)%Z eqn:M0; [discriminate|]. destruct (Rleb_spec fs 0); [discriminate|].
    destruct H as [H|[H|[H|[H|[H|H]]]]]; try lra; try lia.
    destruct (proj1 (C76_init R 0 1 Rmult Rdiv (fun v => Reqb v 0) (lc_meter s0) (lc_weights p) (lc_averaging p) n (kc fs)) H) as [mt E]. rewrite E. cbn. eauto.
  - intros s b H. unfold lc_init in H. destruct (lc_verify p n m fs) eqn:V; cbn [negb] in H; unfold lc_verify in V.
    + repeat (apply andb_prop in V as [V ?]).
      destruct (Rleb_spec (lc_attack p) 0); [discriminate|]. destruct (Rleb_spec (lc_release p) 0); [discriminate|]. destruct (Rleb_spec fs 0); [discriminate|].
      destruct (rminit (lc_meter s0) (lc_weights p) (lc_averaging p) n (kc fs)) as [[mt bb]| |] eqn:EM; cbn [obind fst snd] in H; try discriminate.
      pose proof (W _ _ eq_refl) as W'. destruct bb; cbn [negb] in H.
      * destruct (env_make _ _ _ _); cbn [obind] in H; try discriminate. destruct (dl_init _ _ _ _); cbn [obind] in H; try discriminate. injection H as _ <-.
        split; [|tauto]. intros _. repeat split; try lra; try lia.
      * injection H as _ <-. split; [discriminate|]. intros (_ & _ & _ & _ & _ & X). exact (proj2 W' X).
    + injection H as _ <-. split; [discriminate|]. intros (A & B & C & D & E & _). exfalso.
      destruct (Rleb_spec (lc_attack p) 0); [lra|]. destruct (Rleb_spec (lc_release p) 0); [lra|]. destruct (Rleb_spec fs 0); [lra|].
      replace (n <=? 0)%Z with false in V by lia. replace (m <=? 0)%Z with false in V by lia. discriminate.
  - intros A B C D E F G K HF.
    destruct (proj2 (proj2 (C76_init R 0 1 Rmult Rdiv (fun v => Reqb v 0) (lc_meter s0) (lc_weights p) (lc_averaging p) n (kc fs))) G C K) as [mt EM].
    { eapply Forall_impl; [|exact HF]. intros c Hc. cbv beta in *. destruct (Reqb_spec (a0 c) 0); [contradiction|reflexivity]. }
    rewrite <- (Z2Nat.id n), <- (Z2Nat.id m) by lia. apply (linit_ok junk kc s0 p (Z.to_nat n) (Z.to_nat m) fs mt); try lia; auto. rewrite Z2Nat.id by lia. exact EM.
Qed.
Print Assumptions C78_init.

(* The documented processing, for every sequence of blocks: the K-weighted power of the channels, averaged
   over the averaging time, smoothed with the attack and release times, converted to decibels, mapped by the
   curve; the gain is applied to the input delayed by the lookahead. *)
Theorem C78_output junk kc p t n m fs d curve bs s0 s :
  verify_params (lc_curve p) = true -> 0 < ratio (soft_region (lc_curve p)) -> (forall x, two_way_compressor (lc_curve p) x = Ok (curve x)) ->
  0 < t -> 400 < fs -> lc_averaging p = first_order_lowpass t fs -> Forall (fun w => 0 <= w) (lc_weights p) ->
  0 <= lc_lookahead p -> INR d - / 2 <= lc_lookahead p * fs < INR d + / 2 ->
  lc_init junk kc s0 p (Z.of_nat n) (Z.of_nat m) fs = Ok (s, true) -> Forall (block_ok n m) bs ->
  exists s' outs y, run (lc_process junk n) s bs = Ok (s', outs) /\ frames_filtered n (kc fs) (concat bs) y /\
    concat outs = apply_gains (delay_frames n d (concat bs))
      (map (loudness_gain curve (lc_in_db p) (lc_out_db p))
        (follower (smoothing_factor (lc_attack p) fs) (smoothing_factor (lc_release p) fs) 0
          (exponential_average (smoothing_factor t fs) 0 (map (weighted_power (lc_weights p)) y)))).
Proof.
  intros HV HS HC Ht Hf HA HW HL0 HL HI HB.
  destruct (linit_inv _ _ _ _ _ _ _ _ HI) as (n' & m' & mt & e & En & Em & _ & _ & Ha & Hr & _ & EM & EE & _ & R0).
  assert (Qn : n' = n) by lia. assert (Qm : m' = m) by lia. rewrite Qn, Qm in *.
  assert (HX : Forall (Forall (fun fr => length fr = n)) bs) by (eapply Forall_impl; [|exact HB]; intros b Hb; apply Hb).
  destruct (blocks_lready junk p curve HC n m _ bs s mt (e, false) [] R0 HB) as (s' & outs & E1 & O1 & _).
  destruct (meter_formula _ _ _ _ _ _ n (concat bs) EM eq_refl (Forall_concat _ _ HX)) as (y & pw & F1 & F2 & F3).
  rewrite HA in F2. apply average_unique in F2.
  assert (Htf : 0 < t * fs) by nra.
  assert (EC : first_order_coefficient t fs = smoothing_factor t fs) by (unfold first_order_coefficient, smoothing_factor; f_equal; f_equal; field; split; lra).
  assert (HC1 : 0 <= smoothing_factor t fs <= 1).
  { destruct (LoudnessProofs2.first_order_stable t fs Htf) as [_ Hc]. rewrite <- EC. lra. }
  rewrite EC in F2.
  assert (HP : Forall (fun v => 0 <= v) pw).
  { rewrite F2. clear -HW HC1. assert (X : forall l p0, 0 <= p0 -> Forall (fun v => 0 <= v) l -> Forall (fun v => 0 <= v) (exponential_average (smoothing_factor t fs) p0 l)).
    { induction l as [|v l IH]; intros p0 H0 HF; [constructor|]. inversion HF; subst. cbn [exponential_average].
      assert (0 <= p0 + smoothing_factor t fs * (v - p0)) by nra. constructor; [assumption|]. apply IH; assumption. }
    apply X; [lra|]. apply Forall_forall. intros v Hv. apply in_map_iff in Hv as (fr & <- & _). apply weighted_nonneg, HW. }
  exists s', outs, y. split; [exact E1|]. split; [exact F1|].
  rewrite O1. unfold detected. rewrite F3, (detect_powers pw HP). cbn [snd]. rewrite (follower_of _ _ _ _ pw Ha Hr Hf EE), map_map, window_start, F2.
  assert (ED : Z.to_nat (DrcModel.std_round (lc_lookahead p * fs)) = d).
  { assert (X : DrcModel.std_round (lc_lookahead p * fs) = Z.of_nat d).
    { unfold DrcModel.std_round. rewrite Rltb_false by nra. unfold Int_part. rewrite <- (tech_up (lc_lookahead p * fs + / 2) (Z.of_nat d + 1)); [lia| |]; rewrite plus_IZR, <- INR_IZR_INZ; lra. }
    rewrite X. apply Nat2Z.id. }
  rewrite ED. unfold delay_frames. f_equal. apply map_ext. intros v. apply gain_documented.
Qed.
Print Assumptions C78_output.

(* With hard knees the curve is the documented one with five regions. *)
Theorem C78_five_regions p : verify_params (lc_curve p) = true -> 0 < ratio (soft_region (lc_curve p)) ->
  knee (expander_region (lc_curve p)) = 0 -> knee (upwards_region (lc_curve p)) = 0 -> knee (soft_region (lc_curve p)) = 0 -> knee (hard_region (lc_curve p)) = 0 ->
  forall x, two_way_compressor (lc_curve p) x = Ok (five_regions
    (threshold (expander_region (lc_curve p))) (threshold (upwards_region (lc_curve p))) (threshold (soft_region (lc_curve p))) (threshold (hard_region (lc_curve p)))
    (ratio (expander_region (lc_curve p))) (ratio (upwards_region (lc_curve p))) (ratio (soft_region (lc_curve p))) (ratio (hard_region (lc_curve p))) x).
Proof. intros. now apply two_way_regions. Qed.
Print Assumptions C78_five_regions.

(* The block size has no effect on the output, for any weights and averaging filter, and after any blocks. *)
Theorem C78_block_size junk kc p n m fs s0 s pre s1 o1 bs bs' :
  verify_params (lc_curve p) = true -> 0 < ratio (soft_region (lc_curve p)) ->
  lc_init junk kc s0 p (Z.of_nat n) (Z.of_nat m) fs = Ok (s, true) -> Forall (block_ok n m) pre -> run (lc_process junk n) s pre = Ok (s1, o1) ->
  Forall (block_ok n m) bs -> Forall (block_ok n m) bs' -> concat bs = concat bs' ->
  exists s2 o2 s3 o3, run (lc_process junk n) s1 bs = Ok (s2, o2) /\ run (lc_process junk n) s1 bs' = Ok (s3, o3) /\ concat o2 = concat o3.
Proof.
  intros HV HS HI HP E0 HB HB' EQ. destruct (curve_total _ HV HS) as [curve HC].
  destruct (linit_inv _ _ _ _ _ _ _ _ HI) as (n' & m' & mt & e & En & Em & _ & _ & _ & _ & _ & _ & _ & _ & R0).
  assert (Qn : n' = n) by lia. assert (Qm : m' = m) by lia. rewrite Qn, Qm in *.
  destruct (blocks_lready junk p curve HC n m _ pre s mt (e, false) [] R0 HP) as (s' & outs & E1 & _ & R1). rewrite E0 in E1. injection E1 as <- <-.
  destruct (blocks_lready junk p curve HC n m _ bs s1 _ _ _ R1 HB) as (s2 & o2 & E2 & O2 & _).
  destruct (blocks_lready junk p curve HC n m _ bs' s1 _ _ _ R1 HB') as (s3 & o3 & E3 & O3 & _).
  exists s2, o2, s3, o3. split; [exact E2|]. split; [exact E3|]. now rewrite O2, O3, EQ.
Qed.
Print Assumptions C78_block_size.

(* All ratios one: nothing but the lookahead and the two gains remains, whatever the knees, weights and
   averaging filter. *)
Theorem C78_neutral junk kc p n m fs d s0 s bs :
  verify_params (lc_curve p) = true ->
  ratio (expander_region (lc_curve p)) = 1 -> ratio (upwards_region (lc_curve p)) = 1 -> ratio (soft_region (lc_curve p)) = 1 -> ratio (hard_region (lc_curve p)) = 1 ->
  0 <= lc_lookahead p -> INR d - / 2 <= lc_lookahead p * fs < INR d + / 2 ->
  lc_init junk kc s0 p (Z.of_nat n) (Z.of_nat m) fs = Ok (s, true) -> Forall (block_ok n m) bs ->
  exists s' outs, run (lc_process junk n) s bs = Ok (s', outs) /\
    concat outs = map (map (fun x => x * amplitude_factor (lc_in_db p + lc_out_db p))) (delay_frames n d (concat bs)).
Proof.
  intros HV R1 R2 R3 R4 HL0 HL HI HB.
  assert (HC : forall x, two_way_compressor (lc_curve p) x = Ok x).
  { intros x. unfold two_way_compressor. rewrite HV. cbn [ocheck]. cbv zeta. unfold compressor, adjusted_ratio, expander. rewrite R1, R2, R3, R4.
    destruct (Reqb_spec 1 0); [lra|]. cbn [negb oguard obind]. replace (1 / 1) with 1 by field. destruct (Reqb_spec 1 0); [lra|]. cbn [negb oguard obind].
    replace (1 / 1) with 1 by field. f_equal. ring. }
  destruct (linit_inv _ _ _ _ _ _ _ _ HI) as (n' & m' & mt & e & En & Em & _ & _ & _ & _ & Hf & _ & _ & _ & R0).
  assert (Qn : n' = n) by lia. assert (Qm : m' = m) by lia. rewrite Qn, Qm in *.
  destruct (blocks_lready junk p (fun x => x) HC n m _ bs s mt (e, false) [] R0 HB) as (s' & outs & E1 & O1 & _).
  exists s', outs. split; [exact E1|]. rewrite O1, window_start.
  assert (ED : Z.to_nat (DrcModel.std_round (lc_lookahead p * fs)) = d).
  { assert (X : DrcModel.std_round (lc_lookahead p * fs) = Z.of_nat d).
    { unfold DrcModel.std_round. rewrite Rltb_false by nra. unfold Int_part. rewrite <- (tech_up (lc_lookahead p * fs + / 2) (Z.of_nat d + 1)); [lia| |]; rewrite plus_IZR, <- INR_IZR_INZ; lra. }
    rewrite X. apply Nat2Z.id. }
  rewrite ED. fold (delay_frames n d (concat bs)).
  assert (LD : length (delay_frames n d (concat bs)) = length (detected mt (e, false) (concat bs))).
  { unfold delay_frames, detected. rewrite firstn_length, app_length, !scan_length. lia. }
  revert LD. generalize (detected mt (e, false) (concat bs)) as vs. generalize (delay_frames n d (concat bs)) as fr.
  induction fr as [|f fr IH]; intros [|v vs] LD; cbn in LD; try lia; [reflexivity|]. unfold apply_gains in *. cbn [map combine fst snd]. f_equal; [|apply IH; lia].
  apply map_ext. intros x. f_equal. unfold gain_of, amplitude_factor. f_equal. f_equal. ring.
Qed.
Print Assumptions C78_neutral.

(* Without lookahead, Reset starts a new stream. *)
Theorem C78_reset_partial junk kc p n m fs s0 s pre s1 o1 bs :
  verify_params (lc_curve p) = true -> 0 < ratio (soft_region (lc_curve p)) -> lc_lookahead p = 0 -> 400 < fs ->
  lc_init junk kc s0 p (Z.of_nat n) (Z.of_nat m) fs = Ok (s, true) -> Forall (block_ok n m) pre -> run (lc_process junk n) s pre = Ok (s1, o1) ->
  Forall (block_ok n m) bs ->
  exists s2 s3 o3 s4 o4, lc_reset s1 = Ok s2 /\ run (lc_process junk n) s2 bs = Ok (s3, o3) /\ run (lc_process junk n) s bs = Ok (s4, o4) /\ concat o3 = concat o4.
Proof.
  intros HV HS HL HF HI HP E0 HB. destruct (curve_total _ HV HS) as [curve HC].
  destruct (linit_inv _ _ _ _ _ _ _ _ HI) as (n' & m' & mt & e & En & Em & _ & _ & _ & _ & _ & EM & EE & _ & R0).
  assert (Qn : n' = n) by lia. assert (Qm : m' = m) by lia. rewrite Qn, Qm in *.
  assert (ED : Z.to_nat (DrcModel.std_round (lc_lookahead p * fs)) = 0%nat) by (rewrite HL, Rmult_0_l, DrcProofs.std_round_zero; reflexivity).
  rewrite ED in R0.
  destruct (blocks_lready junk p curve HC n m _ pre s mt (e, false) [] R0 HP) as (s' & outs & E1 & _ & R1). rewrite E0 in E1. injection E1 as <- <-. cbn [app] in R1.
  assert (HX : Forall (Forall (fun fr => length fr = n)) pre) by (eapply Forall_impl; [|exact HP]; intros b Hb; apply Hb).
  destruct R1 as [A1 A2 A3 A4 A5 A6 A7].
  assert (RS : exists e', env_reset (fst (fst (scan dpure (e, false) (snd (scan rstep mt (concat pre)))))) = Ok e' /\ e' = e).
  { eexists. split; [|reflexivity]. exact (reset_detector _ _ _ _ _ EE). }
  destruct RS as (e' & RS & QE).
  assert (ER : exists s2, lc_reset s1 = Ok s2 /\ lready s2 p n m mt (e, false) 0 (concat pre)).
  { unfold lc_reset. rewrite A3. rewrite (mreset_ok 0 1 Rplus Rminus Rmult Rdiv (fun v => Reqb v 0) rsum loudness_db _ _ _ _ _ _ n _ EM eq_refl (Forall_concat _ _ HX)). cbn [obind]. rewrite A5.
    destruct (fst (scan dpure (e, false) (snd (scan rstep mt (concat pre))))) as [e1 b1]. cbn [fst] in RS. rewrite RS, QE. cbn [obind]. eexists. split; [reflexivity|].
    destruct R0 as [B1 B2 B3 B4 B5 B6 B7]. constructor; cbn [lc_delay lc_par lc_dims lc_meter lc_env]; auto. }
  destruct ER as (s2 & ER & R2).
  destruct (blocks_lready junk p curve HC n m _ bs s2 _ _ _ R2 HB) as (s3 & o3 & E3 & O3 & _).
  destruct (blocks_lready junk p curve HC n m _ bs s _ _ _ R0 HB) as (s4 & o4 & E4 & O4 & _).
  exists s2, s3, o3, s4, o4. split; [exact ER|]. split; [exact E3|]. split; [exact E4|]. rewrite O3, O4. f_equal.
  unfold window. cbn [repeat app]. unfold slice. rewrite skipn_app, skipn_all, Nat.sub_diag. reflexivity.
Qed.
Print Assumptions C78_reset_partial.

(* ---- a small configuration for the findings: one channel at 1000 Hz ---- *)
Definition plain : coeffs R := {| b0 := 1; b1 := 0; b2 := 0; a0 := 1; a1 := 0; a2 := 0 |}.
Definition region (t r : R) := {| threshold := t; ratio := r; knee := 0 |}.
Definition neutral : two_way := {| expander_region := region (-80) 1; upwards_region := region (-60) 1; soft_region := region (-20) 1; hard_region := region (-10) 1 |}.
Definition small (curve : two_way) (av : coeffs R) (look : R) : lc_params :=
  {| lc_in_db := 0; lc_out_db := 0; lc_weights := [1]; lc_averaging := av; lc_curve := curve; lc_attack := 1; lc_release := 1; lc_lookahead := look |}.
Lemma small_init junk curve av look s0 m : a0 av <> 0 -> 0 <= look -> (0 < m)%Z ->
  exists s, lc_init junk (fun _ => [plain]) s0 (small curve av look) 1 m 1000 = Ok (s, true).
Proof. intros HA HL HM. apply C78_init; cbn; try lra; try lia; [discriminate|]. repeat constructor; cbn; lra. Qed.
Lemma neutral_ok : verify_params neutral = true.
Proof. unfold verify_params, neutral. cbn. repeat (rewrite Rltb_false by lra). reflexivity. Qed.

(* Reset keeps the samples in the lookahead: the next stream starts with the end of the previous one. *)
Theorem C78_reset_refuted junk : exists p s s1 o1 s2 s3 o3 s4 o4,
  verify_params (lc_curve p) = true /\ lc_init junk (fun _ => [plain]) (lc_new p) p 1 1 1000 = Ok (s, true) /\
  lc_process junk 1 s [[1]] = Ok (s1, o1) /\ lc_reset s1 = Ok s2 /\
  lc_process junk 1 s2 [[0]] = Ok (s3, o3) /\ lc_process junk 1 s [[0]] = Ok (s4, o4) /\ o3 <> o4.
Proof.
  set (p := small neutral plain (1 / 1000)). destruct (small_init junk neutral plain (1 / 1000) (lc_new p) 1) as [s HI]; [cbn; lra|lra|lia|]. fold p in HI.
  destruct (linit_inv junk (fun _ => [plain]) (lc_new p) p 1 1 1000 s HI) as (n & m & mt & e & En & Em & _ & _ & _ & _ & _ & EM & EE & _ & R0).
  assert (Qn : n = 1%nat) by lia. assert (Qm : m = 1%nat) by lia. rewrite Qn, Qm in *.
  assert (ED : DrcModel.std_round (lc_lookahead p * 1000) = 1%Z).
  { unfold DrcModel.std_round. cbn [lc_lookahead p small]. rewrite Rltb_false by lra. unfold Int_part. rewrite <- (tech_up (1 / 1000 * 1000 + / 2) 2); [lia| |]; lra. }
  rewrite ED in R0. change (Z.to_nat 1) with 1%nat in R0.
  destruct (curve_total neutral neutral_ok ltac:(cbn; lra)) as [c HC].
  assert (B1 : forall x, block_ok 1 1 [[x]]) by (intros x; split; [cbn; lia|repeat constructor]).
  destruct (process_ok junk p c HC s 1 1 mt (e, false) 1 [] [[1]] R0 (B1 1)) as (s1 & E1 & R1).
  destruct (process_ok junk p c HC s 1 1 mt (e, false) 1 [] [[0]] R0 (B1 0)) as (s4 & E4 & _).
  assert (ER : exists s2, lc_reset s1 = Ok s2 /\ lready s2 p 1 1 mt (e, false) 1 [[1]]).
  { pose proof R1 as R1'. destruct R1' as [A1 A2 A3 A4 A5 A6 A7]. unfold lc_reset. rewrite A3.
    rewrite (mreset_ok 0 1 Rplus Rminus Rmult Rdiv (fun v => Reqb v 0) rsum loudness_db _ _ _ _ _ _ 1%nat _ EM eq_refl) by (repeat constructor). cbn [obind]. rewrite A5.
    pose proof (reset_detector _ _ _ _ (snd (scan (mstep 0 Rplus Rminus Rmult rsum loudness_db) mt [[1]])) EE) as RS.
    destruct (fst (scan dpure (e, false) (snd (scan (mstep 0 Rplus Rminus Rmult rsum loudness_db) mt [[1]])))) as [e1 b1]. cbn [fst] in RS. rewrite RS. cbn [obind]. eexists. split; [reflexivity|].
    destruct R0 as [C1 C2 C3 C4 C5 C6 C7]. constructor; cbn [lc_delay lc_par lc_dims lc_meter lc_env]; auto. }
  destruct ER as (s2 & ER & R2).
  destruct (process_ok junk p c HC s2 1 1 mt (e, false) 1 [[1]] [[0]] R2 (B1 0)) as (s3 & E3 & _).
  exists p, s, s1. eexists. exists s2, s3. eexists. exists s4. eexists.
  split; [exact neutral_ok|]. split; [exact HI|]. split; [exact E1|]. split; [exact ER|]. split; [exact E3|]. split; [exact E4|].
  unfold detected. cbn [scan snd map window slice length repeat app skipn firstn apply_gains combine fst]. unfold apply_gains, window, slice. cbn [length repeat app skipn firstn combine map fst snd].
  intros X. injection X as X. unfold gain_of in X. match type of X with 1 * ?g = 0 * ?g => assert (0 < g) by apply exp_pos; lra end.
Qed.
Print Assumptions C78_reset_refuted.

(* Init does not check the curve: with parameters that the curve itself refuses Init returns true, and then
   every block aborts. *)
Theorem C78_curve_unchecked_refuted junk : exists p s, verify_params (lc_curve p) = false /\
  lc_init junk (fun _ => [plain]) (lc_new p) p 1 8 1000 = Ok (s, true) /\ forall b, block_ok 1 8 b -> lc_process junk 1 s b = CheckFail.
Proof.
  set (p := small {| expander_region := region 0 1; upwards_region := region (-60) 1; soft_region := region (-20) 1; hard_region := region (-10) 1 |} plain 0).
  destruct (small_init junk (lc_curve p) plain 0 (lc_new p) 8) as [s HI]; [cbn; lra|lra|lia|]. exists p, s.
  assert (HV : verify_params (lc_curve p) = false) by (unfold verify_params; cbn; rewrite Rltb_true by lra; reflexivity).
  split; [exact HV|]. split; [exact HI|]. intros b HB.
  destruct (linit_inv junk (fun _ => [plain]) (lc_new p) p 1 8 1000 s HI) as (n & m & mt & e & En & Em & _ & _ & _ & _ & _ & _ & _ & _ & R0).
  assert (Qn : n = 1%nat) by lia. assert (Qm : m = 8%nat) by lia. rewrite Qn, Qm in *. exact (unchecked junk p 1 8 mt _ _ _ s b HV R0 HB).
Qed.
Print Assumptions C78_curve_unchecked_refuted.

(* A second order averaging filter, which the documentation allows, can give a negative averaged power.  From
   then on the gain never moves again, however loud the input: it is the gain for -120 dB. *)
Definition ringing : coeffs R := {| b0 := 1 / 2; b1 := 0; b2 := 0; a0 := 1; a1 := -1; a2 := 1 / 2 |}.
Definition squeeze : two_way := {| expander_region := region (-80) 1; upwards_region := region (-60) 2; soft_region := region (-20) 2; hard_region := region (-10) 4 |}.
Theorem C78_negative_power_refuted junk : exists p s s1 o1 g,
  verify_params (lc_curve p) = true /\ lc_averaging p = ringing /\ lc_init junk (fun _ => [plain]) (lc_new p) p 1 5 1000 = Ok (s, true) /\
  lc_process junk 1 s [[1]; [0]; [0]; [0]; [0]] = Ok (s1, o1) /\
  forall bs, Forall (block_ok 1 5) bs -> exists s2 outs, run (lc_process junk 1) s1 bs = Ok (s2, outs) /\ concat outs = map (map (fun x => x * g)) (concat bs).
Proof.
  set (p := small squeeze ringing 0). destruct (small_init junk squeeze ringing 0 (lc_new p) 5) as [s HI]; [cbn; lra|lra|lia|]. fold p in HI.
  assert (HV : verify_params squeeze = true) by (unfold verify_params, squeeze; cbn; repeat (rewrite Rltb_false by lra); reflexivity).
  destruct (linit_inv junk (fun _ => [plain]) (lc_new p) p 1 5 1000 s HI) as (n & m & mt & e & En & Em & _ & _ & _ & _ & _ & EM & _ & _ & R0).
  assert (Qn : n = 1%nat) by lia. assert (Qm : m = 5%nat) by lia. rewrite Qn, Qm in *.
  cbn [lc_lookahead p small] in R0. rewrite Rmult_0_l, DrcProofs.std_round_zero in R0. change (Z.to_nat 0) with 0%nat in R0.
  destruct (curve_total squeeze HV ltac:(cbn; lra)) as [c HC].
  set (b := [[1]; [0]; [0]; [0]; [0]]) in *.
  assert (HB : block_ok 1 5 b) by (split; [cbn; lia|repeat constructor]).
  destruct (process_ok junk p c HC s 1 5 mt (e, false) 0 [] b R0 HB) as (s1 & E1 & R1).
  destruct (meter_formula (lc_meter (lc_new p)) (lc_weights p) (lc_averaging p) 1 [plain] mt 1 b EM eq_refl (proj2 HB)) as (y & pw & F1 & F2 & F3).
  assert (Ey : y = b).
  { apply (filtered_unique 1 [plain] b); [repeat constructor; cbn; lra|exact F1|].
    split; [reflexivity|]. split; [repeat constructor|]. intros [|i] Hi; [|lia]. exists (channel 0 0 b). split; [|reflexivity]. unfold b, filters. cbn. repeat split; ring. }
  assert (Ep : pw = [1 / 2; 1 / 2; 1 / 4; 0; - (1 / 8)]).
  { rewrite Ey in F2. refine (difference_unique 0 1 Rplus Rmult Rminus Ropp Rdiv Rinv Rfield ringing _ _ 0 0 0 0 _ _ F2 _); [cbn; lra|]. unfold b, filters. cbn. repeat split; lra. }
  assert (HN : In NotANumber (snd (scan (mstep 0 Rplus Rminus Rmult rsum loudness_db) mt b))).
  { rewrite F3, Ep. cbn [map In]. do 4 right. left. unfold loudness_db. rewrite Rltb_false by lra. rewrite Rltb_true by lra. reflexivity. }
  pose proof (detect_poisoned _ (e, false) HN) as HP.
  exists p, s, s1. eexists. exists (gain_of p c (1 / 10 ^ 12)). split; [exact HV|]. split; [reflexivity|]. split; [exact HI|]. split; [exact E1|].
  intros bs HBs. destruct (blocks_lready junk p c HC 1 5 0 bs s1 _ _ _ R1 HBs) as (s2 & outs & E2 & O2 & _). exists s2, outs. split; [exact E2|]. rewrite O2.
  destruct (fst (scan dpure (e, false) (snd (scan (mstep 0 Rplus Rminus Rmult rsum loudness_db) mt b)))) as [e1 f1]. cbn [snd] in HP. rewrite HP. unfold detected. rewrite detect_stuck, scan_length.
  unfold window. cbn [repeat app]. unfold slice. rewrite skipn_app, skipn_all, Nat.sub_diag. cbn [app skipn]. rewrite firstn_all.
  generalize (concat bs) as fr. induction fr as [|f fr IH]; [reflexivity|]. unfold apply_gains in *. cbn [length repeat map combine fst snd]. f_equal. exact IH.
Qed.
Print Assumptions C78_negative_power_refuted.

(* One channel, ratio 2 above -20 dB.  The first sample gets the gain for its smoothed power. *)
Example C78_case : exists s curve s' c a, 0 < c < 1 /\ 0 < a < 1 /\ curve (-16) = -18 /\
  lc_init (fun _ => []) (fun _ => [plain]) (lc_new (small squeeze (first_order_lowpass (1 / 10) 1000) 0)) (small squeeze (first_order_lowpass (1 / 10) 1000) 0) 1 4 1000 = Ok (s, true) /\
  run (lc_process (fun _ => []) 1) s [[[5]]] = Ok (s', [[[5 * loudness_gain curve 0 0 (a * (c * 25))]]]).
Proof.
  set (p := small squeeze (first_order_lowpass (1 / 10) 1000) 0).
  assert (HV : verify_params squeeze = true) by (unfold verify_params, squeeze; cbn; repeat (rewrite Rltb_false by lra); reflexivity).
  destruct (small_init (fun _ => []) squeeze (first_order_lowpass (1 / 10) 1000) 0 (lc_new p) 4) as [s HI]; [cbn; lra|lra|lia|]. fold p in HI.
  set (curve := five_regions (-80) (-60) (-20) (-10) 1 2 2 4).
  assert (HC : forall x, two_way_compressor squeeze x = Ok (curve x)) by (apply (C78_five_regions p HV); cbn; lra).
  assert (HS : forall t, 0 < t -> 0 < smoothing_factor t 1000 < 1).
  { intros t Ht. destruct (LoudnessProofs2.first_order_stable t 1000 ltac:(lra)) as [_ Hc]. unfold first_order_coefficient in Hc. unfold smoothing_factor. replace (- / (t * 1000)) with (-1 / (t * 1000)) by (field; lra). exact Hc. }
  destruct (C78_output (fun _ => []) (fun _ => [plain]) p (1 / 10) 1 4 1000 0 curve [[[5]]] (lc_new p) s) as (s' & outs & y & E & F & O);
    try exact HV; try exact HC; try exact HI; try reflexivity; try (cbn; lra).
  { repeat constructor; lra. } { constructor; [split; [cbn; lia|repeat constructor]|constructor]. }
  exists s, curve, s', (smoothing_factor (1 / 10) 1000), (smoothing_factor 1 1000). split; [apply HS; lra|]. split; [apply HS; lra|].
  split; [unfold curve, five_regions; repeat (destruct (Rle_dec _ _); try lra)|]. split; [exact HI|].
  assert (Ey : y = [[5]]).
  { apply (filtered_unique 1 [plain] [[5]]); [repeat constructor; cbn; lra|exact F|].
    split; [reflexivity|]. split; [repeat constructor|]. intros [|i] Hi; [|lia]. exists [5]. split; [|reflexivity]. unfold filters. cbn. repeat split; ring. }
  cbn [run] in E. destruct (lc_process (fun _ => []) 1 s [[5]]) as [[s2 o2]| |] eqn:EP; cbn [obind fst snd] in E; try discriminate. injection E as E1 E2.
  cbn [run]. rewrite EP. cbn [obind fst snd]. rewrite E1. rewrite <- E2 in O. cbn [concat] in O. rewrite app_nil_r in O. rewrite O, Ey.
  cbn [lc_weights lc_attack lc_release lc_in_db lc_out_db p small map weighted_power exponential_average follower delay_frames repeat app concat length firstn].
  unfold delay_frames. cbn [repeat app concat length firstn]. unfold apply_gains. cbn [combine map fst snd]. do 8 f_equal.
  destruct (HS (1 / 10) ltac:(lra)) as [P1 P2]. rewrite Rabs_right by nra. destruct (Rlt_dec _ _) as [Y|N]; [ring|exfalso; apply N; nra].
Qed.
