From Verif Require Import Common ListLemmas NthLemmas Mealy RealUtil BiquadModel CascadeModel PoleZeroModel LadderModel LadderSpec FixedDelayLineModel FixedDelayLineProofs EnvelopeModel EnvelopeSpec EnvelopeProofs DrcCurveModel DrcModel DrcSpec DrcProofs DrcProps
  MultiCrossModel MultiCrossSpec MultiCrossProofs MultiCrossProofs2 MultiCrossProofs3 MultiCrossProofs4 MultiCrossProofs5 MultiCompModel MultiCompSpec MultiCompProofs MultiCompProofs2 MultiCompProofs3.
Local Open Scope R_scope.

Lemma fresh_band junk p n m fs d : valid_params fs p d -> (0 < n)%nat -> (0 < m)%nat -> 400 < fs ->
  exists s0 s1, drc_make p = Ok s0 /\ drc_init junk s0 n m fs = Ok s1 /\ sound s1 /\ forall l, Forall (valid_frames n m) l ->
    exists e o, run (drc_step junk) s1 (process_all (map (fun x => (x, x)) l)) = Ok (e, o) /\ concat o = documented_output p fs n d (concat l) (concat l).
Proof.
  intros (K & R & A & B & L0 & L) N M F. destruct (initialised junk p n m fs d K R A B N M F L0 L) as (s & e & E & _). unfold drc_session in E. apply obind_inv in E as (s0 & E0 & E). cbn [run drc_step] in E. unfold omap in E. apply obind_inv in E as ([s1 o1] & E1 & E). apply obind_inv in E1 as (s1' & E1 & Q). injection Q as <- <-. cbn [obind fst snd] in E. injection E as <-.
  exists s0, s1'. split; [exact E0|]. split; [exact E1|]. split.
  - destruct (make_sound p s0 E0) as (S0 & _). apply (step_sound junk s0 (Init n m fs) s1' []); [exact S0|]. cbn [drc_step]. rewrite E1. reflexivity.
  - intros l V. destruct (C31_output junk p n m fs d (map (fun x => (x, x)) l) K R A B N M F L0 L (valid_twice _ _ _ V)) as (s2 & outs & E2 & O). unfold drc_session in E2. rewrite E0 in E2. cbn [obind run drc_step] in E2. rewrite E1 in E2. unfold omap in E2. cbn [obind fst snd] in E2. apply obind_inv in E2 as ([e2 o2] & E2 & Q). injection Q as <- <-. exists e2, o2. split; [exact E2|]. destruct (inputs_twice l) as [I1 I2]. rewrite I1, I2 in O. exact O.
Qed.
Lemma run_dims junk dops : forall s s' o, sound s -> no_init dops -> run (drc_step junk) s dops = Ok (s', o) -> num_channels s' = num_channels s /\ max_block s' = max_block s.
Proof.
  induction dops as [|op dops IH]; intros s s' o HS N E; cbn [run] in E; [injection E as <- _; auto|]. apply obind_inv in E as ([s1 o1] & E1 & E). apply obind_inv in E as ([s2 o2] & E2 & E). injection E as <- _. cbn [fst] in *. pose proof (step_sound junk _ _ _ _ HS E1) as HS1. destruct (IH _ _ _ HS1 (Forall_inv_tail N) E2) as [A B]. rewrite A, B. clear IH A B E2 s2 o2.
  pose proof (Forall_inv N) as NI. destruct op as [n m fs|p| |i sc]; [contradiction| | |]; cbn [drc_step] in E1.
  - unfold omap in E1. apply obind_inv in E1 as (q & E1 & Q). injection Q as <- _. unfold drc_set in E1. apply check_params_inv in E1 as (_ & _ & _ & E1). destruct (detector s); [|discriminate]. apply ocheck_ok in E1 as [_ E1]. injection E1 as <-. auto.
  - unfold omap in E1. apply obind_inv in E1 as (q & E1 & Q). injection Q as <- _. unfold drc_reset in E1. destruct (detector s); [|discriminate]. apply obind_inv in E1 as (e' & _ & E1). injection E1 as <-. auto.
  - pose proof (process_valid junk s i sc _ E1) as V. destruct HS as (_ & _ & HD). destruct (detector s) as [e|]; [|destruct V as ((V1 & V2) & _); cbn [fst] in *; lia]. destruct HD as (d & h & HR). destruct (process_ready junk s e d h i sc HR V) as (s3 & E3 & _ & N3 & M3 & _). rewrite E1 in E3. injection E3 as <- _. auto.
Qed.
Lemma follower_length al ar xs : forall y, length (follower al ar y xs) = length xs.
Proof. induction xs as [|x xs IH]; intros y; cbn [follower length]; [reflexivity|]. cbv zeta. cbn [length]. now rewrite IH. Qed.
(* the state of one controller after Init and whatever followed *)
Lemma band_state junk p b1 n m fs b2 s o : drc_session junk p (b1 ++ Init n m fs :: b2) = Ok (s, o) -> no_init b2 ->
  sound s /\ num_channels s = n /\ max_block s = m /\ (0 < m)%nat /\ exists e d h, ready s e d h.
Proof.
  intros E N. unfold drc_session in E. apply obind_inv in E as (s0 & E0 & E). destruct (make_sound p s0 E0) as (S0 & _). apply run_cat in E as (s1 & o1 & o2 & E1 & E2 & _). pose proof (run_sound junk _ _ _ _ S0 E1) as S1. cbn [run] in E2. apply obind_inv in E2 as ([s2 o3] & E2 & E3). apply obind_inv in E3 as ([s3 o4] & E3 & Q). injection Q as <- _. cbn [fst snd] in *.
  pose proof (step_sound junk _ _ _ _ S1 E2) as S2. pose proof (run_sound junk _ _ _ _ S2 E3) as S3. destruct (run_dims junk _ _ _ _ S2 N E3) as [D1 D2]. cbn [drc_step] in E2. unfold omap in E2. apply obind_inv in E2 as (q & E2 & Q). injection Q as <- _. destruct S1 as (P1 & P2 & _). destruct (init_ready junk s1 n m fs q P1 P2 E2) as (_ & _ & D3 & D4 & _).
  assert (M : (0 < m)%nat) by (unfold drc_init in E2; do 2 apply ocheck_ok in E2 as [? E2]; lia).
  split; [exact S3|]. split; [lia|]. split; [lia|]. split; [exact M|]. destruct S3 as (_ & _ & HD). destruct (detector s3) as [e|]; [|lia]. destruct HD as (d & h & HR). eauto.
Qed.

Section Theorems.
Variable eps : R.
Variables (smoothing : coeffs R) (samples_max : nat).
Variable junk : nat -> nat -> list R.
Notation mb_step := (mb_step eps smoothing samples_max junk).
Notation mb_session := (mb_session eps smoothing samples_max junk).

Lemma blocks_frames n m bs : Forall (valid_frames n m) bs -> frames_of n (concat bs) /\ Forall (fun b => (1 <= length b <= m)%nat) bs.
Proof. induction 1 as [|b bs [H1 H2] _ [A B]]; cbn [concat]; [split; constructor|]. split; [apply Forall_app; auto|constructor; auto]. Qed.
Lemma start p n m fs s ds : complete p -> splitter_init eps smoothing (mp_type p) (mp_order p) (mp_bands p) n fs (mp_freqs p) = Ok s -> (0 < n)%nat -> (0 < m)%nat -> 400 < fs ->
  (forall b, (b < length (mp_drc p))%nat -> valid_params fs (nth b (mp_drc p) default_params) (nth b ds 0%nat)) ->
  exists c0 cs, mb_make p = Ok c0 /\ mb_step c0 (MInit n m fs) = Ok (with_parts c0 s cs, []) /\ length cs = length (mp_drc p) /\ shaped (length (mp_drc p)) s /\
    forall k, (k < length (mp_drc p))%nat -> sound (nth k cs no_drc) /\ forall l, Forall (valid_frames n m) l ->
      exists e o, run (drc_step (junk k)) (nth k cs no_drc) (process_all (map (fun x => (x, x)) l)) = Ok (e, o) /\ concat o = documented_output (nth k (mp_drc p) default_params) fs n (nth k ds 0%nat) (concat l) (concat l).
Proof.
  intros CP ES N M F V.
  destruct (choose (fun k ss => drc_make (nth k (mp_drc p) default_params) = Ok (fst ss) /\ drc_init (junk k) (fst ss) n m fs = Ok (snd ss) /\ sound (snd ss) /\ forall l, Forall (valid_frames n m) l ->
      exists e o, run (drc_step (junk k)) (snd ss) (process_all (map (fun x => (x, x)) l)) = Ok (e, o) /\ concat o = documented_output (nth k (mp_drc p) default_params) fs n (nth k ds 0%nat) (concat l) (concat l)) (no_drc, no_drc) (length (mp_drc p))) as (ss & LS & HS).
  { intros k Hk. destruct (fresh_band (junk k) _ n m fs _ (V k Hk) N M F) as (s0 & s1 & A & B & D & G). exists (s0, s1). auto. }
  assert (SH : shaped (length (mp_drc p)) s) by (unfold complete in CP; rewrite CP in ES; eapply init_shaped; exact ES).
  assert (EM : traverse drc_make (mp_drc p) = Ok (map fst ss)).
  { apply traverse_spec. apply Forall2_of_nth with (da := default_params) (db := no_drc); [now rewrite map_length|]. intros j Hj. rewrite (nth_map_in fst ss j (no_drc, no_drc) no_drc) by lia. apply (HS j Hj). }
  assert (EI : init_drcs junk 0 (map fst ss) n m fs = Ok (map snd ss)).
  { apply init_drcs_ok; [now rewrite !map_length|]. intros k Hk. rewrite map_length in Hk. rewrite (nth_map_in fst ss k (no_drc, no_drc) no_drc), (nth_map_in snd ss k (no_drc, no_drc) no_drc) by lia. cbn [Nat.add]. apply (HS k). lia. }
  eexists _, (map snd ss). split; [unfold mb_make; rewrite EM; assert (Q : (1 <? mp_bands p)%Z = true) by (unfold complete in CP; destruct SH; lia); rewrite Q; cbn [ocheck obind]; reflexivity|].
  split; [cbn [MultiCompModel.mb_step]; unfold mb_init; cbn [mb_type mb_order mb_bands mb_freqs mb_drc]; rewrite ES; cbn [obind]; rewrite EI; reflexivity|]. split; [now rewrite map_length|]. split; [exact SH|].
  intros k Hk. rewrite (nth_map_in snd ss k (no_drc, no_drc) no_drc) by lia. destruct (HS k Hk) as (_ & _ & A & B). auto.
Qed.
Lemma output p n m fs ds s bs : complete p -> splitter_init eps smoothing (mp_type p) (mp_order p) (mp_bands p) n fs (mp_freqs p) = Ok s -> reflective_bank (sp_bank s) -> (0 < n)%nat -> (0 < m)%nat -> 400 < fs ->
  (forall b, (b < length (mp_drc p))%nat -> valid_params fs (nth b (mp_drc p) default_params) (nth b ds 0%nat)) -> Forall (valid_frames n m) bs ->
  exists c outs sigs, mb_session p (MInit n m fs :: map MProcess bs) = Ok (c, [] :: outs) /\ length sigs = length (mp_drc p) /\
    (forall b, (b < length sigs)%nat -> band_signal (sp_bank s) n b (concat bs) (nth b sigs [])) /\
    is_sum n (length (concat bs)) (map (fun b => documented_output (nth b (mp_drc p) default_params) fs n (nth b ds 0%nat) (nth b sigs []) (nth b sigs [])) (seq 0 (length sigs))) (concat outs).
Proof.
  intros CP ES RB N M F V VB. destruct (start p n m fs s ds CP ES N M F V) as (c0 & cs & E0 & E1 & LC & SH & HC). destruct (blocks_frames n m bs VB) as [FB LB].
  destruct (split_ok eps smoothing _ _ _ _ _ _ s (concat bs) ES RB FB) as (s2 & y & E & LY & HY). unfold complete in CP. rewrite CP in LY. apply Nat2Z.inj in LY.
  destruct (bands_run eps smoothing samples_max junk (length (mp_drc p)) n m c0 s cs bs s2 y SH E LB LC) as (s' & ys & c' & outs & os & R1 & J & VY & LO & HO & R2 & R3).
  { intros k Hk. apply HY. lia. } { intros k Hk. apply HC. exact Hk. } { intros k l Hk Hl. destruct (HC k Hk) as [_ Q]. destruct (Q l Hl) as (e & o & Q1 & _). eauto. }
  exists c', outs, y. split; [unfold MultiCompModel.mb_session; rewrite E0; cbn [obind run]; rewrite E1; cbn [obind fst snd]; rewrite R2; reflexivity|]. split; [exact LY|].
  split; [intros b Hb; destruct (HY b Hb) as (A & B & D); unfold band_signal; auto|].
  assert (EO : map (@concat _) os = map (fun b => documented_output (nth b (mp_drc p) default_params) fs n (nth b ds 0%nat) (nth b y []) (nth b y [])) (seq 0 (length y))).
  { apply (nth_ext _ _ [] []); [rewrite !map_length, seq_length; lia|]. intros k Hk. rewrite map_length in Hk. rewrite (nth_map_in (@concat _) os k [] []) by lia. rewrite (nth_map_in _ (seq 0 (length y)) k 0%nat []) by (rewrite seq_length; lia). rewrite seq_nth by lia. cbn [Nat.add].
    destruct (HO k ltac:(lia)) as (e & Q). destruct (HC k ltac:(lia)) as [_ Q2]. destruct (Q2 _ (VY k ltac:(lia))) as (e2 & o2 & Q3 & Q4). rewrite Q in Q3. injection Q3 as _ <-. rewrite Q4, J. reflexivity. }
  rewrite R3, EO. apply mixed_is_sum; [exact FB|]. apply Forall_forall. intros o Ho. apply in_map_iff in Ho as (k & <- & Hk). apply in_seq in Hk. destruct (HY k ltac:(lia)) as (A & B & _). split; [now apply documented_frames|].
  unfold documented_output. cbv zeta. rewrite map_length, combine_length, firstn_length, app_length, repeat_length, !map_length. rewrite follower_length, map_length. lia.
Qed.
End Theorems.
