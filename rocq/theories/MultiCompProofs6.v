From Verif Require Import Common ListLemmas NthLemmas Mealy RealUtil BiquadModel CascadeModel PoleZeroModel LadderModel LadderSpec FixedDelayLineModel FixedDelayLineProofs EnvelopeModel EnvelopeSpec EnvelopeProofs DrcCurveModel DrcCurveSpec DrcModel DrcSpec DrcProofs DrcProps
  MultiCrossModel MultiCrossSpec MultiCrossProofs MultiCrossProofs2 MultiCrossProofs3 MultiCrossProofs4 MultiCrossProofs5 MultiCompModel MultiCompSpec MultiCompProofs MultiCompProofs2 MultiCompProofs3 MultiCompProofs4 MultiCompProofs5.
Local Open Scope R_scope.

Lemma proj_init_inv k n m fs a b : proj k (MInit n m fs :: a) b -> exists b', b = Init n m fs :: b' /\ proj k a b'.
Proof. inversion 1; subst. eauto. Qed.
Lemma proj_nil_inv k b : proj k [] b -> b = [].
Proof. inversion 1. reflexivity. Qed.
Lemma proj_reset_inv k a b : proj k (MReset :: a) b -> exists b', b = ResetDrc :: b' /\ proj k a b'.
Proof. inversion 1; subst. eauto. Qed.
Lemma proj_single k n m fs b : proj k [MInit n m fs] b -> b = [Init n m fs].
Proof. intros H. apply proj_init_inv in H as (b' & -> & H). apply proj_nil_inv in H. now rewrite H. Qed.

Section Reset.
Variable eps : R.
Variables (smoothing : coeffs R) (samples_max : nat).
Variable junk : nat -> nat -> list R.
Notation mb_step := (mb_step eps smoothing samples_max junk).
Notation mb_session := (mb_session eps smoothing samples_max junk).

Lemma keeps_no_minit ops : keeps_bank ops -> no_minit ops.
Proof. unfold keeps_bank, no_minit. induction 1 as [|o ops H _ IH]; constructor; [|exact IH]. now destruct o. Qed.
Lemma fed_self s0 s : fed_splitter s0 s -> fed_splitter s0 s0.
Proof.
  intros (A1 & A2 & A3 & A4 & H & L & A & E1 & E2). assert (G : forall l l', Forall2 (Forall2 fed_only) l l' -> Forall2 (Forall2 fed_only) l l).
  { induction 1 as [|c c' l l' Q _ IH]; constructor; [|exact IH]. clear IH. induction Q as [|f f' c c' Q _ IH]; constructor; [|exact IH]. split; [apply Q|apply like_refl]. }
  repeat split; auto; eapply G; eassumption.
Qed.
Lemma keeps_fed s0 : forall ops c c' o s, keeps_bank ops -> mb_splitter c = Some s -> fed_splitter s0 s -> run mb_step c ops = Ok (c', o) -> exists s', mb_splitter c' = Some s' /\ fed_splitter s0 s'.
Proof.
  induction ops as [|op ops IH]; intros c c' o s K SP F E; cbn [run] in E; [injection E as <- _; eauto|]. apply obind_inv in E as ([c1 o1] & E1 & E). apply obind_inv in E as ([c2 o2] & E2 & E). injection E as <- _. cbn [fst] in *.
  assert (G : exists s1, mb_splitter c1 = Some s1 /\ fed_splitter s0 s1); [|destruct G as (s1 & G1 & G2); exact (IH _ _ _ s1 (Forall_inv_tail K) G1 G2 E2)]. clear IH E2.
  pose proof (Forall_inv K) as KO. destruct op; cbn [MultiCompModel.mb_step] in E1; try contradiction.
  - unfold omap in E1. apply obind_inv in E1 as (q & E1 & Q). injection Q as <- _. unfold mb_reset in E1. rewrite SP in E1. apply obind_inv in E1 as (s1 & E3 & E1). apply obind_inv in E1 as (? & _ & E1). injection E1 as <-. exists s1. split; [reflexivity|]. rewrite (fed_reset _ _ F) in E3. injection E3 as <-. now apply (fed_self s0 s).
  - unfold omap in E1. apply obind_inv in E1 as (q & E1 & Q). injection Q as <- _. unfold mb_set_drc in E1. apply ocheck_ok in E1 as [_ E1]. apply ocheck_ok in E1 as [_ E1]. destruct (nth_error _ _); [|discriminate]. apply obind_inv in E1 as (? & _ & E1). injection E1 as <-. eauto.
  - unfold mb_process in E1. rewrite SP in E1. apply obind_inv in E1 as ([s1 y] & E3 & E1). apply obind_inv in E1 as (? & _ & E1). injection E1 as <- _. cbn [with_parts mb_splitter fst]. exists s1. split; [reflexivity|]. eapply fed_block; eassumption.
Qed.
(* Init takes the frequencies of the constructor *)
Lemma init_forgets p ops n m fs c outs : complete p -> mb_session p (ops ++ [MInit n m fs]) = Ok (c, outs) ->
  exists s, splitter_init eps smoothing (mp_type p) (mp_order p) (mp_bands p) n fs (mp_freqs p) = Ok s /\ mb_splitter c = Some s.
Proof.
  intros CP E. unfold MultiCompModel.mb_session in E. apply obind_inv in E as (c0 & E0 & E). destruct (make_parts _ _ E0) as (A1 & A2 & A3 & A4 & A5 & A6 & A7). assert (W0 : well_sized c0) by (split; [rewrite A1, A6; exact CP|now rewrite A5]).
  apply run_cat in E as (c1 & o1 & o2 & E1 & E2 & _). destruct (run_project eps smoothing samples_max junk _ _ _ _ W0 E1) as (_ & (B1 & B2 & B3 & B4 & _) & _).
  cbn [run MultiCompModel.mb_step] in E2. unfold omap in E2. apply obind_inv in E2 as ([c2 o3] & E2 & Q). apply obind_inv in E2 as (c3 & E2 & Q2). injection Q2 as <- <-. cbn [obind fst] in Q. injection Q as <- _.
  unfold mb_init in E2. apply obind_inv in E2 as (s & ES & E2). apply obind_inv in E2 as (ds & _ & E2). injection E2 as <-. exists s. split; [|reflexivity]. rewrite B1, B2, B3, B4, A1, A2, A3, A4 in ES. exact ES.
Qed.
Lemma reset_new p before n m fs ops q c outs bs c2 o2 : complete p -> Forall (fun r => lookahead_s r = 0) (mp_drc p) -> keeps_bank ops -> length q = length (mp_drc p) ->
  (forall b, (b < length q)%nat -> last_given b ops = Some (nth b q default_params)) ->
  mb_session p (before ++ MInit n m fs :: ops ++ [MReset]) = Ok (c, outs) ->
  mb_session (with_drc p q) (MInit n m fs :: map MProcess bs) = Ok (c2, o2) ->
  exists c1 o1, run mb_step c (map MProcess bs) = Ok (c1, o1) /\ concat o1 = concat o2.
Proof.
  intros CP LA KB LQ LG E E2.
  (* the state after Reset *)
  destruct (session_project eps smoothing samples_max junk p _ c outs CP E) as (c0 & E0 & RO & W0 & (WB & W) & SU & PR). destruct (make_parts _ _ E0) as (_ & _ & _ & _ & _ & L0 & _). destruct SU as (_ & _ & _ & _ & SL). assert (ND : length (mb_drc c) = length (mp_drc p)) by lia.
  change (before ++ MInit n m fs :: ops ++ [MReset]) with (before ++ [MInit n m fs] ++ ops ++ [MReset]) in RO. rewrite app_assoc in RO. apply run_cat in RO as (ca & oa & ob & RA & RO & _). apply run_cat in RO as (cb & oc & od & RB & RC & _).
  destruct (init_forgets p before n m fs ca oa CP) as (s0 & ES & SP); [unfold MultiCompModel.mb_session; rewrite E0; exact RA|].
  pose proof (splitter_parts _ _ _ _ _ _ _ _ _ ES) as (_ & _ & _ & _ & _ & _ & _ & _ & _ & _ & F0). destruct (keeps_fed s0 ops ca cb oc s0 KB SP F0 RB) as (s1 & SP1 & F1).
  cbn [run MultiCompModel.mb_step] in RC. unfold omap in RC. apply obind_inv in RC as ([cc oe] & RC & Q). apply obind_inv in RC as (cr & RC & Q2). injection Q2 as <- <-. cbn [obind fst] in Q. injection Q as <- _. unfold mb_reset in RC. rewrite SP1, (fed_reset _ _ F1) in RC. cbn [obind] in RC. apply obind_inv in RC as (dsr & ER & RC).
  assert (SPC : mb_splitter cr = Some s0) by (injection RC as <-; reflexivity). clear RC ER dsr RA RB.
  (* a new compressor *)
  assert (CPQ : complete (with_drc p q)) by (unfold complete, with_drc in *; cbn [mp_bands mp_drc]; now rewrite LQ).
  unfold MultiCompModel.mb_session in E2. apply obind_inv in E2 as (f0 & EF0 & E2). cbn [run] in E2. apply obind_inv in E2 as ([f1 oi] & EF1 & E2). apply obind_inv in E2 as ([f2 og] & EF2 & E2). injection E2 as <- <-. cbn [fst snd] in *.
  assert (SF : mb_session (with_drc p q) [MInit n m fs] = Ok (f1, [oi])) by (unfold MultiCompModel.mb_session; rewrite EF0; cbn [obind run]; rewrite EF1; reflexivity).
  destruct (session_project eps smoothing samples_max junk _ _ f1 [oi] CPQ SF) as (f0' & EF0' & RF & WF0 & (WFB & WF) & SUF & PF). rewrite EF0 in EF0'. injection EF0' as <-. destruct (make_parts _ _ EF0) as (_ & _ & _ & _ & _ & LF0 & _). destruct SUF as (_ & _ & _ & _ & SLF). cbn [mp_drc with_drc] in *.
  destruct (init_forgets (with_drc p q) [] n m fs f1 [oi] CPQ SF) as (s0' & ES' & SPF). cbn [with_drc mp_type mp_order mp_bands mp_freqs] in ES'. rewrite ES in ES'. injection ES' as <-.
  assert (OI : oi = []) by (cbn [MultiCompModel.mb_step] in EF1; unfold omap in EF1; apply obind_inv in EF1 as (? & _ & EF1); injection EF1 as _ <-; reflexivity). rewrite OI. cbn [concat app].
  rewrite <- (parts_same cr s0 SPC). rewrite <- (parts_same f1 s0 SPF) in EF2. rewrite SPF in WF.
  assert (NF : length (mb_drc f1) = length (mp_drc p)) by lia. rewrite NF in WF.
  assert (LB : Forall (fun b => (1 <= length b <= m)%nat) bs). { apply (blocks_inv eps smoothing samples_max junk (length (mp_drc p)) n m f1 s0 (mb_drc f1) bs f2 og WF NF); [|exact EF2].
  { intros k Hk. destruct (PF k ltac:(lia)) as (dops & o & P1 & P2). apply proj_single in P1. rewrite P1 in P2. destruct (band_state _ _ [] _ _ _ [] _ _ P2) as (A & B & D & _); [constructor|]. auto. } }
  assert (G : exists c1 o1, run mb_step (with_parts cr s0 (mb_drc cr)) (map MProcess bs) = Ok (c1, o1) /\ concat og = concat o1); [|destruct G as (c1 & o1 & G1 & G2); eauto].
  eapply (agree eps smoothing samples_max junk (length (mp_drc p)) n m f1 s0 (mb_drc f1) cr (mb_drc cr) bs bs); [exact WF|exact NF|exact ND| | |exact EF2|exact LB|reflexivity].
  - intros k Hk. destruct (PF k ltac:(lia)) as (dops & o & P1 & P2). apply proj_single in P1. rewrite P1 in P2. destruct (band_state _ _ [] _ _ _ [] _ _ P2) as (A & B & D & _); [constructor|]. split; [exact A|]. split; [exact B|]. split; [exact D|].
    destruct (PR k Hk) as (dops2 & o2 & P5 & P6). unfold drc_session in P6. apply obind_inv in P6 as (z & Z1 & Z2). eapply run_sound; [|exact Z2]. apply (make_sound _ _ Z1).
  - intros k l l' Hk VL VL' EL.
    destruct (PF k ltac:(lia)) as (dops & o & P1 & P2). apply proj_single in P1. rewrite P1 in P2.
    destruct (band_state _ _ [] _ _ _ [] _ _ P2) as (A & B & D & _ & RD); [constructor|]. destruct (settled_band junk k _ _ _ _ n m P2 A B D RD eq_refl l l' VL VL' EL) as (e1 & r1 & e2 & r2 & R1 & R2 & R3).
    destruct (PR k Hk) as (dops2 & o2 & P5 & P6). apply proj_cat in P5 as (b1 & b2 & -> & Q1 & Q2). apply proj_init_inv in Q2 as (b2' & -> & Q2). apply proj_cat in Q2 as (b3 & b4 & -> & Q3 & Q4). apply proj_reset_inv in Q4 as (b5 & -> & Q4). apply proj_nil_inv in Q4. rewrite Q4 in P6.
    assert (LK : lookahead_s (nth k (mp_drc p) default_params) = 0) by (rewrite Forall_forall in LA; apply LA, nth_In; exact Hk).
    destruct (C31_reset_partial (junk k) _ b1 n m fs b3 (nth k q default_params) _ _ (map (fun x => (x, x)) l') LK (proj_no_init k _ _ Q3 (keeps_no_minit _ KB)) ltac:(rewrite (proj_last k _ _ Q3); apply LG; lia) P6 (valid_twice _ _ _ VL')) as (t1 & u1 & t2 & u2 & T1 & T2 & T3).
    unfold drc_session in T2, P2. apply obind_inv in T2 as (z & Z1 & T2). rewrite Z1 in P2. cbn [obind run] in P2, T2. destruct (drc_step (junk k) z (Init n m fs)) as [[z1 z2]| |] eqn:EZ; try discriminate. cbn [obind fst snd] in P2, T2. injection P2 as P2 _. rewrite P2 in T2. apply obind_inv in T2 as ([z3 z4] & T2 & Q). rewrite R2 in T2. injection T2 as <- <-. injection Q as <- <-.
    exists e1, r1, t1, u1. split; [exact R1|]. split; [exact T1|]. rewrite R3, T3. cbn [drc_step] in EZ. unfold omap in EZ. apply obind_inv in EZ as (? & _ & EZ). injection EZ as _ <-. reflexivity.
Qed.
End Reset.
