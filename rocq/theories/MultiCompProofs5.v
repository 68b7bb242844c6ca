From Verif Require Import Common ListLemmas NthLemmas Mealy RealUtil BiquadModel CascadeModel PoleZeroModel LadderModel LadderSpec FixedDelayLineModel FixedDelayLineProofs EnvelopeModel EnvelopeSpec EnvelopeProofs DrcCurveModel DrcModel DrcSpec DrcProofs DrcProps
  MultiCrossModel MultiCrossSpec MultiCrossProofs MultiCrossProofs2 MultiCrossProofs3 MultiCrossProofs4 MultiCrossProofs5 MultiCompModel MultiCompSpec MultiCompProofs MultiCompProofs2 MultiCompProofs3 MultiCompProofs4.
Local Open Scope R_scope.

Lemma run_valid junk : forall l s e o, sound s -> run (drc_step junk) s (process_all (map (fun x => (x, x)) l)) = Ok (e, o) -> Forall (valid_frames (num_channels s) (max_block s)) l.
Proof.
  induction l as [|x l IH]; intros s e o HS E; [constructor|]. cbn [map process_all run drc_step fst snd] in E. apply obind_inv in E as ([s1 o1] & E1 & E). apply obind_inv in E as ([s2 o2] & E2 & _). cbn [fst] in *.
  pose proof (process_valid junk _ _ _ _ E1) as ((V1 & V2) & _ & V3 & _). cbn [fst snd] in *. constructor; [split; [lia|exact V3]|].
  pose proof (step_sound junk s (Process x x) s1 o1 HS E1) as HS1. destruct (run_dims junk [Process x x] s s1 [o1] HS) as [D1 D2]; [repeat constructor|cbn [run drc_step]; rewrite E1; reflexivity|]. rewrite <- D1, <- D2. eapply IH; [exact HS1|exact E2].
Qed.
Section Agree.
Variable eps : R.
Variables (smoothing : coeffs R) (samples_max : nat).
Variable junk : nat -> nat -> list R.
Notation mb_step := (mb_step eps smoothing samples_max junk).
Notation mb_session := (mb_session eps smoothing samples_max junk).

Lemma run_bands_inv nb : forall ys ds ends res, length ds = nb -> Forall (fun v => length v = nb) ys -> run (process_drcs junk 0) ds ys = Ok (ends, res) ->
  forall k, (k < nb)%nat -> exists o, run (drc_step (junk k)) (nth k ds no_drc) (process_all (map (fun x => (x, x)) (map (fun v => nth k v []) ys))) = Ok (nth k ends no_drc, o).
Proof.
  induction ys as [|v ys IH]; intros ds ends res LD F E k Hk; cbn [run] in E; [injection E as <- _; exists []; reflexivity|].
  apply obind_inv in E as ([d1 r1] & E1 & E). apply obind_inv in E as ([d2 r2] & E2 & E). injection E as <- _. cbn [fst snd] in *. pose proof (Forall_inv F) as LV. cbn beta in LV. destruct (process_drcs_inv junk v 0 ds d1 r1 E1 ltac:(lia)) as (L1 & L2 & H). specialize (H k ltac:(lia)). cbn [Nat.add] in H.
  destruct (IH d1 d2 r2 ltac:(lia) (Forall_inv_tail F) E2 k Hk) as (o & R). exists (nth k r1 [] :: o). cbn [map process_all run drc_step fst snd]. rewrite H. cbn [obind fst snd]. unfold process_all in R. rewrite R. reflexivity.
Qed.
Lemma blocks_inv nb n m c s ds bs c1 o1 : shaped nb s -> length ds = nb ->
  (forall k, (k < nb)%nat -> sound (nth k ds no_drc) /\ num_channels (nth k ds no_drc) = n /\ max_block (nth k ds no_drc) = m) ->
  run mb_step (with_parts c s ds) (map MProcess bs) = Ok (c1, o1) -> Forall (fun b => (1 <= length b <= m)%nat) bs.
Proof.
  intros SH LD HD E. destruct (run_parts_inv eps smoothing samples_max junk _ _ _ _ _ _ E) as (s' & ys & ds2 & res & R1 & R2 & _ & _). destruct (run_shapes eps nb _ _ _ _ SH R1) as [_ F2].
  assert (LY : Forall (fun v => length v = nb) ys) by (clear -F2; induction F2 as [|b0 v bs0 ys [L _] _ IH]; constructor; auto).
  destruct SH as (NB & _). assert (V : Forall (valid_frames n m) (map (fun v => nth 0 v []) ys)).
  { destruct (run_bands_inv nb ys ds ds2 res LD LY R2 0%nat ltac:(lia)) as (o & Q). destruct (HD 0%nat ltac:(lia)) as (S1 & N1 & M1). rewrite <- N1, <- M1. eapply run_valid; [exact S1|exact Q]. }
  clear -F2 V NB. induction F2 as [|b0 v bs0 ys [L Q] _ IH]; constructor; [|apply IH; exact (Forall_inv_tail V)]. destruct (Forall_inv V) as [H _]. rewrite Forall_forall in Q. rewrite Q in H by (apply nth_In; lia). exact H.
Qed.
Lemma agree nb n m c s ds c' ds' bs bs' c1 o1 : shaped nb s -> length ds = nb -> length ds' = nb ->
  (forall k, (k < nb)%nat -> sound (nth k ds no_drc) /\ num_channels (nth k ds no_drc) = n /\ max_block (nth k ds no_drc) = m /\ sound (nth k ds' no_drc)) ->
  (forall k l l', (k < nb)%nat -> Forall (valid_frames n m) l -> Forall (valid_frames n m) l' -> concat l = concat l' ->
    exists e o e' o', run (drc_step (junk k)) (nth k ds no_drc) (process_all (map (fun x => (x, x)) l)) = Ok (e, o) /\
      run (drc_step (junk k)) (nth k ds' no_drc) (process_all (map (fun x => (x, x)) l')) = Ok (e', o') /\ concat o = concat o') ->
  run mb_step (with_parts c s ds) (map MProcess bs) = Ok (c1, o1) -> Forall (fun b => (1 <= length b <= m)%nat) bs' -> concat bs = concat bs' ->
  exists c2 o2, run mb_step (with_parts c' s ds') (map MProcess bs') = Ok (c2, o2) /\ concat o1 = concat o2.
Proof.
  intros SH LD LD' HD HA E LB' EC. destruct bs as [|b bs].
  - cbn [map run] in E. injection E as <- <-. destruct bs' as [|b' bs']; [cbn; eauto|]. pose proof (Forall_inv LB') as Q. cbn beta in Q. cbn [concat] in EC. symmetry in EC. apply app_eq_nil in EC as [EC _]. rewrite EC in Q. cbn in Q. lia.
  - destruct (run_parts_inv eps smoothing samples_max junk _ _ _ _ _ _ E) as (s' & ys & ds2 & res & R1 & R2 & _ & _). destruct (join_blocks eps nb _ _ _ _ _ SH R1) as (y & EJ). destruct (run_shapes eps nb _ _ _ _ SH R1) as [_ F2].
    assert (LY : Forall (fun v => length v = nb) ys) by (clear -F2; induction F2 as [|b0 v bs0 ys [L _] _ IH]; constructor; auto).
    assert (V : forall k, (k < nb)%nat -> Forall (valid_frames n m) (map (fun v => nth k v []) ys)).
    { intros k Hk. destruct (run_bands_inv nb ys ds ds2 res LD LY R2 k Hk) as (o & Q). destruct (HD k Hk) as (S1 & N1 & M1 & _). rewrite <- N1, <- M1. eapply run_valid; [exact S1|exact Q]. }
    assert (J : forall k, concat (map (fun v => nth k v []) ys) = nth k y []).
    { destruct (split_blocks eps nb _ s s' y SH EJ) as (s3 & ys3 & R3 & J). rewrite R1 in R3. injection R3 as _ <-. exact J. }
    assert (FY : forall k, (k < nb)%nat -> frames_of n (nth k y [])). { intros k Hk. rewrite <- J. apply (proj1 (blocks_frames n m _ (V k Hk))). }
    assert (LB : Forall (fun b0 => (1 <= length b0 <= m)%nat) (b :: bs)).
    { destruct SH as (NB & _). specialize (V 0%nat ltac:(lia)). clear -F2 V NB. induction F2 as [|b0 v bs0 ys [L Q] _ IH]; constructor; [|apply IH; exact (Forall_inv_tail V)]. destruct (Forall_inv V) as [H _]. rewrite Forall_forall in Q. rewrite Q in H by (apply nth_In; lia). exact H. }
    assert (HR : forall k l, (k < nb)%nat -> Forall (valid_frames n m) l -> exists e o, run (drc_step (junk k)) (nth k ds no_drc) (process_all (map (fun x => (x, x)) l)) = Ok (e, o)). { intros k l Hk Hl. destruct (HA k l l Hk Hl Hl eq_refl) as (e & o & e' & o' & Q & _). eauto. }
    assert (HR' : forall k l, (k < nb)%nat -> Forall (valid_frames n m) l -> exists e o, run (drc_step (junk k)) (nth k ds' no_drc) (process_all (map (fun x => (x, x)) l)) = Ok (e, o)). { intros k l Hk Hl. destruct (HA k l l Hk Hl Hl eq_refl) as (e & o & e' & o' & _ & Q & _). eauto. }
    destruct (bands_run eps smoothing samples_max junk nb n m c s ds (b :: bs) s' y SH EJ LB LD FY (fun k Hk => proj1 (HD k Hk)) HR) as (sa & ya & ca & oa & osa & A1 & A2 & A3 & A4 & A5 & A6 & A7).
    destruct (bands_run eps smoothing samples_max junk nb n m c' s ds' bs' s' y SH ltac:(rewrite <- EC; exact EJ) LB' LD' FY (fun k Hk => proj2 (proj2 (proj2 (HD k Hk)))) HR') as (sb & yb & cb & ob & osb & B1 & B2 & B3 & B4 & B5 & B6 & B7).
    exists cb, ob. split; [exact B6|]. rewrite E in A6. injection A6 as _ <-. rewrite A7, B7, EC. f_equal. apply (nth_ext _ _ [] []); [rewrite !map_length; lia|]. intros k Hk. rewrite map_length in Hk. rewrite !(nth_map_in (@concat _) _ k [] []) by lia.
    destruct (A5 k ltac:(lia)) as (ea & QA). destruct (B5 k ltac:(lia)) as (eb & QB). destruct (HA k _ _ ltac:(lia) (A3 k ltac:(lia)) (B3 k ltac:(lia)) ltac:(now rewrite A2, B2)) as (e & o & e' & o' & Q1 & Q2 & Q3). rewrite QA in Q1. injection Q1 as _ <-. rewrite QB in Q2. injection Q2 as _ <-. exact Q3.
Qed.

(* ---------- block sizes ---------- *)
Lemma settled_band k p dops s o n m : drc_session (junk k) p dops = Ok (s, o) -> sound s -> num_channels s = n -> max_block s = m -> (exists e d h, ready s e d h) -> settled dops = true ->
  forall l l', Forall (valid_frames n m) l -> Forall (valid_frames n m) l' -> concat l = concat l' ->
    exists e o e' o', run (drc_step (junk k)) s (process_all (map (fun x => (x, x)) l)) = Ok (e, o) /\ run (drc_step (junk k)) s (process_all (map (fun x => (x, x)) l')) = Ok (e', o') /\ concat o = concat o'.
Proof.
  intros E S N M (e & d & h & RD) ST l l' V V' EC. destruct (inputs_twice l) as [I1 I2]. destruct (inputs_twice l') as [I3 I4].
  destruct (C31_block_size (junk k) p dops s o (map (fun x => (x, x)) l) (map (fun x => (x, x)) l') E) as (s1 & o1 & s2 & o2 & E1 & E2 & E3); [rewrite (ready_env _ _ _ _ RD); discriminate|now left| | | | |].
  - rewrite N, M. now apply valid_twice.
  - rewrite N, M. now apply valid_twice.
  - now rewrite I1, I3.
  - now rewrite I2, I4.
  - eauto 8.
Qed.
Lemma block_size p before n m fs ops c outs bs bs' c1 o1 : complete p -> mb_session p (before ++ MInit n m fs :: ops) = Ok (c, outs) -> no_minit ops ->
  (forall b, (b < length (mp_drc p))%nat -> mb_settled b (before ++ MInit n m fs :: ops) = true) ->
  run mb_step c (map MProcess bs) = Ok (c1, o1) -> Forall (fun b => (1 <= length b <= m)%nat) bs' -> concat bs = concat bs' ->
  exists c2 o2, run mb_step c (map MProcess bs') = Ok (c2, o2) /\ concat o1 = concat o2.
Proof.
  intros CP E NI ST R LB EC. destruct (session_project eps smoothing samples_max junk p _ c outs CP E) as (c0 & E0 & RO & W0 & (WB & W) & SU & PR).
  destruct (make_parts _ _ E0) as (_ & _ & _ & _ & _ & L0 & _). destruct SU as (_ & _ & _ & _ & SL).
  destruct (mb_splitter c) as [s|] eqn:SP.
  - rewrite <- (parts_same c s SP). rewrite <- (parts_same c s SP) in R. revert R. assert (ND : length (mb_drc c) = length (mp_drc p)) by lia. rewrite ND in W.
    assert (G : forall k, (k < length (mp_drc p))%nat -> exists dops o, drc_session (junk k) (nth k (mp_drc p) default_params) dops = Ok (nth k (mb_drc c) no_drc, o) /\ settled dops = true /\
      sound (nth k (mb_drc c) no_drc) /\ num_channels (nth k (mb_drc c) no_drc) = n /\ max_block (nth k (mb_drc c) no_drc) = m /\ exists e d h, ready (nth k (mb_drc c) no_drc) e d h).
    { intros k Hk. destruct (PR k Hk) as (dops & o & P1 & P2). exists dops, o. split; [exact P2|]. split; [rewrite (proj_settled k _ _ P1); now apply ST|].
      apply proj_cat in P1 as (b1 & b2 & -> & P3 & P4). inversion P4; subst. destruct (band_state _ _ _ _ _ _ _ _ _ P2) as (A & B & D & _ & F); [eapply proj_no_init; eassumption|]. auto. }
    intros R. eapply (agree (length (mp_drc p)) n m); [exact W|exact ND|exact ND| | |exact R|exact LB|exact EC].
    + intros k Hk. destruct (G k Hk) as (dops & o & _ & _ & A & B & D & _). auto.
    + intros k l l' Hk. destruct (G k Hk) as (dops & o & A & B & D & F & H & I). eapply settled_band; eassumption.
  - exfalso. clear -RO NI SP. apply run_cat in RO as (ca & oa & ob & _ & RO & _). cbn [run] in RO. apply obind_inv in RO as ([cb o2] & EI & RO). cbn [MultiCompModel.mb_step] in EI. unfold omap in EI. apply obind_inv in EI as (q & EI & Q). injection Q as <- _. unfold mb_init in EI. apply obind_inv in EI as (s & _ & EI). apply obind_inv in EI as (ds & _ & EI). injection EI as <-. apply obind_inv in RO as ([cd od] & RO & Q). injection Q as <- _. cbn [fst] in *.
    assert (G : forall ops c c' o, run mb_step c ops = Ok (c', o) -> mb_splitter c <> None -> mb_splitter c' <> None).
    { clear. induction ops as [|op ops IH]; intros c c' o E H; cbn [run] in E; [injection E as <- _; exact H|]. apply obind_inv in E as ([c1 o1] & E1 & E). apply obind_inv in E as ([c2 o2] & E2 & E). injection E as <- _. cbn [fst] in *. apply (IH _ _ _ E2). clear IH E2. destruct op; cbn [MultiCompModel.mb_step] in E1.
      - unfold omap in E1. apply obind_inv in E1 as (q & E1 & Q). injection Q as <- _. unfold mb_init in E1. apply obind_inv in E1 as (? & _ & E1). apply obind_inv in E1 as (? & _ & E1). injection E1 as <-. discriminate.
      - unfold omap in E1. apply obind_inv in E1 as (q & E1 & Q). injection Q as <- _. unfold mb_reset in E1. destruct (mb_splitter c); [|discriminate]. apply obind_inv in E1 as (? & _ & E1). apply obind_inv in E1 as (? & _ & E1). injection E1 as <-. discriminate.
      - unfold omap in E1. apply obind_inv in E1 as (q & E1 & Q). injection Q as <- _. unfold mb_set_frequencies in E1. destruct (mb_splitter c); [|discriminate]. apply obind_inv in E1 as (? & _ & E1). injection E1 as <-. discriminate.
      - unfold omap in E1. apply obind_inv in E1 as (q & E1 & Q). injection Q as <- _. unfold mb_set_drc in E1. apply ocheck_ok in E1 as [_ E1]. apply ocheck_ok in E1 as [_ E1]. destruct (nth_error _ _); [|discriminate]. apply obind_inv in E1 as (? & _ & E1). injection E1 as <-. exact H.
      - unfold mb_process in E1. destruct (mb_splitter c); [|discriminate]. apply obind_inv in E1 as (? & _ & E1). apply obind_inv in E1 as (? & _ & E1). injection E1 as <- _. discriminate. }
    apply (G _ _ _ _ RO); [discriminate|exact SP].
Qed.
End Agree.
