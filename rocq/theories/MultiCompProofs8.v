From Verif Require Import Common ListLemmas NthLemmas Mealy RealUtil BiquadModel CascadeModel PoleZeroModel LadderModel LadderSpec DrcCurveModel DrcModel DrcSpec DrcProofs DrcProps
  MultiCrossModel MultiCrossSpec MultiCrossProofs MultiCrossProofs2 MultiCrossProofs3 MultiCrossProofs4 MultiCrossProofs5 MultiCrossProofs8 MultiCompModel MultiCompSpec MultiCompProofs MultiCompProofs2 MultiCompProofs3 MultiCompProofs4 MultiCompProofs5 MultiCompProofs6 MultiCompProofs7.
Local Open Scope R_scope.

Lemma first_sample c u : a0 c = 1 -> chain_implements [c] [1] [u] -> u = b0 c.
Proof. intros A (w & (L & H) & E). cbn [chain_implements] in E. rewrite <- E in H. specialize (H 0%nat ltac:(cbn; lia)). cbn in H. rewrite A in H. lra. Qed.
Lemma single_frame (y : list (list R)) : frames_of 1 y -> length y = 1%nat -> exists v, y = [[v]].
Proof. intros F L. destruct y as [|f [|? ?]]; try discriminate. pose proof (Forall_inv F) as Q. cbn beta in Q. destruct f as [|v [|? ?]]; try discriminate. eauto. Qed.

Definition loud_params (fs : R) : mb_params := {| mp_bands := 2; mp_order := 2; mp_type := Linkwitz_Riley_crossover; mp_freqs := [at_tan fs (1 / 4)]; mp_drc := [flat 20 0; flat 20 0] |}.
Lemma reset_changes eps sm samples junk : a0 sm <> 0 -> exists c1 o1 c2 o2,
  mb_session eps sm samples junk (loud_params 48000) [MInit 1 1 48000; MProcess [[1]]] = Ok (c1, [[]; o1]) /\
  mb_session eps sm samples junk (loud_params 48000) [MInit 1 1 48000; MReset; MProcess [[1]]] = Ok (c2, [[]; []; o2]) /\ o1 <> o2.
Proof.
  intros A. destruct (two_bands eps sm 1 48000 A ltac:(lia) ltac:(lra)) as (s & l & h & ES & CL & CH & CA & RB & A1 & A2 & NZ).
  pose proof (splitter_parts _ _ _ _ _ _ _ _ _ ES) as (_ & _ & _ & _ & _ & _ & _ & _ & _ & _ & F0).
  destruct (split_ok eps sm _ _ _ _ _ _ s [[1]] ES RB ltac:(repeat constructor)) as (s' & y & EY & LY & HY). assert (LY2 : length y = 2%nat) by lia. destruct y as [|y0 [|y1 [|? ?]]]; try discriminate. clear LY LY2.
  destruct (HY 0%nat ltac:(cbn; lia)) as (F1 & L1 & I1). destruct (HY 1%nat ltac:(cbn; lia)) as (F2 & L2 & I2). cbn [nth] in *. destruct (single_frame y0 F1 L1) as (u & ->). destruct (single_frame y1 F2 L2) as (v & ->).
  specialize (I1 0%nat ltac:(lia)). specialize (I2 0%nat ltac:(lia)). rewrite CL, CH, CA in I1, I2. cbn [firstn concat nth app channel map] in I1, I2. apply (first_sample l u A1) in I1. apply (first_sample h v A2) in I2. rewrite <- I1, <- I2 in NZ.
  destruct (reset_band (junk 0%nat)) as (a & a1 & a2 & EA & EA1 & EA2 & HA). destruct (reset_band (junk 1%nat)) as (a' & b1 & b2 & EB & EB1 & EB2 & HB). rewrite EA in EB. injection EB as <-.
  destruct (HA u) as ((t1 & P1) & (t2 & P2)). destruct (HB v) as ((t3 & P3) & (t4 & P4)).
  assert (SS : exists c1 c2, mb_session eps sm samples junk (loud_params 48000) [MInit 1 1 48000; MProcess [[1]]] = Ok (c1, [[]; [[0 + u * 10 + v * 10]]]) /\
    mb_session eps sm samples junk (loud_params 48000) [MInit 1 1 48000; MReset; MProcess [[1]]] = Ok (c2, [[]; []; [[0 + u * 1 + v * 1]]])).
  { unfold mb_session, mb_make. cbn [mp_bands mp_drc loud_params Z.ltb Z.compare Pos.compare Pos.compare_cont ocheck traverse]. rewrite EA. cbn [obind run mb_step]. unfold mb_init. cbn [mb_type mb_order mb_bands mb_freqs mb_drc mp_type mp_order mp_bands mp_freqs loud_params]. rewrite ES. cbn [obind init_drcs]. rewrite EA1, EB1. unfold omap. cbn [obind fst snd].
    unfold mb_reset, mb_process. cbn [with_parts mb_splitter mb_drc]. rewrite (fed_reset _ _ F0). cbn [obind traverse]. rewrite EA2, EB2. cbn [obind with_parts mb_splitter mb_drc fst snd]. rewrite EY. cbn [obind fst snd process_drcs]. rewrite P1, P3, P2, P4. cbn [obind fst snd]. eexists _, _. split; reflexivity. }
  destruct SS as (c1 & c2 & S1 & S2). exists c1, [[0 + u * 10 + v * 10]], c2, [[0 + u * 1 + v * 1]]. split; [exact S1|]. split; [exact S2|]. intros Q. injection Q as Q. lra.
Qed.
(* ---------- which parameters are accepted ---------- *)
Lemma params_made bands freqs order type : (exists p, mp_make bands freqs order type = Ok p) <-> (1 < bands)%Z /\ (2 <= order)%Z /\ Z.of_nat (length freqs) = (bands - 1)%Z.
Proof.
  unfold mp_make, mp_set_frequencies. cbn [mp_bands]. split.
  - intros [p E]. do 3 apply ocheck_ok in E as [? E]. lia.
  - intros (A & B & D). replace (1 <? bands)%Z with true by lia. replace (2 <=? order)%Z with true by lia. replace (Z.of_nat (length freqs) =? bands - 1)%Z with true by lia. cbn [ocheck]. eauto.
Qed.
Lemma params_values bands freqs order type p : mp_make bands freqs order type = Ok p -> complete p /\ mp_bands p = bands /\ mp_order p = order /\ mp_type p = type /\ mp_freqs p = freqs /\ forall b, nth b (mp_drc p) default_params = default_params.
Proof.
  unfold mp_make, mp_set_frequencies. cbn [mp_bands]. intros E. do 3 apply ocheck_ok in E as [? E]. injection E as <-. unfold complete. cbn [mp_bands mp_order mp_type mp_freqs mp_drc]. rewrite repeat_length. split; [lia|]. repeat (split; [reflexivity|]). intros b. apply nth_repeat.
Qed.
Lemma setters p : complete p -> (forall f p', mp_set_frequencies p f = Ok p' -> complete p' /\ mp_freqs p' = f /\ mp_drc p' = mp_drc p) /\
  (forall l, complete (mp_set_lookahead p l) /\ forall b, (b < length (mp_drc p))%nat -> nth b (mp_drc (mp_set_lookahead p l)) default_params = with_lookahead l (nth b (mp_drc p) default_params)) /\
  (forall st q, (exists p', mp_set_drc p st q = Ok p') <-> (0 <= st < mp_bands p)%Z) /\
  (forall st q p', mp_set_drc p st q = Ok p' -> complete p' /\ forall b, nth b (mp_drc p') default_params = if (Z.of_nat b =? st)%Z then q else nth b (mp_drc p) default_params).
Proof.
  unfold complete. intros CP. split; [|split; [|split]].
  - intros f p' E. unfold mp_set_frequencies in E. apply ocheck_ok in E as [_ E]. injection E as <-. cbn. auto.
  - intros l. cbn [mp_set_lookahead mp_bands mp_drc]. rewrite map_length. split; [exact CP|]. intros b Hb. now apply nth_map_in.
  - intros st q. unfold mp_set_drc. split; [intros [p' E]; do 2 apply ocheck_ok in E as [? E]; lia|]. intros H. replace (0 <=? st)%Z with true by lia. replace (st <? mp_bands p)%Z with true by lia. cbn [ocheck]. eauto.
  - intros st q p' E. unfold mp_set_drc in E. apply ocheck_ok in E as [B1 E]. apply ocheck_ok in E as [B2 E]. injection E as <-. cbn [mp_bands mp_drc]. assert (HL : length (splice (Z.to_nat st) [q] (mp_drc p)) = length (mp_drc p)) by (apply splice_one_length; lia). split; [now rewrite HL|].
    intros b. destruct (Nat.lt_ge_cases b (length (mp_drc p))) as [C|C].
    + destruct (nth_error (mp_drc p) b) as [r|] eqn:NB; [|apply nth_error_None in NB; lia]. rewrite (nth_error_nth _ _ default_params NB). apply nth_error_nth. rewrite nth_error_splice by (cbn [length]; lia). cbn [length].
      destruct (Z.eqb_spec (Z.of_nat b) st) as [<-|NE].
      * rewrite Nat2Z.id. replace (b <? b)%nat with false by lia. replace (b <? b + 1)%nat with true by lia. rewrite Nat.sub_diag. reflexivity.
      * destruct (Nat.ltb_spec b (Z.to_nat st)); [exact NB|]. replace (b <? Z.to_nat st + 1)%nat with false by lia. exact NB.
    + rewrite !nth_overflow by lia. destruct (Z.eqb_spec (Z.of_nat b) st); [lia|reflexivity].
Qed.
Lemma refused eps sm samples junk p ops c outs st q : complete p -> mb_session eps sm samples junk p ops = Ok (c, outs) ->
  ~ (0 <= st < mp_bands p)%Z \/ knee_width_db q < 0 \/ ratio_of q <= 0 \/ attack_s q <= 0 \/ release_s q <= 0 -> mb_step eps sm samples junk c (MSetDrc st q) = CheckFail.
Proof.
  intros CP E H. destruct (session_project eps sm samples junk p _ c outs CP E) as (c0 & E0 & _ & _ & _ & (_ & _ & _ & _ & SL) & _). destruct (make_parts _ _ E0) as (_ & _ & _ & _ & _ & L0 & _). unfold complete in CP.
  cbn [mb_step]. unfold mb_set_drc. destruct (Z.leb_spec 0 st); [|reflexivity]. destruct (Z.ltb_spec st (Z.of_nat (length (mb_drc c)))); [|reflexivity]. cbn [ocheck]. destruct (nth_error (mb_drc c) (Z.to_nat st)) as [d|] eqn:ND; [|apply nth_error_None in ND; lia].
  destruct H as [H|H]; [lia|]. unfold drc_set, check_params. destruct (Rleb_spec 0 (knee_width_db q)); [|reflexivity]. destruct (Rltb_spec 0 (ratio_of q)); [|reflexivity]. destruct (Rltb_spec 0 (attack_s q)); [|reflexivity]. destruct (Rltb_spec 0 (release_s q)); [|reflexivity]. lra.
Qed.
(* ---------- Init after any use ---------- *)
Definition same_params (d0 d : drc) : Prop := change_needed d0 = false /\ change_needed d = false /\ params d = params d0 /\ next_params d = next_params d0.
Lemma keep_band jk k a b : proj k a b -> keeps_params a -> forall d0 d d' o, same_params d0 d -> run (drc_step jk) d b = Ok (d', o) -> same_params d0 d'.
Proof.
  induction 1; intros K d0 d d' o S E; cbn [run] in E; try (pose proof (Forall_inv K) as Q; cbn in Q; contradiction).
  - injection E as <- _. exact S.
  - apply obind_inv in E as ([d1 o1] & E1 & E). apply obind_inv in E as ([d2 o2] & E2 & E). injection E as <- _. apply (IHproj (Forall_inv_tail K) d0 d1 d2 o2); [|exact E2].
    cbn [drc_step] in E1. unfold omap in E1. apply obind_inv in E1 as (d3 & E1 & Q). injection Q as <- _. unfold drc_init in E1. do 3 apply ocheck_ok in E1 as [_ E1]. apply obind_inv in E1 as (e & _ & E1). apply obind_inv in E1 as (l & _ & E1). injection E1 as <-. exact S.
  - exact (IHproj (Forall_inv_tail K) d0 d d' o S E).
  - apply obind_inv in E as ([d1 o1] & E1 & E). apply obind_inv in E as ([d2 o2] & E2 & E). injection E as <- _. apply (IHproj (Forall_inv_tail K) d0 d1 d2 o2); [|exact E2]. destruct S as (S0 & S1 & S2 & S3).
    cbn [drc_step] in E1. unfold drc_process in E1. do 5 apply ocheck_ok in E1 as [_ E1]. apply obind_inv in E1 as ([d3 g] & E3 & E1). unfold compute_gain in E3. apply ocheck_ok in E3 as [_ E3]. unfold gain_from_detected in E3. destruct (detector d); [|discriminate].
    apply obind_inv in E3 as (r & _ & E3). cbv zeta in E3. apply obind_inv in E3 as (ls & _ & E3). apply obind_inv in E3 as (gs & _ & E3). rewrite S1 in E3. injection E3 as <- _. cbn [fst snd] in E1.
    unfold apply_gain in E1. apply ocheck_ok in E1 as [_ E1]. apply obind_inv in E1 as (q & _ & E1). injection E1 as <- _. repeat split; assumption.
Qed.
Lemma init_same jk d0 d n m fs : same_params d0 d -> drc_init jk d0 n m fs = drc_init jk d n m fs.
Proof. intros (S0 & S1 & S2 & S3). unfold drc_init. now rewrite S0, S1, S2, S3. Qed.
Lemma init_drcs_same junk n m fs : forall ds0 ds b, length ds0 = length ds -> (forall k, (k < length ds)%nat -> same_params (nth k ds0 no_drc) (nth k ds no_drc)) -> init_drcs junk b ds0 n m fs = init_drcs junk b ds n m fs.
Proof.
  induction ds0 as [|a ds0 IH]; intros [|d ds] b L H; cbn [length] in L; try lia; [reflexivity|]. cbn [init_drcs]. rewrite (init_same _ a d) by exact (H 0%nat ltac:(cbn; lia)). rewrite (IH ds (S b)); [reflexivity|lia|]. intros k Hk. exact (H (S k) ltac:(cbn; lia)).
Qed.
Lemma init_again eps sm samples junk p ops n m fs c outs : complete p -> keeps_params ops -> mb_session eps sm samples junk p (ops ++ [MInit n m fs]) = Ok (c, outs) ->
  mb_session eps sm samples junk p [MInit n m fs] = Ok (c, [[]]).
Proof.
  intros CP K E. unfold mb_session in *. apply obind_inv in E as (c0 & E0 & E). rewrite E0. cbn [obind run]. rewrite ListLemmas.run_app in E. apply obind_inv in E as ([c1 o1] & E1 & E). apply obind_inv in E as ([c2 o2] & E2 & E). injection E as <- _. cbn [fst] in E2 |- *. cbn [run] in E2. apply obind_inv in E2 as ([c3 o3] & E2 & Q). cbn in Q. injection Q as <- _.
  destruct (make_parts _ _ E0) as (A1 & A2 & A3 & A4 & A5 & A6 & A7). assert (W0 : well_sized c0) by (split; [rewrite A1, A6; exact CP|now rewrite A5]).
  destruct (run_project eps sm samples junk _ _ _ _ W0 E1) as (W1 & (S1 & S2 & S3 & S4 & S5) & P1). cbn [mb_step] in E2 |- *. unfold omap in *. apply obind_inv in E2 as (c4 & E2 & Q). injection Q as <- _.
  assert (Q : mb_init eps sm junk c0 n m fs = Ok c4).
  { unfold mb_init in *. rewrite S1, S2, S3, S4 in E2. apply obind_inv in E2 as (s & E3 & E2). rewrite E3. cbn [obind]. rewrite (init_drcs_same junk n m fs (mb_drc c0) (mb_drc c1) 0); [|lia|].
    - apply obind_inv in E2 as (ds & E4 & E2). rewrite E4. injection E2 as <-. cbn [obind]. unfold with_parts. now rewrite S1, S2, S3, S4.
    - intros k Hk. destruct (P1 k ltac:(lia)) as (dops & o & PJ & RR). apply (keep_band (junk k) k ops dops PJ K _ _ _ _) with (2 := RR). specialize (A7 k ltac:(lia)). unfold drc_make, check_params in A7.
      repeat match type of A7 with ocheck _ _ = _ => apply ocheck_ok in A7 as [_ A7] end. injection A7 as <-. repeat split. }
  rewrite Q. reflexivity.
Qed.
