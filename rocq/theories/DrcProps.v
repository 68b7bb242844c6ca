(* C31: the dynamic range controller. *)
From Verif Require Import Common ListLemmas Mealy RealUtil BiquadModel FixedDelayLineModel FixedDelayLineProofs EnvelopeModel EnvelopeSpec EnvelopeProofs DecibelsModel
  DrcCurveModel DrcCurveSpec DrcCurveProofs DrcModel DrcSpec DrcProofs.
From Coq Require Import Psatz.
Local Open Scope R_scope.

Lemma round_int (d : nat) x : INR d - / 2 <= x < INR d + / 2 -> 0 <= x -> std_round x = Z.of_nat d.
Proof.
  intros H P. unfold std_round. rewrite Rltb_false by lra. unfold Int_part. rewrite <- (tech_up (x + / 2) (Z.of_nat d + 1)); [lia| |]; rewrite plus_IZR, <- INR_IZR_INZ; lra.
Qed.

Lemma initialised junk p n m fs d : 0 <= knee_width_db p -> 0 < ratio_of p -> 0 < attack_s p -> 0 < release_s p -> (0 < n)%nat -> (0 < m)%nat -> 400 < fs ->
  0 <= lookahead_s p * fs -> INR d - / 2 <= lookahead_s p * fs < INR d + / 2 ->
  exists s e, drc_session junk p [Init n m fs] = Ok (s, [[]]) /\ env_make (attack_s p) (release_s p) 200 fs = Ok e /\ ready s e d [] /\
    num_channels s = n /\ max_block s = m /\ params s = p /\ change_needed s = false.
Proof.
  intros K R A B N M F L0 L. unfold drc_session, drc_make. rewrite check_params_ok by (try split; assumption). cbn [obind run].
  set (s9 := {| num_channels := 0; max_block := 0; params := p; change_needed := false; next_params := default_params; lookahead_delay := _; detector := None |}).
  destruct (make_rest (attack_s p) (release_s p) 200 fs) as (e & EE & _); [lra|lra|].
  assert (E9 : exists sf, drc_init junk s9 n m fs = Ok sf).
  { unfold drc_init. replace (0 <? n)%nat with true by lia. replace (0 <? m)%nat with true by lia. rewrite Rltb_true by lra. cbn [ocheck params s9]. rewrite EE. cbn [obind].
    rewrite (round_int d) by assumption. unfold dl_init. replace (0 <=? Z.of_nat d)%Z with true by lia. cbn [ocheck obind]. eauto. }
  destruct E9 as (sf & E9). destruct (init_ready junk s9 n m fs sf (conj K R) default_ok E9) as ((e9 & EE9 & R9) & _ & N9 & M9 & P9 & _ & C9).
  cbn [params s9] in *. rewrite (round_int d) in R9 by assumption. rewrite Nat2Z.id in R9. rewrite EE in EE9. injection EE9 as <-.
  exists sf, e. cbn [drc_step]. rewrite E9. cbn. auto 10.
Qed.

(* A controller that is initialised and never reconfigured computes, for every sequence of
   blocks, the documented curve of the documented envelope of the (side chain) level, applied to
   the input delayed by the lookahead rounded to whole frames. *)
Theorem C31_output : forall junk p n m fs d bs,
  0 <= knee_width_db p -> 0 < ratio_of p -> 0 < attack_s p -> 0 < release_s p ->
  (0 < n)%nat -> (0 < m)%nat -> 400 < fs ->
  0 <= lookahead_s p * fs -> INR d - / 2 <= lookahead_s p * fs < INR d + / 2 ->
  Forall (valid_block n m) bs ->
  exists s outs, drc_session junk p (Init n m fs :: process_all bs) = Ok (s, outs) /\
    concat outs = documented_output p fs n d (inputs_of bs) (sidechains_of bs).
Proof.
  intros junk p n m fs d bs K R A B N M F L0 L HV.
  destruct (initialised junk p n m fs d K R A B N M F L0 L) as (s & e & E & EE & RE & EN & EM & EP & EC).
  destruct (make_rest (attack_s p) (release_s p) 200 fs) as (e' & EE' & E0 & EA & ER & RA & RR); [lra|lra|]. rewrite EE in EE'. injection EE' as <-.
  destruct (blocks_ready junk (envelope_type p) p n m d bs s e [] RE HV EN EM) as (s1 & o1 & E1 & O1 & _); [now rewrite EP|unfold effective; now rewrite EC|reflexivity|].
  exists s1, ([] :: o1). split.
  - unfold drc_session in *. destruct (drc_make p) as [s0| |]; [|discriminate|discriminate]. cbn [obind run] in *.
    destruct (drc_step junk s0 (Init n m fs)) as [[sx ox]| |]; [|discriminate|discriminate]. cbn [obind fst snd] in *. injection E as -> ->. rewrite E1. reflexivity.
  - cbn [concat app]. rewrite O1, frames_scan by (exact (lengths_ok _ _ _ HV)). cbn [snd length app]. unfold documented_output, scaled, env_values. cbv zeta.
    destruct (run_rest (map (detected (envelope_type p)) (sidechains_of bs)) e RA RR) as (e2 & EF).
    rewrite (proj1 (env_run e _ (ready_rows _ _ _ _ RE))) in EF. injection EF as EF.
    rewrite EF. cbn [snd]. rewrite E0, EA, ER, !coefficient_factor by lra. unfold slice. cbn [skipn]. rewrite combine_map_r, map_map. reflexivity.
Qed.
Print Assumptions C31_output.

(* Whatever happened before, splitting the same frames into blocks in two different ways gives
   the same output, unless a change of the envelope type is waiting for the next block. *)
Theorem C31_block_size : forall junk p ops s outs bs bs',
  drc_session junk p ops = Ok (s, outs) -> detector s <> None ->
  settled ops = true \/ envelope_type (next_params s) = envelope_type (params s) ->
  Forall (valid_block (num_channels s) (max_block s)) bs -> Forall (valid_block (num_channels s) (max_block s)) bs' ->
  inputs_of bs = inputs_of bs' -> sidechains_of bs = sidechains_of bs' ->
  exists s1 o1 s2 o2, run (drc_step junk) s (process_all bs) = Ok (s1, o1) /\ run (drc_step junk) s (process_all bs') = Ok (s2, o2) /\
    concat o1 = concat o2.
Proof.
  intros junk p ops s outs bs bs' HS HD HT V V' EI ES. unfold drc_session in HS. destruct (drc_make p) as [s0| |] eqn:EM; [|discriminate|discriminate]. cbn [obind] in HS.
  destruct (make_sound p s0 EM) as (S0 & _ & _ & C0 & _). destruct (run_sound junk ops s0 s outs S0 HS) as (_ & _ & HR).
  destruct (detector s) as [e|]; [|congruence]. destruct HR as (d & h & R).
  assert (KE : envelope_type (effective s) = envelope_type (params s)).
  { unfold effective. destruct HT as [HT|HT]; [|now destruct (change_needed s)]. rewrite (run_settled junk ops s0 s outs true HS (fun _ => C0) HT). reflexivity. }
  destruct (blocks_ready junk (envelope_type (params s)) (effective s) _ _ d bs s e h R V eq_refl eq_refl eq_refl eq_refl KE) as (s1 & o1 & E1 & O1 & _).
  destruct (blocks_ready junk (envelope_type (params s)) (effective s) _ _ d bs' s e h R V' eq_refl eq_refl eq_refl eq_refl KE) as (s2 & o2 & E2 & O2 & _).
  exists s1, o1, s2, o2. split; [exact E1|]. split; [exact E2|]. now rewrite O1, O2, EI, ES.
Qed.
Print Assumptions C31_block_size.

Definition flat (gain look : R) : drc_params :=
  {| envelope_type := Rms; dynamics_type := Compressor; input_gain_db := 0; output_gain_db := gain; threshold_db := 0;
     ratio_of := 1; knee_width_db := 0; attack_s := 1; release_s := 1; lookahead_s := look |}.
Lemma flat_gain g look l : documented_gain (flat g look) l = g.
Proof.
  unfold documented_gain, flat. cbn [dynamics_type input_gain_db threshold_db ratio_of knee_width_db output_gain_db]. cbv zeta. unfold documented_compressor.
  destruct (Rle_dec (l + 0 - 0) (- (0 / 2))); [ring|]. destruct (Rle_dec (0 / 2) (l + 0 - 0)); [field|]. lra.
Qed.

(* Documented but false: a parameter change is crossfaded over the next block.  The old and the
   new gain are computed into the same memory, so the new gain applies from the first frame. *)
Theorem C31_crossfade_refuted : exists junk p p' fs s outs,
  drc_session junk p [Init 1 2 fs; SetParams p'; Process [[1]; [1]] [[1]; [1]]] = Ok (s, [[]; []; outs]) /\
  forall level, nth 0 (nth 0 outs []) 0 <> amplitude (crossfaded_gain p p' level 2 0).
Proof.
  exists (fun _ => []), (flat 0 0), (flat 20 0), 48000.
  destruct (initialised (fun _ => []) (flat 0 0) 1 2 48000 0) as (s & e & E & EE & RE & EN & EM & EP & EC); try (cbn; lra || lia).
  unfold drc_session in *. destruct (drc_make (flat 0 0)) as [s0| |]; [|discriminate|discriminate]. cbn [obind run] in *.
  destruct (drc_step (fun _ => []) s0 (Init 1 2 48000)) as [[sx ox]| |]; [|discriminate|discriminate]. cbn [obind fst snd] in *. injection E as -> ->.
  assert (EST : drc_set s (flat 20 0) = Ok {| num_channels := num_channels s; max_block := max_block s; params := params s; change_needed := true; next_params := flat 20 0;
             lookahead_delay := lookahead_delay s; detector := Some (set_release (set_attack e (attack_s (flat 20 0))) (release_s (flat 20 0))) |}).
  { unfold drc_set. rewrite check_params_ok by (try split; cbn; lra). rewrite (ready_env _ _ _ _ RE), EP. cbn [lookahead_s flat]. destruct (Reqb_spec 0 0); [reflexivity|contradiction]. }
  cbn [drc_step]. rewrite EST. unfold omap. cbn [obind fst snd]. clear EST.
  match goal with |- context [drc_process _ ?x] => set (s1 := x) end.
  assert (R1 : ready s1 (set_release (set_attack e (attack_s (flat 20 0))) (release_s (flat 20 0))) 0 []).
  { destruct RE as [X1 X2 X3 X4 X5]. constructor; try assumption; try reflexivity. split; cbn; lra. }
  destruct (process_ready (fun _ => []) s1 _ 0 [] [[1]; [1]] [[1]; [1]] R1) as (s2 & E2 & _).
  { unfold valid_block. cbn [num_channels max_block s1 fst snd length]. rewrite EN, EM. repeat split; auto; repeat constructor. }
  cbv zeta in E2. rewrite E2. cbn [obind fst snd]. eexists s2, _. split; [reflexivity|].
  intros level. unfold crossfaded_gain. rewrite !flat_gain.
  change (effective s1) with (flat 20 0). unfold env_values, scaled. cbn [map scan snd slice length skipn firstn repeat app combine fst nth]. rewrite flat_gain.
  unfold amplitude. intros H. rewrite Rmult_1_l in H. apply exp_inv in H. pose proof ln10_pos. cbn [INR] in H. nra.
Qed.
Print Assumptions C31_crossfade_refuted.

(* Documented but false: Reset keeps the parameters.  Without an earlier
   SetDynamicRangeControlParams it replaces them by the defaults. *)
Theorem C31_reset_params_refuted : exists junk p n m fs block s1 o1 s2 o2,
  drc_session junk p [Init n m fs; Process block block] = Ok (s1, [[]; o1]) /\
  drc_session junk p [Init n m fs; ResetDrc; Process block block] = Ok (s2, [[]; []; o2]) /\ o1 <> o2.
Proof.
  exists (fun _ => []), (flat 20 0), 1%nat, 1%nat, 48000, [[1]].
  destruct (initialised (fun _ => []) (flat 20 0) 1 1 48000 0) as (s & e & E & EE & RE & EN & EM & EP & EC); try (cbn; lra || lia).
  unfold drc_session in *. destruct (drc_make (flat 20 0)) as [s0| |] eqn:EMK; [|discriminate|discriminate]. cbn [obind run] in *.
  destruct (drc_step (fun _ => []) s0 (Init 1 1 48000)) as [[sx ox]| |] eqn:EI; [|discriminate|discriminate]. cbn [obind fst snd] in *. injection E as -> ->.
  assert (XN : next_params s = default_params).
  { destruct (make_sound _ _ EMK) as ((Q1 & Q2 & _) & _ & X0 & _). cbn [drc_step] in EI. destruct (drc_init (fun _ => []) s0 1 1 48000) as [s9| |] eqn:E9; [|discriminate|discriminate].
    cbn in EI. injection EI as ->. destruct (init_ready _ _ _ _ _ _ Q1 Q2 E9) as (_ & _ & _ & _ & _ & X & _). congruence. }
  assert (V : valid_block (num_channels s) (max_block s) ([[1]], [[1]])).
  { unfold valid_block. rewrite EN, EM. cbn. repeat split; auto; repeat constructor. }
  destruct (process_ready (fun _ => []) s e 0 [] [[1]] [[1]] RE V) as (s1 & E1 & _). cbv zeta in E1.
  cbn [drc_step]. rewrite E1. cbn [obind fst snd]. unfold drc_reset. rewrite (ready_env _ _ _ _ RE). unfold env_reset. destruct (ready_rows _ _ _ _ RE) as [Ra Rr]. rewrite !steady_one by assumption.
  unfold omap. cbn [obind fst snd].
  match goal with |- context [drc_process _ ?x] => set (sr := x) end.
  assert (RR : exists er, ready sr er 0 []).
  { destruct RE as [X1 X2 X3 X4 X5]. eexists. constructor; try reflexivity; try assumption. split; reflexivity. }
  destruct RR as (er & RR). destruct (process_ready (fun _ => []) sr er 0 [] [[1]] [[1]] RR V) as (s2 & E2 & _). cbv zeta in E2. rewrite E2. cbn [obind fst snd].
  do 4 eexists. split; [reflexivity|]. split; [reflexivity|].
  unfold effective. rewrite EC, EP. cbn [change_needed params sr]. rewrite XN. unfold env_values, scaled. cbn [map scan snd slice length skipn firstn repeat app combine fst].
  rewrite flat_gain. intros H. injection H as H. rewrite !Rmult_1_l in H. apply exp_inv in H. pose proof ln10_pos.
  assert (GD : forall l, documented_gain default_params l = 0).
  { intros l. unfold documented_gain, default_params. cbn [dynamics_type input_gain_db threshold_db ratio_of knee_width_db output_gain_db]. cbv zeta. unfold documented_compressor.
    destruct (Rle_dec (l + 0 - 0) (- (0 / 2))); [ring|]. destruct (Rle_dec (0 / 2) (l + 0 - 0)); [field|]. lra. }
  rewrite GD in H. nra.
Qed.
Print Assumptions C31_reset_params_refuted.

(* Documented but false: Reset clears the past.  The lookahead delay keeps its samples. *)
Theorem C31_reset_lookahead_refuted : exists junk p n m fs block silence s1 o1 o2,
  drc_session junk p [Init n m fs; SetParams p; Process block block; ResetDrc; Process silence silence] = Ok (s1, [[]; []; o1; []; o2]) /\
  Forall (Forall (fun x => x = 0)) silence /\ ~ Forall (Forall (fun x => x = 0)) o2.
Proof.
  exists (fun _ => []), (flat 0 (1 / 48000)), 1%nat, 1%nat, 48000, [[1]], [[0]].
  destruct (initialised (fun _ => []) (flat 0 (1 / 48000)) 1 1 48000 1) as (s & e & E & EE & RE & EN & EM & EP & EC); try (cbn; lra || lia).
  unfold drc_session in *. destruct (drc_make (flat 0 (1 / 48000))) as [s0| |]; [|discriminate|discriminate]. cbn [obind run] in *.
  destruct (drc_step (fun _ => []) s0 (Init 1 1 48000)) as [[sx ox]| |]; [|discriminate|discriminate]. cbn [obind fst snd] in *. injection E as -> ->.
  set (p := flat 0 (1 / 48000)) in *.
  assert (EST : drc_set s p = Ok {| num_channels := num_channels s; max_block := max_block s; params := params s; change_needed := true; next_params := p;
             lookahead_delay := lookahead_delay s; detector := Some (set_release (set_attack e (attack_s p)) (release_s p)) |}).
  { unfold drc_set. rewrite check_params_ok by (try split; cbn; lra). rewrite (ready_env _ _ _ _ RE), EP. destruct (Reqb_spec (lookahead_s p) (lookahead_s p)); [reflexivity|contradiction]. }
  cbn [drc_step]. rewrite EST. unfold omap. cbn [obind fst snd]. clear EST.
  match goal with |- context [drc_process _ ?x] => set (s1 := x) end.
  assert (R1 : ready s1 (set_release (set_attack e (attack_s p)) (release_s p)) 1 []).
  { destruct RE as [X1 X2 X3 X4 X5]. constructor; try assumption; try reflexivity. split; cbn; lra. }
  assert (V : forall x : R, valid_block (num_channels s) (max_block s) ([[x]], [[x]])).
  { intros x. unfold valid_block. rewrite EN, EM. cbn. repeat split; auto; repeat constructor. }
  destruct (process_ready (fun _ => []) s1 _ 1 [] [[1]] [[1]] R1 (V 1)) as (s2 & E2 & R2 & N2 & M2 & P2 & X2 & C2). cbv zeta in *. rewrite E2. cbn [obind fst snd].
  unfold drc_reset. rewrite (ready_env _ _ _ _ R2). unfold env_reset. destruct (ready_rows _ _ _ _ R2) as [Ra Rr]. rewrite !steady_one by assumption. cbn [obind fst snd].
  match goal with |- context [drc_process _ ?x] => set (s3 := x) end.
  assert (R3 : exists e3, ready s3 e3 1 [[1]]).
  { destruct R2 as [Y1 Y2 Y3 Y4 Y5]. eexists. constructor; try reflexivity; try assumption. }
  destruct R3 as (e3 & R3). assert (V3 : valid_block (num_channels s3) (max_block s3) ([[0]], [[0]])) by (cbn [num_channels max_block s3]; rewrite N2, M2; apply V).
  destruct (process_ready (fun _ => []) s3 e3 1 [[1]] [[0]] [[0]] R3 V3) as (s4 & E4 & _). cbv zeta in E4. rewrite E4. cbn [obind fst snd].
  do 3 eexists. split; [reflexivity|]. split; [repeat constructor|].
  unfold env_values, scaled. cbn [num_channels s3]. rewrite N2. change (num_channels s1) with (num_channels s). rewrite EN. cbn [map scan snd slice length skipn firstn repeat app combine fst].
  intros H. apply Forall_inv, Forall_inv in H. rewrite Rmult_1_l in H. unfold amplitude in H. match type of H with exp ?x = 0 => pose proof (exp_pos x) end. lra.
Qed.
Print Assumptions C31_reset_lookahead_refuted.

(* What Reset does achieve: without lookahead, if the parameters were set since the last Init,
   the controller afterwards behaves as one freshly constructed with the parameters last set.
   Missing: lookahead, and histories without a SetDynamicRangeControlParams since Init (both
   refuted above). *)
Theorem C31_reset_partial : forall junk p0 before n m fs ops p s outs bs,
  lookahead_s p0 = 0 -> no_init ops -> last_set ops = Some p ->
  drc_session junk p0 (before ++ Init n m fs :: ops ++ [ResetDrc]) = Ok (s, outs) ->
  Forall (valid_block n m) bs ->
  exists s1 outs1 s2 outs2, run (drc_step junk) s (process_all bs) = Ok (s1, outs1) /\
    drc_session junk p (Init n m fs :: process_all bs) = Ok (s2, outs2) /\ concat outs1 = concat outs2.
Proof. exact reset_fresh. Qed.
Print Assumptions C31_reset_partial.

(* a limiter at -6 dB with one frame of lookahead, two channels, blocks of one and two frames *)
Example C31_example : exists junk p bs s outs,
  dynamics_type p = Limiter /\ length (inputs_of bs) = 3%nat /\
  drc_session junk p (Init 2 2 48000 :: process_all bs) = Ok (s, outs) /\ length (concat outs) = 3%nat /\
  nth 0 (concat outs) [] = [0; 0].
Proof.
  set (p := {| envelope_type := Peak; dynamics_type := Limiter; input_gain_db := 0; output_gain_db := 0; threshold_db := -6; ratio_of := 1; knee_width_db := 1;
               attack_s := 1 / 1000; release_s := 1 / 100; lookahead_s := 1 / 48000 |}).
  set (bs := [([[1; -1]], [[1; -1]]); ([[1; 1]; [0; 2]], [[1; 1]; [0; 2]])]).
  destruct (C31_output (fun _ => []) p 2 2 48000 1 bs) as (s & outs & E & O); try (cbn; lra || lia).
  { repeat constructor; cbn; auto. }
  exists (fun _ => []), p, bs, s, outs. split; [reflexivity|]. split; [reflexivity|]. split; [exact E|]. rewrite O. unfold documented_output. cbv zeta.
  unfold bs. cbn [inputs_of sidechains_of map concat fst snd app length firstn repeat combine follower nth]. split; [reflexivity|]. f_equal; [ring|f_equal; ring].
Qed.
