From Verif Require Import Common ListLemmas Mealy RealUtil BiquadModel BiquadSpec BiquadProofs DesignModel FixedDelayLineModel FixedDelayLineSpec FixedDelayLineProofs
  EnvelopeModel EnvelopeSpec EnvelopeProofs DecibelsModel DrcCurveModel DrcCurveSpec DrcCurveProofs LoudnessModel LoudnessSpec LoudnessProofs LoudCompModel LoudCompSpec.
From Verif Require DrcModel DrcProofs.
From Coq Require Import Psatz.
Local Open Scope R_scope.
Notation one_row := DrcProofs.one_row.
Notation env_pure := DrcProofs.env_pure.
Notation rmblock := (meter_block 0 Rplus Rminus Rmult rsum loudness_db).
Notation rminit := (meter_init 0 1 Rmult Rdiv (fun v => Reqb v 0)).
Notation rstep := (mstep 0 Rplus Rminus Rmult rsum loudness_db).

Lemma tiny_pos : 0 < 1 / 10 ^ 12.
Proof. apply Rdiv_lt_0_compat; [lra|apply pow_lt; lra]. Qed.

(* ---- the detector as a total step ---- *)
Definition dpure (st : envelope * bool) (l : level) : (envelope * bool) * R :=
  match power_of l, snd st with
  | Some p, false => let r := env_pure (fst st) p in ((fst r, false), Rmax (1 / 10 ^ 12) (snd r))
  | _, _ => let r := env_pure (fst st) 0 in ((fst r, true), 1 / 10 ^ 12)
  end.
Lemma detect_ok st l : one_row (fst st) -> lc_detect st l = Ok (dpure st l) /\ one_row (fst (fst (dpure st l))).
Proof.
  intros H. unfold lc_detect, dpure. destruct (power_of l) as [p|]; destruct (snd st);
    (match goal with |- context [env_output _ ?x] => destruct (DrcProofs.env_pure_ok (fst st) x H) as [E1 E2] end; rewrite E1; cbn [obind fst snd]; auto).
Qed.
Lemma detect_run st ls : one_row (fst st) -> run lc_detect st ls = Ok (scan dpure st ls) /\ one_row (fst (fst (scan dpure st ls))).
Proof.
  intros H. apply (run_scan lc_detect dpure (fun st => one_row (fst st)) (fun _ => True)); [|exact H|apply Forall_forall; auto].
  intros; now apply detect_ok.
Qed.
Lemma detect_floor st ls : Forall (fun v => 0 < v) (snd (scan dpure st ls)).
Proof.
  revert st. induction ls as [|l ls IH]; intros st; [constructor|]. cbn [scan snd]. constructor; [|apply IH].
  unfold dpure. pose proof tiny_pos as T. destruct (power_of l), (snd st); cbn [snd]; try exact T. eapply Rlt_le_trans; [exact T|apply Rmax_l].
Qed.

(* ---- gains ---- *)
Definition gain_of (p : lc_params) (c : R -> R) (v : R) : R :=
  exp (ln 10 / 20 * (c (10 / ln 10 * ln v + lc_in_db p) - 10 / ln 10 * ln v + lc_out_db p)).
Lemma gain_ok p c v : (forall x, two_way_compressor (lc_curve p) x = Ok (c x)) -> 0 < v -> lc_gain p v = Ok (gain_of p c v).
Proof. intros HC Hv. unfold lc_gain, on_positive. rewrite Rltb_true by exact Hv. cbn [oguard obind]. rewrite HC. reflexivity. Qed.
Lemma gains_ok p c vs : (forall x, two_way_compressor (lc_curve p) x = Ok (c x)) -> Forall (fun v => 0 < v) vs ->
  map_outcome (lc_gain p) vs = Ok (map (gain_of p c) vs).
Proof. intros HC HV. apply DrcProofs.map_outcome_ok. intros x Hx. apply gain_ok; [exact HC|]. rewrite Forall_forall in HV. auto. Qed.
Lemma gain_documented p c y : gain_of p c (Rmax (1 / 10 ^ 12) y) = loudness_gain c (lc_in_db p) (lc_out_db p) y.
Proof.
  unfold gain_of, loudness_gain, amplitude_factor, power_level. pose proof DrcProofs.ln10_pos.
  replace (10 / ln 10 * ln (Rmax (1 / 10 ^ 12) y)) with (10 * (ln (Rmax (1 / 10 ^ 12) y) / ln 10)) by (field; lra). reflexivity.
Qed.
Lemma curve_total p : verify_params p = true -> 0 < ratio (soft_region p) -> exists c, forall x, two_way_compressor p x = Ok (c x).
Proof.
  intros HV HS. exists (fun x => match two_way_compressor p x with Ok y => y | _ => 0 end). intros x.
  destruct (two_way_steps p x HV HS) as (t1 & th & t2 & _ & _ & _ & E). rewrite E. reflexivity.
Qed.
Lemma curve_verified p c : (forall x, two_way_compressor p x = Ok (c x)) -> verify_params p = true.
Proof. intros H. specialize (H 0). unfold two_way_compressor in H. destruct (verify_params p); [reflexivity|discriminate]. Qed.

(* ---- delayed frames ---- *)
Definition window {A} (pad h i : list A) : list A := slice (length h) (length i) (pad ++ h ++ i).
Lemma window_app {A} (pad h i j : list A) : window pad h (i ++ j) = window pad h i ++ window pad (h ++ i) j.
Proof.
  unfold window, slice. rewrite !app_length. rewrite <- !app_assoc. set (L := pad ++ h ++ i ++ j).
  assert (E : skipn (length h) L = firstn (length i) (skipn (length h) L) ++ skipn (length h + length i) L).
  { rewrite <- (firstn_skipn (length i) (skipn (length h) L)) at 1. f_equal. rewrite skipn_skipn'. f_equal; lia. }
  assert (Li : length (firstn (length i) (skipn (length h) L)) = length i).
  { rewrite firstn_length, skipn_length. unfold L. rewrite !app_length. lia. }
  rewrite E at 1. rewrite firstn_app, Li. rewrite firstn_all2 by lia. replace (length i + length j - length i)%nat with (length j) by lia. f_equal.
  unfold L. rewrite !app_assoc. rewrite <- (app_assoc pad h i). rewrite (skipn_app _ (pad ++ h ++ i) j). rewrite firstn_app.
  rewrite skipn_length, !app_length. replace (length i - (length pad + (length h + length i) - length h))%nat with 0%nat by lia. cbn [firstn]. apply app_nil_r.
Qed.
Lemma window_length {A} (pad h i : list A) : length (window pad h i) = length i.
Proof. unfold window, slice. rewrite firstn_length, skipn_length, !app_length. lia. Qed.
Lemma window_start {A} (pad i : list A) : window pad [] i = firstn (length i) (pad ++ i).
Proof. reflexivity. Qed.
Lemma apply_app a b g g' : length a = length g -> apply_gains (a ++ b) (g ++ g') = apply_gains a g ++ apply_gains b g'.
Proof. intros H. unfold apply_gains. rewrite DrcProofs.combine_app by exact H. apply map_app. Qed.

(* ---- the state of an initialised compressor ---- *)
Record lready (s : lcomp) (p : lc_params) (n m : nat) (mt : meter R) (eb : envelope * bool) (d : nat) (h : list (list R)) : Prop := {
  lr_par : lc_par s = p; lr_dims : lc_dims s = Some (n, m); lr_meter : lc_meter s = mt; lr_good : good n mt;
  lr_env : lc_env s = Some eb; lr_row : one_row (fst eb); lr_delay : dl_inv (repeat 0 n) d (lc_delay s) h }.

Section Run.
Variable junk : nat -> list R.
Variable p : lc_params.
Variable c : R -> R.
Hypothesis total : forall x, two_way_compressor (lc_curve p) x = Ok (c x).

Definition detected (mt : meter R) (eb : envelope * bool) (b : list (list R)) : list R := snd (scan dpure eb (snd (scan rstep mt b))).
Lemma process_ok s n m mt eb d h b : lready s p n m mt eb d h -> block_ok n m b ->
  exists s', lc_process junk n s b = Ok (s', apply_gains (window (repeat (repeat 0 n) d) h b) (map (gain_of p c) (detected mt eb b))) /\
    lready s' p n m (fst (scan rstep mt b)) (fst (scan dpure eb (snd (scan rstep mt b)))) d (h ++ b).
Proof.
  intros [H1 H2 H3 H4 H5 H6 H7] [HL HF]. unfold lc_process. rewrite H2.
  replace (1 <=? length b)%nat with true by lia. replace (length b <=? m)%nat with true by lia. rewrite Nat.eqb_refl. cbn [ocheck].
  unfold lc_compute. rewrite H2, H3, H5.
  destruct (mblock_ok 0 1 Rplus Rminus Rmult Rdiv (fun v => Reqb v 0) rsum loudness_db n mt b H4 HF) as [EM GM]. rewrite EM. cbn [obind fst snd].
  destruct (detect_run eb (snd (scan rstep mt b)) H6) as [ED RD]. rewrite ED. cbn [obind].
  replace (length b <=? m)%nat with true by lia. cbn [oguard]. rewrite H1, (curve_verified _ _ total). cbn [ocheck].
  rewrite (gains_ok p c _ total (detect_floor _ _)). cbn [obind fst snd lc_delay lc_par lc_dims lc_meter lc_env].
  destruct (process_spec (repeat 0 n) junk d (lc_delay s) h b H7) as (dl' & EP & HD'). rewrite EP. cbn [obind fst snd].
  eexists. split; [reflexivity|]. constructor; cbn [lc_delay lc_par lc_dims lc_meter lc_env]; auto.
Qed.
Lemma blocks_lready n m d : forall bs s mt eb h, lready s p n m mt eb d h -> Forall (block_ok n m) bs ->
  exists s' outs, run (lc_process junk n) s bs = Ok (s', outs) /\
    concat outs = apply_gains (window (repeat (repeat 0 n) d) h (concat bs)) (map (gain_of p c) (detected mt eb (concat bs))) /\
    lready s' p n m (fst (scan rstep mt (concat bs))) (fst (scan dpure eb (snd (scan rstep mt (concat bs))))) d (h ++ concat bs).
Proof.
  induction bs as [|b bs IH]; intros s mt eb h HR HB.
  - exists s, []. cbn [run concat]. rewrite app_nil_r. split; [reflexivity|]. split; [|exact HR]. unfold window. cbn. reflexivity.
  - pose proof (Forall_inv HB) as B1. destruct (process_ok _ _ _ _ _ _ _ _ HR B1) as (s1 & E1 & R1).
    destruct (IH _ _ _ _ R1 (Forall_inv_tail HB)) as (s2 & outs & E2 & O2 & R2).
    cbn [run]. rewrite E1. cbn [obind fst snd]. rewrite E2. cbn [obind fst snd]. do 2 eexists. split; [reflexivity|].
    cbn [concat]. rewrite O2. unfold detected. rewrite (scan_app rstep). cbn [fst snd]. rewrite (scan_app dpure). cbn [fst snd].
    rewrite <- app_assoc in R2. split; [|exact R2].
    rewrite window_app, map_app, apply_app; [reflexivity|]. rewrite window_length, map_length, !scan_length. reflexivity.
Qed.
End Run.

(* ---- Init ---- *)
Section Init.
Variable junk : nat -> list R.
Variable k_coeffs : R -> list (coeffs R).
Lemma linit_inv s0 p nz mz fs s : lc_init junk k_coeffs s0 p nz mz fs = Ok (s, true) ->
  exists n m mt e, nz = Z.of_nat n /\ mz = Z.of_nat m /\ (1 <= n)%nat /\ (1 <= m)%nat /\ 0 < lc_attack p /\ 0 < lc_release p /\ 0 < fs /\
    rminit (lc_meter s0) (lc_weights p) (lc_averaging p) (Z.of_nat n) (k_coeffs fs) = Ok (mt, true) /\
    env_make (lc_attack p) (lc_release p) 200 fs = Ok e /\ (0 <= DrcModel.std_round (lc_lookahead p * fs))%Z /\
    lready s p n m mt (e, false) (Z.to_nat (DrcModel.std_round (lc_lookahead p * fs))) [].
Proof.
  unfold lc_init. destruct (lc_verify p nz mz fs) eqn:V; cbn [negb]; [|discriminate]. unfold lc_verify in V.
  repeat (apply andb_prop in V as [V ?]).
  destruct (Rleb_spec (lc_attack p) 0); [discriminate|]. destruct (Rleb_spec (lc_release p) 0); [discriminate|]. destruct (Rleb_spec fs 0); [discriminate|].
  destruct (rminit (lc_meter s0) (lc_weights p) (lc_averaging p) nz (k_coeffs fs)) as [[mt b]| |] eqn:EM; cbn [obind fst snd]; try discriminate.
  destruct b; cbn [negb]; [|discriminate].
  destruct (env_make (lc_attack p) (lc_release p) 200 fs) as [e| |] eqn:EE; cbn [obind]; try discriminate.
  unfold dl_init. destruct (0 <=? DrcModel.std_round (lc_lookahead p * fs))%Z eqn:EZ; cbn [ocheck obind]; try discriminate.
  intros H9. injection H9 as <-. exists (Z.to_nat nz), (Z.to_nat mz), mt, e. rewrite !Z2Nat.id by lia.
  do 7 (split; [lia || lra|]). split; [exact EM|]. split; [reflexivity|]. split; [lia|].
  destruct (minit_inv 0 1 Rmult Rdiv (fun v => Reqb v 0) _ _ _ _ _ _ EM) as (n' & En & _ & _ & _ & _ & _ & _ & G). assert (Q : n' = Z.to_nat nz) by lia. rewrite Q in G.
  constructor; cbn [lc_delay lc_par lc_dims lc_meter lc_env fst]; auto.
  - exact (DrcProofs.env_make_rows _ _ _ _ _ EE).
  - apply reset_spec; cbn [delay_samples buffer]; [reflexivity|]. rewrite map_length, seq_length. lia.
Qed.
Lemma linit_ok s0 p n m fs mt : (1 <= n)%nat -> (1 <= m)%nat -> 0 < lc_attack p -> 0 < lc_release p -> 400 < fs -> 0 <= lc_lookahead p ->
  rminit (lc_meter s0) (lc_weights p) (lc_averaging p) (Z.of_nat n) (k_coeffs fs) = Ok (mt, true) ->
  exists s, lc_init junk k_coeffs s0 p (Z.of_nat n) (Z.of_nat m) fs = Ok (s, true).
Proof.
  intros Hn Hm HA HR HF HL EM. unfold lc_init, lc_verify.
  destruct (Rleb_spec (lc_attack p) 0); [lra|]. destruct (Rleb_spec (lc_release p) 0); [lra|]. destruct (Rleb_spec fs 0); [lra|].
  replace (Z.of_nat n <=? 0)%Z with false by lia. replace (Z.of_nat m <=? 0)%Z with false by lia. cbn [negb andb]. rewrite EM. cbn [obind fst snd negb].
  destruct (make_rest (lc_attack p) (lc_release p) 200 fs) as (e & EE & _); [lra|lra|]. rewrite EE. cbn [obind].
  unfold dl_init. assert (Z0 : (0 <= DrcModel.std_round (lc_lookahead p * fs))%Z).
  { unfold DrcModel.std_round. rewrite Rltb_false by nra. apply le_IZR. destruct (base_Int_part (lc_lookahead p * fs + / 2)) as [_ B].
    assert (-1 < IZR (Int_part (lc_lookahead p * fs + / 2))) by nra. apply IZR_le. apply lt_IZR in H. lia. }
  replace (0 <=? DrcModel.std_round (lc_lookahead p * fs))%Z with true by lia. cbn [ocheck obind]. eauto.
Qed.
End Init.

(* ---- powers back from decibels ---- *)
Lemma power_back v : 0 <= v -> power_of (loudness_db v) = Some v.
Proof.
  intros H. unfold loudness_db. destruct (Rltb_spec 0 v) as [P|N].
  - cbn [power_of]. f_equal. pose proof DrcProofs.ln10_pos. replace (ln 10 / 10 * (10 / ln 10 * ln v)) with (ln v) by (field; lra). now apply exp_ln.
  - rewrite Rltb_false by lra. cbn. f_equal. lra.
Qed.
Lemma detect_powers vs : Forall (fun v => 0 <= v) vs -> forall e,
  scan dpure (e, false) (map loudness_db vs) = ((fst (scan env_pure e vs), false), map (Rmax (1 / 10 ^ 12)) (snd (scan env_pure e vs))).
Proof.
  induction 1 as [|v vs Hv HF IH]; intros e; [reflexivity|]. cbn [map scan].
  assert (E : dpure (e, false) (loudness_db v) = ((fst (env_pure e v), false), Rmax (1 / 10 ^ 12) (snd (env_pure e v)))) by (unfold dpure; cbn [fst snd]; rewrite (power_back v Hv); reflexivity).
  rewrite E. cbn [fst snd]. rewrite IH. reflexivity.
Qed.
Lemma follower_of a r fs e vs : 0 < a -> 0 < r -> 400 < fs -> env_make a r 200 fs = Ok e ->
  snd (scan env_pure e vs) = follower (smoothing_factor a fs) (smoothing_factor r fs) 0 vs.
Proof.
  intros HA HR HF EE. destruct (make_rest a r 200 fs) as (e' & EE' & E0 & EA & ER & RA & RR); [lra|lra|]. rewrite EE in EE'. injection EE' as <-.
  destruct (run_rest vs e RA RR) as (e2 & EF). rewrite (proj1 (DrcProofs.env_run e vs (DrcProofs.env_make_rows _ _ _ _ _ EE))) in EF. injection EF as EF.
  rewrite EF. cbn [snd]. rewrite E0, EA, ER, !coefficient_factor by lra. reflexivity.
Qed.
(* a NaN stays *)
Lemma detect_stuck ls : forall e, snd (scan dpure (e, true) ls) = repeat (1 / 10 ^ 12) (length ls).
Proof.
  induction ls as [|l ls IH]; intros e; [reflexivity|]. cbn [scan snd length repeat].
  assert (E : dpure (e, true) l = ((fst (env_pure e 0), true), 1 / 10 ^ 12)) by (unfold dpure; cbn [snd]; destruct (power_of l); reflexivity).
  rewrite E. cbn [fst snd]. now rewrite IH.
Qed.
Lemma detect_nan st l : power_of l = None -> exists e, dpure st l = ((e, true), 1 / 10 ^ 12).
Proof. intros H. unfold dpure. rewrite H. eauto. Qed.

(* Reset of the detector after any levels *)
Lemma detect_keeps f ls : forall st r0 r1, one_row (fst st) -> attack_smoother (fst st) = with_rows f [r0] -> release_smoother (fst st) = with_rows f [r1] ->
  let e' := fst (fst (scan dpure st ls)) in
  attack e' = attack (fst st) /\ release e' = release (fst st) /\ sample_rate e' = sample_rate (fst st) /\
  (exists r, attack_smoother e' = with_rows f [r]) /\ (exists r, release_smoother e' = with_rows f [r]).
Proof.
  induction ls as [|l ls IH]; intros st r0 r1 HR EA ER; cbv zeta; cbn [scan fst snd].
  - repeat split; eauto.
  - assert (X : exists v b, fst (dpure st l) = (fst (env_pure (fst st) v), b)) by (unfold dpure; destruct (power_of l), (snd st); cbn; eauto).
    destruct X as (v & b & X). rewrite X.
    edestruct (IH (fst (env_pure (fst st) v), b)) as (A & B & C & D & E).
    + exact (proj2 (DrcProofs.env_pure_ok (fst st) v HR)).
    + unfold DrcProofs.env_pure. cbn [fst attack_smoother]. rewrite EA at 1. apply DrcProofs.with_rows_idem.
    + unfold DrcProofs.env_pure. cbn [fst release_smoother]. rewrite ER at 1. apply DrcProofs.with_rows_idem.
    + cbv zeta in *. repeat split; assumption.
Qed.
Lemma reset_detector a r fs e ls : env_make a r 200 fs = Ok e -> env_reset (fst (fst (scan dpure (e, false) ls))) = Ok e.
Proof.
  intros EE. destruct (DrcProofs.env_make_shape _ _ _ _ EE) as (f & Lf & SH). pose proof (DrcProofs.env_make_rows _ _ _ _ _ EE) as OR.
  rewrite SH in EE. injection EE as Q. symmetry in Q.
  edestruct (detect_keeps f ls (e, false)) as (A & B & C & (ra & D) & (rr & E)); [exact OR|rewrite Q; reflexivity|rewrite Q; reflexivity|]. cbv zeta in *. cbn [fst] in *.
  unfold env_reset. rewrite D, E, !steady_one by reflexivity. cbn [obind]. rewrite A, B, C, Q. cbn. rewrite !DrcProofs.with_rows_idem. reflexivity.
Qed.
Lemma detect_poisoned ls : forall st, In NotANumber ls -> snd (fst (scan dpure st ls)) = true.
Proof.
  assert (S1 : forall l e, snd (fst (scan dpure (e, true) l)) = true).
  { induction l as [|x l IH]; intros e; [reflexivity|]. cbn [scan fst snd].
    assert (E : fst (dpure (e, true) x) = (fst (env_pure e 0), true)) by (unfold dpure; cbn [snd]; destruct (power_of x); reflexivity).
    rewrite E. apply IH. }
  induction ls as [|l ls IH]; intros st HI; [destruct HI|]. cbn [scan fst snd]. destruct HI as [->|HI]; [|apply IH, HI].
  destruct (detect_nan st NotANumber eq_refl) as [e E]. rewrite E. apply S1.
Qed.
Lemma unchecked junk p n m mt eb d h s b : verify_params (lc_curve p) = false -> lready s p n m mt eb d h -> block_ok n m b ->
  lc_process junk n s b = CheckFail.
Proof.
  intros HV [H1 H2 H3 H4 H5 H6 H7] [HL HF]. unfold lc_process. rewrite H2.
  replace (1 <=? length b)%nat with true by lia. replace (length b <=? m)%nat with true by lia. rewrite Nat.eqb_refl. cbn [ocheck].
  unfold lc_compute. rewrite H2, H3, H5.
  destruct (mblock_ok 0 1 Rplus Rminus Rmult Rdiv (fun v => Reqb v 0) rsum loudness_db n mt b H4 HF) as [EM GM]. rewrite EM. cbn [obind fst snd].
  destruct (detect_run eb (snd (scan rstep mt b)) H6) as [ED RD]. rewrite ED. cbn [obind].
  replace (length b <=? m)%nat with true by lia. cbn [oguard]. rewrite H1, HV. reflexivity.
Qed.
