(* C88: the design of the auditory filterbank.  C89: its processing. *)
From Coq Require Import ZArith Reals Lra Lia List Bool Psatz Sorted.
From Coquelicot Require Import Coquelicot.
From Verif Require Import Common CInt ListLemmas NthLemmas RealUtil BiquadModel BiquadSpec FirSpec FirModel DesignModel DesignSpec DesignProofs CascadeModel SteadySpec SteadyProofs
  PeakModel PeakSpec PeakProofs3 AuditoryModel AuditorySpec AuditoryProofs AuditoryProofs2 AuditoryProofs3 AuditoryProofs4 AuditoryProofs5 AuditoryProofs6.
Import ListNotations.
Local Open Scope R_scope.
Local Notation C := Complex.C.

(* C88: an initialised filterbank has stages on the ERB scale, resonators at the rates of their stages *)
Theorem C88_design_partial p allow n rate fb : init (construct p allow) n rate = Ok fb -> clear_numerators (fb_coeffs fb) ->
  valid_parameters p allow rate /\ exists poles,
    erb_scale (min_pole_frequency p) (step_erbs p) (Rmin (highest_pole_frequency p) (max_pole_nyquist_fraction p * rate / 2)) poles /\
    fb_bandwidths fb = map erb poles /\
    stage_rates allow true (max_samples_per_cycle p) (min_sample_rate p) rate poles (fb_rates fb) /\
    resonators (pole_zeta p) poles (fb_rates fb) (fb_coeffs fb).
Proof.
  intros H CN. destruct (init_built p allow n rate fb H CN) as (poles & B). split; [exact (B_valid _ _ _ _ _ _ B)|].
  exists poles. split; [exact (B_poles _ _ _ _ _ _ B)|]. split; [exact (B_bandwidths _ _ _ _ _ _ B)|].
  split; [exact (B_rates _ _ _ _ _ _ B)|exact (B_resonators _ _ _ _ _ _ B)].
Qed.
Print Assumptions C88_design_partial.

(* C88: every channel has gain one at the frequency reported as its peak *)
Theorem C88_unit_gain_partial p allow n rate fb k : init (construct p allow) n rate = Ok fb -> clear_numerators (fb_coeffs fb) ->
  (k < length (fb_coeffs fb))%nat -> unit_peak (fb_coeffs fb) (fb_rates fb) k (nth k (fb_peaks fb) 0).
Proof.
  intros H CN K. destruct (init_built p allow n rate fb H CN) as (poles & B).
  destruct (resonators_len _ _ _ _ (B_resonators _ _ _ _ _ _ B)) as (_ & L & _). apply (B_unit _ _ _ _ _ _ B). lia.
Qed.
Print Assumptions C88_unit_gain_partial.

(* C88: which stages are channels, and what the accessors return *)
Theorem C88_channels_partial p allow n rate fb : init (construct p allow) n rate = Ok fb -> clear_numerators (fb_coeffs fb) ->
  let stages := length (fb_coeffs fb) in
  (use_all_channels p = true -> fb_exposed fb = seq 0 stages) /\
  (use_all_channels p = false -> (0 < filterbank_size fb)%nat /\
     selected (first_channel p) (skip_every_n p) (max_channels p) (Z.of_nat stages) (fb_exposed fb)) /\
  forall channel, (channel < filterbank_size fb)%nat -> exists k r peak bw,
    nth_error (fb_exposed fb) channel = Some k /\ (k < stages)%nat /\
    sample_rate_of fb channel = Ok r /\ nth_error (fb_rates fb) k = Some r /\
    peak_frequency_hz fb channel = Ok peak /\ nth_error (fb_peaks fb) k = Some peak /\
    bandwidth_hz fb channel = Ok bw /\ nth_error (fb_bandwidths fb) k = Some bw.
Proof.
  intros H CN. destruct (init_built p allow n rate fb H CN) as (poles & B). cbv zeta.
  destruct (resonators_len _ _ _ _ (B_resonators _ _ _ _ _ _ B)) as (L1 & L & _). rewrite L. pose proof (B_exposed _ _ _ _ _ _ B) as E.
  pose proof (B_valid _ _ _ _ _ _ B) as (_ & _ & _ & _ & _ & _ & V7 & _).
  assert (U1 : use_all_channels p = true -> fb_exposed fb = seq 0 (length poles)).
  { intros U. unfold handle_channel_selection in E. rewrite U in E. now injection E. }
  assert (U2 : use_all_channels p = false -> (0 < filterbank_size fb)%nat /\ selected (first_channel p) (skip_every_n p) (max_channels p) (Z.of_nat (length poles)) (fb_exposed fb)).
  { intros U. destruct (V7 U) as (A1 & A2 & A3). destruct (selection_ok p (length poles) U A1 A2 A3) as (l & S & S1 & S2 & S3).
    destruct l as [|a l]; [rewrite S1 in E by reflexivity; discriminate|].
    destruct (Forall_dec (fun k => Z.of_nat k + skip_every_n p <= INT_MAX)%Z (fun k => Z_le_dec _ _) (a :: l)) as [F|F].
    - rewrite S2 in E by (try discriminate; assumption). injection E as E. unfold filterbank_size. rewrite <- E. split; [cbn; lia|exact S].
    - rewrite S3 in E by assumption. discriminate. }
  split; [exact U1|]. split; [exact U2|]. intros ch CH. unfold filterbank_size in *.
  destruct (nth_error (fb_exposed fb) ch) as [k|] eqn:EK; [|apply nth_error_None in EK; lia].
  assert (K : (k < length poles)%nat).
  { destruct (use_all_channels p).
    - rewrite U1 in EK by reflexivity. apply nth_error_In, in_seq in EK. lia.
    - destruct (U2 eq_refl) as (_ & S1 & _ & S3). apply (nth_error_nth _ _ 0%nat) in EK. rewrite <- EK.
      pose proof (S1 ch CH) as Q. destruct (S3 (Z.of_nat ch) ltac:(lia)) as [Q2 _]. lia. }
  assert (NE : forall l : list R, length l = length poles -> exists v, nth_error l k = Some v).
  { intros l LL. destruct (nth_error l k) eqn:Q; [eauto|]. apply nth_error_None in Q. lia. }
  destruct (NE (fb_rates fb) L1) as (r & R1). destruct (NE (fb_peaks fb) (B_peaks _ _ _ _ _ _ B)) as (w & P1).
  destruct (NE (fb_bandwidths fb)) as (bw & B1). { rewrite (B_bandwidths _ _ _ _ _ _ B). apply map_length. }
  exists k, r, w, bw. unfold sample_rate_of, peak_frequency_hz, bandwidth_hz, channel_value. rewrite EK, R1, P1, B1. auto 10.
Qed.
Print Assumptions C88_channels_partial.

(* C88: bad parameters are refused *)
Theorem C88_refuses p allow n rate : (0 < n)%nat -> ~ valid_parameters p allow rate -> init (construct p allow) n rate = CheckFail.
Proof.
  intros N V. unfold init. destruct (Nat.ltb_spec 0 n); [|lia]. cbn [oguard construct fb_params fb_allow]. now apply check_fail.
Qed.
Print Assumptions C88_refuses.

(* C88: with good parameters Init succeeds, unless one with fewer (lower) stages left out has a negligible coefficient *)
Theorem C88_succeeds_partial p allow n rate : valid_parameters p allow rate -> (0 < n)%nat -> use_all_channels p = true ->
  Rmin (highest_pole_frequency p) (max_pole_nyquist_fraction p * rate / 2) < rate / 2 ->
  (exists fb, init (construct p allow) n rate = Ok fb) \/
  exists m fb, min_pole_frequency p <= m /\ init (construct (with_lowest p m) allow) n rate = Ok fb /\ ~ clear_numerators (fb_coeffs fb).
Proof. exact (init_total p allow n rate). Qed.
Print Assumptions C88_succeeds_partial.

(* C88: Init cannot be called again: the coefficients of the first Init stay, and there is no sample rate for them *)
Theorem C88_init_again_refuted p allow n rate fb n' rate' : init (construct p allow) n rate = Ok fb -> clear_numerators (fb_coeffs fb) ->
  (0 < n')%nat -> valid_parameters p allow rate' ->
  min_pole_frequency p < Rmin (highest_pole_frequency p) (max_pole_nyquist_fraction p * rate' / 2) < rate' / 2 ->
  init fb n' rate' = Undef.
Proof.
  intros H CN. destruct (init_built p allow n rate fb H CN) as (poles & B). now apply (init_again p allow n rate fb poles).
Qed.
Print Assumptions C88_init_again_refuted.

(* C88: max_pole_nyquist_fraction = 1 is accepted but a pole at half the sample rate is not *)
Theorem C88_nyquist_refuted p allow n rate : (0 < n)%nat -> valid_parameters p allow rate -> max_pole_nyquist_fraction p = 1 ->
  rate / 2 <= highest_pole_frequency p -> min_pole_frequency p < rate / 2 -> init (construct p allow) n rate = CheckFail.
Proof.
  intros N V F H M. pose proof V as (V1 & V2 & V3 & V4 & V5 & V6 & V7 & V8). unfold init. destruct (Nat.ltb_spec 0 n); [|lia].
  cbn [oguard construct fb_params fb_allow fb_coeffs]. rewrite check_ok by exact V.
  assert (HF : highest_frequency p rate = rate / 2) by (unfold highest_frequency; rewrite F, Rmin_right; lra).
  destruct (poles_ok p rate (proj1 V4) V6) as (poles & EP & ES). rewrite EP. cbn [obind]. rewrite HF in ES.
  destruct poles as [|q poles]; [cbn in ES; lra|]. destruct ES as (-> & _). cbn [design_stages]. unfold design_stage. cbv zeta.
  unfold decimate_first. cbn [Nat.ltb Nat.leb andb]. unfold resonator, bilinear_transform.
  rewrite Rltb_true by lra. rewrite Rleb_true by lra. rewrite Rltb_false by lra. reflexivity.
Qed.
Print Assumptions C88_nyquist_refuted.

(* C88: a large skip_every_n overflows an int *)
Theorem C88_selection_refuted p stages : use_all_channels p = false -> (0 <= first_channel p < Z.of_nat stages)%Z -> (0 < max_channels p)%Z ->
  skip_every_n p = INT_MAX -> (0 < first_channel p)%Z -> handle_channel_selection p stages = Undef.
Proof.
  intros U F M S F1. unfold handle_channel_selection. rewrite U. cbn [select].
  destruct (Z.ltb_spec (first_channel p) (Z.of_nat stages)); [|lia]. destruct (Z.ltb_spec 0 (max_channels p)); [|lia]. cbn [andb].
  rewrite S. destruct (Z.leb_spec (first_channel p + INT_MAX) INT_MAX); [lia|]. reflexivity.
Qed.
Print Assumptions C88_selection_refuted.

(* ---- a filterbank with one stage ---- *)
Definition one_stage : params :=
  {| highest_pole_frequency := 1000; max_pole_nyquist_fraction := 1; step_erbs := 1; max_samples_per_cycle := 12; min_sample_rate := 1000;
     pole_zeta := 1 / 4; min_pole_frequency := 900; use_all_channels := true; first_channel := 0; skip_every_n := 1; max_channels := 1 |}.
Lemma one_valid : valid_parameters one_stage true 4000.
Proof. unfold valid_parameters. cbn. repeat split; try lra; discriminate. Qed.
Lemma one_min : Rmin 1000 (1 * 4000 / 2) = 1000.
Proof. apply Rmin_left. lra. Qed.
Lemma one_poles poles : erb_scale 900 1 1000 poles -> poles = [1000].
Proof.
  destruct poles as [|q [|q2 poles]]; cbn; unfold erb.
  - lra.
  - intros (-> & _). reflexivity.
  - intros (_ & _ & _ & L & _). lra.
Qed.
Lemma one_K : compute_K 1000 4000 / (2 * PI * 1000) = 1.
Proof.
  pose proof PI_RGT_0. unfold compute_K. destruct (Rltb_spec 1000 (4000 * / 10000000)) as [L|_]; [lra|].
  replace (PI * 1000 / 4000) with (PI / 4) by field. rewrite tan_PI4. field. lra.
Qed.
Lemma one_res : res 1 (1 / 4) = {| b0 := 7 / 10; b1 := 4 / 10; b2 := 5 / 10; a0 := 1; a1 := 0; a2 := 6 / 10 |}.
Proof. unfold res, res_den. f_equal; field. Qed.
Lemma one_bound f h : has_value (res 1 (1 / 4)) (on_circle f 4000) h -> Cmod h <= 4.
Proof.
  intros [D <-]. rewrite one_res in *. set (z := on_circle f 4000) in *. assert (M : Cmod z = 1) by apply circle_mod.
  rewrite Cmod_div by exact D. unfold numerator, denominator in *. cbn [b0 b1 b2 a0 a1 a2] in *.
  set (nn := (RtoC (7 / 10) * z * z + RtoC (4 / 10) * z + RtoC (5 / 10))%C). set (dd := (RtoC 1 * z * z + RtoC 0 * z + RtoC (6 / 10))%C) in *.
  assert (B1 : Cmod nn <= 16 / 10).
  { unfold nn. eapply Rle_trans; [apply Cmod_triangle|]. eapply Rle_trans; [apply Rplus_le_compat_r, Cmod_triangle|].
    rewrite !Cmod_mult, !Cmod_R, !M, !Rabs_pos_eq by lra. lra. }
  assert (B2 : 4 / 10 <= Cmod dd).
  { assert (T : Cmod (z * z)%C <= Cmod dd + Cmod (- RtoC (6 / 10))%C).
    { replace (z * z)%C with (dd + - RtoC (6 / 10))%C by (unfold dd; ring). apply Cmod_triangle. }
    rewrite Cmod_opp, Cmod_mult, M, Cmod_R, Rabs_pos_eq in T by lra. lra. }
  apply (Rmult_le_reg_r (Cmod dd)); [lra|]. unfold Rdiv. rewrite Rmult_assoc, Rinv_l by lra. lra.
Qed.
Example C88_ex : exists fb, init (construct one_stage true) 2 4000 = Ok fb /\ clear_numerators (fb_coeffs fb) /\
  fb_rates fb = [4000] /\ length (fb_coeffs fb) = 1%nat.
Proof.
  pose proof one_valid as V. pose proof V as (V1 & V2 & V3 & V4 & V5 & V6 & V7 & V8).
  destruct (poles_ok one_stage 4000 (proj1 V4) V6) as (poles & EP & ES). unfold highest_frequency in ES.
  cbn [highest_pole_frequency max_pole_nyquist_fraction min_pole_frequency step_erbs one_stage] in ES. rewrite one_min in ES. apply one_poles in ES. subst poles.
  assert (P : 0 < 1000 < 4000 / 2) by lra.
  destruct (stage_ok one_stage true 2 ltac:(lia) V5 V8 0 4000 1000 [] start (start_inv 2) P) as (d & g & E & GN & I & ER & _).
  { change (next_rate one_stage true 0 4000 1000) with 4000. destruct (resonator_ok one_stage V5 4000 1000 P) as (_ & G & CB).
    apply append_first; [now apply good_clear|exact CB]. }
  change (next_rate one_stage true 0 4000 1000) with 4000 in *. cbn [app start d_rates] in *.
  assert (RE : stage_res one_stage 4000 1000 = res 1 (1 / 4)) by (unfold stage_res; rewrite one_K; reflexivity).
  rewrite RE in I. pose proof (I_unit _ _ _ I 0%nat ltac:(cbn; lia)) as (r & h & NR & W & CH & M & _). rewrite ER in NR, CH. injection NR as <-.
  assert (GB : 1 / 8 <= Rabs g).
  { destruct CH as (h1 & r & RS & NR & ->). injection NR as <-. cbn [firstn response] in RS. destruct RS as (h2 & h3 & VV & -> & ->).
    assert (V2' : has_value (res 1 (1 / 4)) (on_circle (nth 0 (d_peaks d) 0) 4000) (h2 / RtoC g)%C).
    { apply (has_value_scale g); [exact GN|]. replace (RtoC g * (h2 / RtoC g))%C with h2; [exact VV|]. field. intros Q. apply GN. now apply RtoC_inj. }
    apply one_bound in V2'. rewrite Cmod_div, Cmod_R in V2' by (intros Q; apply GN; now apply RtoC_inj).
    assert (G0 : 0 < Rabs g) by now apply Rabs_pos_lt.
    assert (T : Cmod (RtoC 1 - / on_circle (nth 0 (d_peaks d) 0) 4000)%C <= 2).
    { unfold Cminus. eapply Rle_trans; [apply Cmod_triangle|]. rewrite Cmod_opp, Cmod_1, Cmod_inv by apply circle_nz.
      unfold on_circle. rewrite circle_mod, Rinv_1. lra. }
    rewrite Cmult_1_r, Cmod_mult in M. apply (Rmult_le_compat_r (Rabs g)) in V2'; [|lra]. unfold Rdiv in V2'. rewrite Rmult_assoc, Rinv_l, Rmult_1_r in V2' by lra.
    pose proof (Cmod_ge_0 (RtoC 1 - / on_circle (nth 0 (d_peaks d) 0) 4000)%C). pose proof (Cmod_ge_0 h2). nra. }
  unfold init. cbn [Nat.ltb Nat.leb oguard construct fb_params fb_allow fb_coeffs]. rewrite check_ok by exact V. rewrite EP. cbn [obind design_stages]. fold start.
  rewrite E. cbn [obind]. unfold handle_channel_selection. cbn [use_all_channels one_stage obind].
  eexists. split; [reflexivity|]. cbn [fb_coeffs fb_rates]. rewrite ER, (I_coeffs _ _ _ I). cbn [coeffs_of]. split; [|auto].
  constructor; [|constructor]. rewrite one_res. unfold adjust_stage, set_b, vec_b. cbn [b2 map nth]. rewrite Rabs_mult, (Rabs_pos_eq (5 / 10)) by lra. lra.
Qed.
Example C88_rates_ex : stage_rates true true 12 1000 8000 [600; 300; 100] [8000; 4000; 2000].
Proof.
  cbn [stage_rates].
  split; [intros (_ & Q & _); discriminate|]. split; [reflexivity|].
  split; [intros _; lra|]. split; [intros N; exfalso; apply N; repeat split; lra|].
  split; [intros _; lra|]. split; [intros N; exfalso; apply N; repeat split; lra|exact I].
Qed.
Example C88_again_ex : exists fb, init (construct one_stage true) 2 4000 = Ok fb /\ init fb 2 4000 = Undef.
Proof.
  destruct C88_ex as (fb & E & CN & _). exists fb. split; [exact E|].
  apply (C88_init_again_refuted one_stage true 2 4000 fb 2 4000 E CN); [lia|exact one_valid|].
  cbn [one_stage min_pole_frequency highest_pole_frequency max_pole_nyquist_fraction]. rewrite one_min. lra.
Qed.

(* ---- C89 ---- *)
Lemma built_rates p allow n rate fb poles : Built p allow n rate fb poles -> exists rates, fb_rates fb = rate :: rates /\ halving rate rates /\ 0 < rate.
Proof.
  intros B. pose proof (B_rates _ _ _ _ _ _ B) as S. pose proof (B_nonempty _ _ _ _ _ _ B) as NE. pose proof (B_valid _ _ _ _ _ _ B) as (V & _).
  destruct poles as [|q poles]; [congruence|]. destruct (fb_rates fb) as [|r rates]; [destruct S|]. destruct S as (_ & S2 & S3).
  assert (r = rate) by (apply S2; intros (_ & Q & _); discriminate). subst r. exists rates. split; [reflexivity|].
  split; [exact (rates_halving _ _ _ _ _ _ _ S3)|exact V].
Qed.
Lemma built_process p allow n rate fb poles blocks : Built p allow n rate fb poles -> Forall (Forall (fun fr => length fr = n)) blocks ->
  exists fb' outs, run process_block fb blocks = Ok (fb', outs) /\ Forall (fun o => length o = length (fb_coeffs fb)) outs /\ reset fb' = Ok fb /\
    fb_exposed fb' = fb_exposed fb /\ fb_rates fb' = fb_rates fb /\ fb_peaks fb' = fb_peaks fb /\ fb_bandwidths fb' = fb_bandwidths fb /\
    forall i, (i < n)%nat -> bank rate (fb_coeffs fb) (fb_rates fb) (channel 0 i (concat blocks))
      (map (fun j => channel 0 i (stage_signal j outs)) (seq 0 (length (fb_coeffs fb)))).
Proof.
  intros B HF. destruct (built_rates _ _ _ _ _ _ B) as (rates & ER & HV & R0).
  destruct (resonators_len _ _ _ _ (B_resonators _ _ _ _ _ _ B)) as (L1 & L & _).
  apply (process_ok fb n (fb_coeffs fb) rate rates blocks ER (B_mics _ _ _ _ _ _ B) (B_n _ _ _ _ _ _ B)).
  - intros Q. rewrite Q in L. destruct poles; [exact (B_nonempty _ _ _ _ _ _ B eq_refl)|discriminate].
  - exact (B_filters _ _ _ _ _ _ B).
  - lia.
  - now apply halving_falling.
  - rewrite <- ER. exact (B_decimators _ _ _ _ _ _ B).
  - rewrite L. exact (B_diffs _ _ _ _ _ _ B).
  - exact HF.
Qed.

(* C89: whatever the block sizes, stage k of microphone i is what the definition of the filterbank gives; Reset restores the state after Init *)
Theorem C89_filterbank_partial p allow n rate fb blocks : init (construct p allow) n rate = Ok fb -> clear_numerators (fb_coeffs fb) ->
  Forall (Forall (fun fr => length fr = n)) blocks ->
  exists fb' outs, run process_block fb blocks = Ok (fb', outs) /\
    Forall (fun o => length o = length (fb_coeffs fb)) outs /\ reset fb' = Ok fb /\
    (forall i, (i < n)%nat -> bank rate (fb_coeffs fb) (fb_rates fb) (channel 0 i (concat blocks))
      (map (fun j => channel 0 i (concat (map (fun o => nth j o []) outs))) (seq 0 (length (fb_coeffs fb))))).
Proof.
  intros H CN HF. destruct (init_built p allow n rate fb H CN) as (poles & B).
  destruct (built_process _ _ _ _ _ _ blocks B HF) as (fb' & outs & E & FO & RS & _ & _ & _ & _ & BK). exists fb', outs. auto.
Qed.
Print Assumptions C89_filterbank_partial.
Example C89_ex : exists fb fb' outs, init (construct one_stage true) 2 4000 = Ok fb /\
  run process_block fb [[[1; 2]; [3; 4]]; [[5; 6]]] = Ok (fb', outs) /\ reset fb' = Ok fb.
Proof.
  destruct C88_ex as (fb & E & CN & _).
  destruct (C89_filterbank_partial _ _ _ _ fb [[[1; 2]; [3; 4]]; [[5; 6]]] E CN) as (fb' & outs & R1 & _ & R2 & _); [repeat constructor|].
  exists fb, fb', outs. auto.
Qed.

(* C89: the outputs do not depend on how the input is cut into blocks *)
Theorem C89_block_size_partial p allow n rate fb blocks blocks' fb1 fb2 outs outs' : init (construct p allow) n rate = Ok fb -> clear_numerators (fb_coeffs fb) ->
  Forall (Forall (fun fr => length fr = n)) blocks -> concat blocks = concat blocks' ->
  run process_block fb blocks = Ok (fb1, outs) -> run process_block fb blocks' = Ok (fb2, outs') ->
  forall i j, (i < n)%nat -> (j < length (fb_coeffs fb))%nat ->
    channel 0 i (concat (map (fun o => nth j o []) outs)) = channel 0 i (concat (map (fun o => nth j o []) outs')).
Proof.
  intros H CN HF EC R1 R2 i j Hi Hj. destruct (init_built p allow n rate fb H CN) as (poles & B).
  assert (HF' : Forall (Forall (fun fr : list R => length fr = n)) blocks') by (apply Forall_concat_inv; rewrite <- EC; now apply List.Forall_concat).
  destruct (built_process _ _ _ _ _ _ blocks B HF) as (f1 & o1 & E1 & _ & _ & _ & _ & _ & _ & B1). rewrite R1 in E1. injection E1 as <- <-.
  destruct (built_process _ _ _ _ _ _ blocks' B HF') as (f2 & o2 & E2 & _ & _ & _ & _ & _ & _ & B2). rewrite R2 in E2. injection E2 as <- <-.
  destruct (resonators_len _ _ _ _ (B_resonators _ _ _ _ _ _ B)) as (_ & _ & ST).
  specialize (B1 i Hi). specialize (B2 i Hi). rewrite <- EC in B2. pose proof (bank_unique _ _ _ _ _ _ ST B1 B2) as EQ.
  apply (f_equal (fun l => nth j l (channel 0 i (stage_signal 0 [])))) in EQ.
  rewrite !(nth_indep (map _ _) (channel 0 i (stage_signal 0 [])) []) in EQ by (rewrite map_length, seq_length; exact Hj).
  rewrite (nth_indep _ _ ((fun j => channel 0 i (stage_signal j outs)) 0%nat)) in EQ by (rewrite map_length, seq_length; exact Hj).
  rewrite (map_nth (fun j => channel 0 i (stage_signal j outs))), seq_nth in EQ by exact Hj.
  rewrite (nth_indep _ _ ((fun j => channel 0 i (stage_signal j outs')) 0%nat)) in EQ by (rewrite map_length, seq_length; exact Hj).
  rewrite (map_nth (fun j => channel 0 i (stage_signal j outs'))), seq_nth in EQ by exact Hj. exact EQ.
Qed.
Print Assumptions C89_block_size_partial.

(* C89: FilteredOutput returns the block of the stage the channel stands for *)
Theorem C89_filtered_output_partial p allow n rate fb x fb' outs channel : init (construct p allow) n rate = Ok fb -> clear_numerators (fb_coeffs fb) ->
  Forall (fun fr => length fr = n) x -> process_block fb x = Ok (fb', outs) -> (channel < filterbank_size fb)%nat ->
  exists k y, nth_error (fb_exposed fb) channel = Some k /\ nth_error outs k = Some y /\ filtered_output fb' outs channel = Ok y.
Proof.
  intros H CN HF R Hc. destruct (C88_channels_partial p allow n rate fb H CN) as (_ & _ & A). destruct (A channel Hc) as (k & _ & _ & _ & EK & K & _).
  destruct (init_built p allow n rate fb H CN) as (poles & B).
  destruct (built_process _ _ _ _ _ _ [x] B) as (f1 & o1 & E1 & FO & _ & EX & _); [constructor; [exact HF|constructor]|].
  cbn [run] in E1. rewrite R in E1. cbn [obind fst snd] in E1. injection E1 as <- <-. inversion FO as [|? ? LO _]; subst.
  destruct (nth_error outs k) as [y|] eqn:EY; [|apply nth_error_None in EY; lia]. exists k, y. split; [exact EK|]. split; [exact EY|].
  unfold filtered_output. now rewrite EX, EK, EY.
Qed.
Print Assumptions C89_filtered_output_partial.

Lemma response_unique f cs rates : forall h h', response cs rates f h -> response cs rates f h' -> h = h'.
Proof.
  revert rates. induction cs as [|c cs IH]; intros [|r rates] h h' H H'; cbn [response] in *; try tauto; try congruence.
  destruct H as (x & y & (D & <-) & E & ->). destruct H' as (x' & y' & (D' & <-) & E' & ->). now rewrite (IH _ _ _ E E').
Qed.
Lemma channel_response_unique cs rates k f h h' : channel_response cs rates k f h -> channel_response cs rates k f h' -> h = h'.
Proof.
  intros (a & r & E & N & ->) (a' & r' & E' & N' & ->). rewrite N in N'. injection N' as ->. now rewrite (response_unique _ _ _ _ _ E E').
Qed.
Lemma nth_error_Some_lt {A} (l : list A) k v : nth_error l k = Some v -> (k < length l)%nat.
Proof. intros H. apply nth_error_Some. congruence. Qed.

(* C89: a sinusoid of f Hz comes out of channel j as a sinusoid of f Hz, with the channel's response, which has magnitude one at the reported peak *)
Theorem C89_frequency_response_partial p allow n rate fb (x : nat -> list R) i : init (construct p allow) n rate = Ok fb -> clear_numerators (fb_coeffs fb) ->
  (forall k, length (x k) = n) -> (i < n)%nat ->
  exists ys : list (nat -> R), length ys = length (fb_coeffs fb) /\
    (forall blocks k, concat blocks = first_frames x k -> exists fb' outs, run process_block fb blocks = Ok (fb', outs) /\
       forall j, (j < length (fb_coeffs fb))%nat -> exists m, INR k * nth j (fb_rates fb) 0 <= INR m * rate /\
         channel 0 i (concat (map (fun o => nth j o []) outs)) = map (nth j ys (fun _ => 0)) (seq 0 m)) /\
    forall f A, settles (channel_of i x) (sinusoid A (on_circle f rate)) ->
      forall j h, channel_response (fb_coeffs fb) (fb_rates fb) j f h ->
        settles (nth j ys (fun _ => 0)) (sinusoid (h * A)%C (on_circle f (nth j (fb_rates fb) 0))) /\
        (f = nth j (fb_peaks fb) 0 -> Cmod (h * A)%C = Cmod A).
Proof.
  intros H CN HL Hi. destruct (init_built p allow n rate fb H CN) as (poles & B).
  destruct (built_rates _ _ _ _ _ _ B) as (rates & ER & HV & R0).
  destruct (resonators_len _ _ _ _ (B_resonators _ _ _ _ _ _ B)) as (L1 & L & ST).
  destruct (streams (fb_coeffs fb) rate (fb_rates fb) (channel_of i x) ST ltac:(lia) R0) as (ys & LY & BK & SE).
  { rewrite ER. split; [now left|exact HV]. }
  exists ys. split; [exact LY|]. split.
  2:{ intros f A SA j h CR. split; [now apply (SE f A)|]. intros ->. rewrite Cmod_mult.
      assert (J : (j < length (fb_coeffs fb))%nat).
      { destruct CR as (h1 & r & _ & NR & _). apply nth_error_Some_lt in NR. lia. }
      destruct (C88_unit_gain_partial p allow n rate fb j H CN J) as (r & h' & _ & _ & CR' & M & _).
      rewrite (channel_response_unique _ _ _ _ _ _ CR CR'), M. ring. }
  intros blocks k EB.
  assert (HF : Forall (Forall (fun fr : list R => length fr = n)) blocks).
  { apply Forall_concat_inv. rewrite EB. unfold first_frames. apply Forall_forall. intros fr Q. apply in_map_iff in Q as (j & <- & _). apply HL. }
  destruct (built_process _ _ _ _ _ _ blocks B HF) as (fb' & outs & E & _ & _ & _ & _ & _ & _ & B1). exists fb', outs. split; [exact E|].
  destruct (BK k) as (ms & MM & B2). specialize (B1 i Hi).
  assert (EX : channel 0 i (concat blocks) = map (channel_of i x) (seq 0 k)) by (rewrite EB; unfold channel, first_frames; rewrite map_map; reflexivity).
  rewrite EX in B1. pose proof (bank_unique _ _ _ _ _ _ ST B1 B2) as EQ. intros j Hj. exists (nth j ms 0%nat). split; [now apply MM|].
  apply (f_equal (fun l => nth j l [])) in EQ.
  rewrite (nth_indep _ _ ((fun j => channel 0 i (stage_signal j outs)) 0%nat)) in EQ by (rewrite map_length, seq_length; exact Hj).
  rewrite (map_nth (fun j => channel 0 i (stage_signal j outs))), seq_nth in EQ by exact Hj.
  rewrite (nth_indep _ _ ((fun j => map (nth j ys (fun _ => 0)) (seq 0 (nth j ms 0%nat))) 0%nat)) in EQ by (rewrite map_length, seq_length; exact Hj).
  rewrite (map_nth (fun j => map (nth j ys (fun _ => 0)) (seq 0 (nth j ms 0%nat)))), seq_nth in EQ by exact Hj. exact EQ.
Qed.
Print Assumptions C89_frequency_response_partial.

(* C89: after Init without stages ProcessBlock reads filters_[0] of an empty vector *)
Theorem C89_no_stages_refuted : exists p fb, init (construct p true) 1 4000 = Ok fb /\ forall x, process_block fb x = Undef.
Proof.
  set (p := with_lowest one_stage 2000). exists p.
  assert (V : valid_parameters p true 4000) by (unfold valid_parameters; cbn; repeat split; try lra; discriminate).
  destruct (poles_ok p 4000) as (poles & EP & ES); [cbn; lra|cbn; lra|].
  assert (poles = []). { destruct poles as [|q poles]; [reflexivity|]. unfold highest_frequency in ES. cbn in ES. rewrite one_min in ES. lra. } subst poles.
  unfold init. cbn [Nat.ltb Nat.leb oguard construct fb_params fb_allow fb_coeffs]. rewrite check_ok by exact V. rewrite EP. cbn [obind design_stages].
  eexists. split; [reflexivity|]. intros x. reflexivity.
Qed.
Print Assumptions C89_no_stages_refuted.
