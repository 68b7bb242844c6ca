(* C40: automatic gain control. *)
From Coq Require Import ZArith Reals List Lia Lra.
From Flocq Require Import Core.
From Coquelicot Require Rcomplements.
From Verif Require Import Common CInt RealUtil MfccModel MfccProofs FastFunModel FastFunSpec FastFunProofs
  FastFunProofs2 FastFunProofs3 FastFunProofs4 FastFunProofs5 AgcModel AgcSpec AgcProofs.
Import ListNotations.
Local Open Scope R_scope.

(* Init accepts exactly the documented parameters. *)
Theorem C40_init rd fs tc s floor :
  (~ (0 < fs /\ 0 < tc /\ 0 <= s <= 1 /\ 0 < floor) -> agc_init rd fs tc s floor = Ok None) /\
  (0 < fs /\ 0 < tc /\ 0 <= s <= 1 /\ 0 < floor ->
   0 <= rd (rd (fs * tc) + 1 / 2) < IZR INT_MAX -> exists st, agc_init rd fs tc s floor = Ok (Some st)).
Proof.
  unfold agc_init.
  destruct (Rltb_spec 0 fs) as [H1|H1]; [|split; [reflexivity|lra]].
  destruct (Rltb_spec 0 tc) as [H2|H2]; [|split; [reflexivity|lra]].
  destruct (Rleb_spec 0 s) as [H3|H3]; [|split; [reflexivity|lra]].
  destruct (Rleb_spec s 1) as [H4|H4]; [|split; [reflexivity|lra]].
  destruct (Rltb_spec 0 floor) as [H5|H5]; [|split; [reflexivity|lra]].
  cbn [negb orb andb]. split; [intros N; exfalso; apply N; lra|].
  intros _ B. rewrite cast_int_ok by exact B. cbn [obind]. eexists. reflexivity.
Qed.
Print Assumptions C40_init.

(* In exact arithmetic, after Init and any samples l, the level is the
   documented average, with w the time constant in samples (rounded) and
   1 - c = exp(-1 / (time constant in samples)); Reset starts over. *)
Theorem C40_level fs tc s floor st0 :
  agc_init exact fs tc s floor = Ok (Some st0) ->
  exists w : nat, INR w - 1 / 2 <= fs * tc < INR w + 1 / 2 /\
  forall l,
    agc_level exact (agc_run exact st0 l) = estimate w (1 - exp (- / (tc * fs))) l /\
    agc_reset (agc_run exact st0 l) = st0.
Proof.
  intros H. apply init_inv in H. destruct H as (H1 & H2 & H3 & H4 & w & CI & ->).
  unfold exact in CI at 1 2.
  assert (P : 0 < tc * fs) by (apply Rmult_lt_0_compat; assumption).
  apply cast_int_inv in CI; [|lra]. destruct CI as (CI & W).
  exists (Z.to_nat w). rewrite INR_IZR_INZ, Z2Nat.id by lia. split; [lra|]. intros l.
  set (n := Z.to_nat w). assert (En : w = Z.of_nat n) by (unfold n; lia). clearbody n. rewrite En.
  split.
  - rewrite exact_level. f_equal. unfold exact. destruct (Reqb_spec (tc * fs) 0) as [E|_]; [lra|].
    replace (-1 / (tc * fs)) with (- / (tc * fs)) by (field; lra). reflexivity.
  - rewrite exact_state. destruct (Nat.ltb _ _); reflexivity.
Qed.
Print Assumptions C40_level.

(* The estimate lies between the extremes of 1 and the samples, and follows the
   samples monotonically (spec level; c from any accepted Init is in [0,1]). *)
Theorem C40_level_bounds fs tc s floor st0 a b l :
  agc_init exact fs tc s floor = Ok (Some st0) -> a <= 1 <= b ->
  Forall (fun x => a <= x <= b) l -> a <= agc_level exact (agc_run exact st0 l) <= b.
Proof.
  intros H HB F. destruct (C40_level _ _ _ _ _ H) as (w & _ & L). destruct (L l) as (-> & _).
  apply init_inv in H. destruct H as (H1 & H2 & _).
  assert (P : 0 < tc * fs) by (apply Rmult_lt_0_compat; assumption).
  apply estimate_bounds; [|exact HB|exact F].
  assert (0 < / (tc * fs)) by (apply Rinv_0_lt_compat; lra).
  pose proof (exp_pos (- / (tc * fs))). pose proof (exp_increasing (- / (tc * fs)) 0 ltac:(lra)) as I. rewrite exp_0 in I. lra.
Qed.
Print Assumptions C40_level_bounds.

(* Constant power p after the warm-up: the distance to p shrinks by exactly e per
   time constant. *)
Theorem C40_convergence fs tc s floor st0 p m l :
  agc_init exact fs tc s floor = Ok (Some st0) -> fs * tc + 1 / 2 <= INR (length l) ->
  agc_level exact (agc_run exact st0 (l ++ repeat p m)) - p =
  exp (- (INR m / (tc * fs))) * (agc_level exact (agc_run exact st0 l) - p).
Proof.
  intros H HL. destruct (C40_level _ _ _ _ _ H) as (w & Hw & L). rewrite (proj1 (L _)), (proj1 (L l)).
  apply init_inv in H. destruct H as (H1 & H2 & _).
  assert (P : 0 < tc * fs) by (apply Rmult_lt_0_compat; assumption).
  rewrite estimate_const.
  - f_equal. replace (1 - (1 - exp (- / (tc * fs)))) with (exp (- / (tc * fs))) by ring.
    rewrite <- Rpower_pow by apply exp_pos. unfold Rpower. rewrite ln_exp. f_equal. field. lra.
  - apply INR_le. lra.
Qed.
Print Assumptions C40_convergence.

(* In float arithmetic, for every history of non-negative power samples: the
   level stays non-negative and the gain is within 0.5% of
   (floor + level)^(-strength/2), and at most 1.005 floor^(-strength/2). *)
Theorem C40_gain fs tc s floor st0 l v :
  generic_format radix2 (FLT_exp (-149) 24) s -> s = 0 \/ bpow radix2 (-125) <= s ->
  generic_format radix2 (FLT_exp (-149) 24) floor -> bpow radix2 (-126) <= floor ->
  agc_init rnd32 fs tc s floor = Ok (Some st0) ->
  Forall (fun p => 0 <= p) l ->
  v = rnd32 (floor + agc_level rnd32 (agc_run rnd32 st0 l)) -> v < bpow radix2 128 ->
  0 <= agc_level rnd32 (agc_run rnd32 st0 l) /\
  rel_error_le (5 / 1000) (agc_gain rnd32 (agc_run rnd32 st0 l)) (power v (- (s / 2))) /\
  agc_gain rnd32 (agc_run rnd32 st0 l) <= 1005 / 1000 * power floor (- (s / 2)).
Proof.
  intros Fs Hs Ff Hf HI HL Ev Hv. destruct (good_init _ _ _ _ _ HI) as (c & w & Hc & G0).
  pose proof (good_run _ _ _ _ _ l Hc HL G0) as G. pose proof (good_level _ _ _ _ _ G) as N.
  split; [exact N|]. destruct G as (_ & E2 & E3 & _).
  apply init_inv in HI. destruct HI as (_ & _ & Hs1 & _).
  unfold agc_gain. rewrite E2, E3, <- Ev. rewrite (exponent_exact s Fs Hs).
  replace (- (1 / 2) * s) with (- (s / 2)) by field.
  assert (B : floor <= v). { rewrite Ev. rewrite <- (rnd_fmt floor Ff) at 1. apply rnd32_mono. lra. }
  assert (RE : rel_error_le (5 / 1000) (fast_pow (bits_of_float v) (- (s / 2))) (power v (- (s / 2)))).
  { apply pow_gain_err; [rewrite Ev; apply fmt_rnd|lra|lra]. }
  split; [exact RE|]. destruct RE as (P & RE). apply Rcomplements.Rabs_le_between in RE.
  assert (power v (- (s / 2)) <= power floor (- (s / 2))); [|lra].
  unfold power. pose proof (bpow_gt_0 radix2 (-126)) as P0.
  assert (ln floor <= ln v).
  { destruct (Req_dec floor v) as [<-|NE]; [lra|]. left. apply ln_increasing; lra. }
  assert (0 <= s / 2 * (ln v - ln floor)) by (apply Rmult_le_pos; lra).
  destruct (Req_dec (- (s / 2) * ln v) (- (s / 2) * ln floor)) as [->|NE]; [lra|].
  left. apply exp_increasing. lra.
Qed.
Print Assumptions C40_gain.

(* A louder level never gets a larger gain. *)
Theorem C40_gain_monotone fs tc s floor st0 l l' :
  generic_format radix2 (FLT_exp (-149) 24) floor -> bpow radix2 (-126) <= floor ->
  agc_init rnd32 fs tc s floor = Ok (Some st0) ->
  Forall (fun p => 0 <= p) l -> Forall (fun p => 0 <= p) l' ->
  agc_level rnd32 (agc_run rnd32 st0 l) <= agc_level rnd32 (agc_run rnd32 st0 l') ->
  rnd32 (floor + agc_level rnd32 (agc_run rnd32 st0 l')) < bpow radix2 128 ->
  agc_gain rnd32 (agc_run rnd32 st0 l') <= agc_gain rnd32 (agc_run rnd32 st0 l).
Proof.
  intros Ff Hf HI HL HL' HLe Hv. destruct (good_init _ _ _ _ _ HI) as (c & w & Hc & G0).
  pose proof (good_run _ _ _ _ _ l Hc HL G0) as G. pose proof (good_level _ _ _ _ _ G) as N.
  pose proof (good_run _ _ _ _ _ l' Hc HL' G0) as G'.
  destruct G as (_ & E2 & E3 & _). destruct G' as (_ & E2' & E3' & _).
  apply init_inv in HI. destruct HI as (_ & _ & Hs1 & _).
  unfold agc_gain. rewrite E2, E3, E2', E3'.
  apply pow_gain_mono; [apply fmt_rnd|apply fmt_rnd| |exact Hv|apply exponent_range; exact Hs1].
  split.
  - apply Rle_trans with floor; [exact Hf|]. rewrite <- (rnd_fmt floor Ff) at 1. apply rnd32_mono. lra.
  - apply rnd32_mono. lra.
Qed.
Print Assumptions C40_gain_monotone.

(* Strength 0 disables the control: the gain is exactly 1. *)
Theorem C40_strength_zero fs tc floor st0 l :
  agc_init rnd32 fs tc 0 floor = Ok (Some st0) -> Forall (fun p => 0 <= p) l ->
  agc_gain rnd32 (agc_run rnd32 st0 l) = 1.
Proof.
  intros HI HL. destruct (good_init _ _ _ _ _ HI) as (c & w & Hc & G0).
  pose proof (good_run _ _ _ _ _ l Hc HL G0) as (_ & E2 & _).
  unfold agc_gain. rewrite E2, Rmult_0_r, rnd32_0. unfold fast_pow. rewrite Rmult_0_r, rnd32_0.
  exact (fast_exp2_int 0 ltac:(lia)).
Qed.
Print Assumptions C40_strength_zero.

(* auto_gain_control.h:36-38 documents (1 + x[0]^2 + ... + x[n]^2) / (1 + n) on
   the nth sample; with a first sample of power 0 that is 1, the code's level is
   1/2. *)
Theorem C40_header_formula_refuted :
  ~ (forall fs tc s floor st0 l x,
       agc_init exact fs tc s floor = Ok (Some st0) -> INR (length l) + 2 <= fs * tc ->
       agc_level exact (agc_run exact st0 (l ++ [x])) = (1 + total (l ++ [x])) / (1 + INR (length l))).
Proof.
  intros H.
  assert (HI : exists st, agc_init exact 16000 (1 / 4) (1 / 2) (1 / 1000000) = Ok (Some st)).
  { apply C40_init; [lra|]. unfold exact. change (IZR INT_MAX) with 2147483647. lra. }
  destruct HI as (st & HI). pose proof (H _ _ _ _ _ [] 0 HI ltac:(cbn; lra)) as E.
  destruct (C40_level _ _ _ _ _ HI) as (w & Hw & L). rewrite (proj1 (L _)) in E.
  unfold estimate in E. cbn [app length] in E.
  destruct (Nat.ltb_spec 1 w) as [X|X]; [|apply le_INR in X; cbn in X; lra].
  cbn in E. lra.
Qed.
Print Assumptions C40_header_formula_refuted.

(* 16 kHz, 0.25 s, strength 0.5, floor 2^-20: accepted, and the hypotheses of
   C40_gain hold for one sample of power 1. *)
Example C40_example :
  generic_format radix2 (FLT_exp (-149) 24) (1 / 2) /\ bpow radix2 (-125) <= 1 / 2 /\
  generic_format radix2 (FLT_exp (-149) 24) (bpow radix2 (-20)) /\ bpow radix2 (-126) <= bpow radix2 (-20) /\
  exists st, agc_init rnd32 16000 (1 / 4) (1 / 2) (bpow radix2 (-20)) = Ok (Some st) /\
    Forall (fun p => 0 <= p) [1] /\
    rnd32 (bpow radix2 (-20) + agc_level rnd32 (agc_run rnd32 st [1])) < bpow radix2 128.
Proof.
  assert (F1 : generic_format radix2 (FLT_exp (-149) 24) (1 / 2)).
  { replace (1 / 2) with (bpow radix2 (-1)) by (cbn; lra). apply generic_format_bpow. vm_compute. discriminate. }
  split; [exact F1|]. split; [replace (1 / 2) with (bpow radix2 (-1)) by (cbn; lra); apply bpow_le; lia|].
  split; [apply generic_format_bpow; vm_compute; discriminate|]. split; [apply bpow_le; lia|].
  assert (R1 : 3999 <= rnd32 (16000 * (1 / 4)) <= 4001).
  { pose proof (rnd32_rel (16000 * (1 / 4))) as R. rewrite (Rabs_pos_eq (16000 * (1 / 4))) in R by lra.
    apply Rcomplements.Rabs_le_between in R. lra. }
  assert (R2 : 0 <= rnd32 (rnd32 (16000 * (1 / 4)) + 1 / 2) < 5000).
  { set (u := rnd32 (16000 * (1 / 4))) in *. clearbody u. pose proof (rnd32_rel (u + 1 / 2)) as R.
    rewrite (Rabs_pos_eq (u + 1 / 2)) in R by lra. apply Rcomplements.Rabs_le_between in R. lra. }
  destruct (C40_init rnd32 16000 (1 / 4) (1 / 2) (bpow radix2 (-20))) as (_ & I).
  destruct I as (st & I).
  { pose proof (bpow_gt_0 radix2 (-20)). lra. }
  { change (IZR INT_MAX) with 2147483647. lra. }
  exists st. split; [exact I|]. split; [repeat constructor; lra|].
  destruct (good_init _ _ _ _ _ I) as (c & w & Hc & G).
  pose proof I as I'. apply init_inv in I'. destruct I' as (_ & _ & _ & _ & w' & CI & E).
  assert (F2 : rnd32 2 = 2).
  { apply rnd_fmt. change 2 with (bpow radix2 1). apply generic_format_bpow. vm_compute. discriminate. }
  apply cast_int_inv in CI; [|lra].
  assert (R3 : 3998 <= rnd32 (rnd32 (16000 * (1 / 4)) + 1 / 2)).
  { set (u := rnd32 (16000 * (1 / 4))) in *. clearbody u. pose proof (rnd32_rel (u + 1 / 2)) as R.
    rewrite (Rabs_pos_eq (u + 1 / 2)) in R by lra. apply Rcomplements.Rabs_le_between in R. lra. }
  assert (W : (2 < w')%Z) by (apply lt_IZR; lra).
  assert (L : agc_level rnd32 (agc_run rnd32 st [1]) = 1).
  { rewrite E. cbn [agc_run fold_left]. unfold agc_process, fresh, agc_warm_up_process.
    cbn [ag_counter ag_warm_up ag_smoothed]. destruct (Z.leb_spec 1 w') as [_|X]; [|lia].
    change (1 + 1)%Z with 2%Z. destruct (Z.ltb_spec w' 2) as [X|_]; [lia|].
    unfold agc_level. cbn [ag_counter ag_warm_up ag_smoothed]. destruct (Z.leb_spec 2 w') as [_|X]; [|lia].
    replace (1 + 1) with 2 by ring. rewrite !F2. replace (2 / 2) with 1 by field. apply rnd32_1. }
  rewrite L. set (v := 1). assert (Hv : 0 <= v <= 2) by (unfold v; lra). clearbody v.
  assert (B20 : 0 < bpow radix2 (-20) <= 1) by (split; [apply bpow_gt_0|change 1 with (bpow radix2 0); apply bpow_le; lia]).
  clear G E. set (q := bpow radix2 (-20)) in *. clearbody q.
  pose proof (rnd32_rel (q + v)) as R. rewrite (Rabs_pos_eq (q + v)) in R by lra.
  apply Rcomplements.Rabs_le_between in R.
  apply Rlt_le_trans with (bpow radix2 3); [|apply bpow_le; lia].
  replace (bpow radix2 3) with 8 by reflexivity. lra.
Qed.
Print Assumptions C40_example.
