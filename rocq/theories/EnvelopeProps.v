(* C32: the attack/release envelope. *)
From Verif Require Import Common RealUtil BiquadModel DesignModel EnvelopeModel EnvelopeSpec EnvelopeProofs.
From Coq Require Import Psatz.
Local Open Scope R_scope.

(* For non-negative time constants and an interpolation rate up to a tenth of the sample rate
   (the default 200 Hz: any sample rate of 2 kHz or more), whatever history of calls is made:
   no call aborts, every output is non-negative and at most the largest rectified input since
   the last Reset.  This includes the samples after a change of the time constants, for which
   the header says positivity is not guaranteed. *)
Theorem C32_range : forall attack_s release_s rate fs ops,
  0 <= attack_s -> 0 <= release_s -> 0 < rate <= fs / 10 -> nonnegative_times ops ->
  exists e e' outs, env_make attack_s release_s rate fs = Ok e /\ run env_step e ops = Ok (e', outs) /\
    length outs = length ops /\
    forall n y, nth_error outs n = Some (Some y) -> 0 <= y <= peak (firstn (S n) ops).
Proof.
  intros a r rate fs ops Ha Hr [H1 H2] HN. destruct (make_good a r rate fs Ha Hr H1 H2) as (e & p & q & E & G).
  destruct (run_good p q ops e 0 G HN) as (e' & outs & ER & L & B). exists e, e', outs. repeat split; try assumption; now apply (B n).
Qed.
Print Assumptions C32_range.

(* the condition on the rate matters: a rate the constructor accepts (close to Nyquist) lets the
   envelope overshoot its input after the attack time is shortened *)
Lemma fast_lowpass : exists rate c, 0 < rate < 1 / 2 /\ lowpass 1 rate (49 / 100) = Ok c /\
  biquad_init 0 1 Rmult Rdiv (fun x => Reqb x 0) 1 c = Ok {| ff0 := 441 / 790; ff1 := 882 / 790; ff2 := 441 / 790; fb1 := 784 / 790; fb2 := 190 / 790; rows := [(0, 0)] |}.
Proof.
  assert (HP := PI_RGT_0). assert (HA : PI / 4 < atan 3) by (rewrite <- atan_1; apply atan_increasing; lra). destruct (atan_bound 3) as [_ HB].
  exists (atan 3 / PI). set (rate := atan 3 / PI).
  assert (RP : PI * rate = atan 3) by (unfold rate; field; lra).
  assert (R1 : / 4 < rate) by (apply (Rmult_lt_reg_l PI); lra). assert (R2 : rate < 1 / 2) by (apply (Rmult_lt_reg_l PI); lra).
  assert (EK : compute_K rate 1 = 2 * PI * rate / 3).
  { unfold compute_K. rewrite Rltb_false by lra. replace (PI * rate / 1) with (atan 3) by (rewrite <- RP; field). now rewrite tan_atan. }
  assert (W : 0 < 2 * PI * rate) by nra.
  exists {| b0 := 441 / 790; b1 := 882 / 790; b2 := 441 / 790; a0 := 1; a1 := 784 / 790; a2 := 190 / 790 |}.
  split; [lra|]. split.
  - unfold lowpass, check_arguments, bilinear_transform. rewrite (Rltb_true rate (1 / 2)), (Rltb_true 0 rate), (Rltb_true 0 (49 / 100)), (Rltb_true 0 1), (Rleb_true 0 rate) by lra.
    cbn [ocheck]. cbv zeta. rewrite EK. set (w := 2 * PI * rate) in *. clearbody w. f_equal. unfold normalize, make_coeffs, bilinear_map. cbn [fst snd b0 b1 b2 a0 a1 a2].
    assert (ED : 1 * (w / 3) * (w / 3) + w / (49 / 100) * (w / 3) + w * w = w * w * (790 / 441)) by field. rewrite ED.
    f_equal; field; lra.
  - unfold biquad_init. cbn [Nat.leb ocheck a0 a1 a2 b0 b1 b2]. destruct (Reqb_spec 1 0); [lra|]. cbn [negb ocheck repeat]. f_equal. f_equal; field.
Qed.

Theorem C32_fast_interpolation_refuted : exists attack_s release_s rate fs ops e e' outs,
  0 < attack_s /\ 0 < release_s /\ 0 < rate < fs / 2 /\ nonnegative_times ops /\
  env_make attack_s release_s rate fs = Ok e /\ run env_step e ops = Ok (e', outs) /\
  exists n y, nth_error outs n = Some (Some y) /\ peak (firstn (S n) ops) < y.
Proof.
  destruct fast_lowpass as (rate & c & HR & EL & EI).
  assert (FC : coefficient_of 1 1 = 1 - exp (-1)).
  { unfold coefficient_of, first_order_coefficient. destruct (Reqb_spec (1 * 1) 0); [lra|]. f_equal. f_equal. field. }
  assert (F0 : coefficient_of 0 1 = 1) by (unfold coefficient_of; destruct (Reqb_spec (0 * 1) 0); [reflexivity|lra]).
  set (al := 1 - exp (-1)) in *. assert (AL : 0 < al < 1).
  { unfold al. pose proof (exp_pos (-1)). assert (exp (-1) < exp 0) by (apply exp_increasing; lra). rewrite exp_0 in *. lra. }
  clearbody al. exists 1, 1, rate, 1, [SetAttack 0; Input 1; Input 1].
  set (sm := fun r => {| ff0 := 441 / 790; ff1 := 882 / 790; ff2 := 441 / 790; fb1 := 784 / 790; fb2 := 190 / 790; rows := [r] |}) in *.
  set (s0 := al / (784 / 790 + 190 / 790 + 1)).
  assert (EM : env_make 1 1 rate 1 = Ok {| env := 0; attack := al; release := al; sample_rate := 1; attack_smoother := sm (s0, s0); release_smoother := sm (s0, s0) |}).
  { unfold env_make. rewrite EL. cbn [obind]. rewrite EI. cbn [obind]. rewrite FC. reflexivity. }
  set (step := fun s x => channel_step Rplus Rminus Rmult (sm (0, 0)) s x).
  set (a1' := step (s0, s0) 1). set (a2' := step (fst a1') 1).
  set (r1 := step (s0, s0) al). set (r2 := step (fst r1) al).
  set (y1 := 0 + snd a1' * (1 - 0)).
  assert (EY1 : y1 = al + 441 / 790 * (1 - al)).
  { unfold y1, a1', step, channel_step, s0. cbn [fst snd ff0 ff1 ff2 fb1 fb2 sm]. field. }
  set (y2 := y1 + snd a2' * (1 - y1)).
  assert (EA2 : snd a2' = al + (1 - al) * (441 / 790 * (1 - 784 / 790) + 882 / 790)).
  { unfold a2', a1', step, channel_step, s0. cbn [fst snd ff0 ff1 ff2 fb1 fb2 sm]. field. }
  assert (EN1 : env_step {| env := 0; attack := 1; release := al; sample_rate := 1; attack_smoother := sm (s0, s0); release_smoother := sm (s0, s0) |} (Input 1)
     = Ok ({| env := y1; attack := 1; release := al; sample_rate := 1; attack_smoother := sm (fst a1'); release_smoother := sm (fst r1) |}, Some y1)).
  { cbn [env_step]. unfold env_output. cbn [env attack release attack_smoother release_smoother]. rewrite !sample_one by reflexivity. cbn [obind fst snd nth].
    rewrite Rabs_R1. rewrite (Rltb_true 0 1) by lra. reflexivity. }
  assert (EN2 : env_step {| env := y1; attack := 1; release := al; sample_rate := 1; attack_smoother := sm (fst a1'); release_smoother := sm (fst r1) |} (Input 1)
     = Ok ({| env := y2; attack := 1; release := al; sample_rate := 1; attack_smoother := sm (fst a2'); release_smoother := sm (fst r2) |}, Some y2)).
  { cbn [env_step]. unfold env_output. cbn [env attack release attack_smoother release_smoother]. rewrite !sample_one by reflexivity. cbn [obind fst snd nth].
    rewrite Rabs_R1. rewrite (Rltb_true y1 1) by (rewrite EY1; lra). reflexivity. }
  do 3 eexists. split; [lra|]. split; [lra|]. split; [lra|]. split; [repeat constructor; lra|]. split; [exact EM|].
  split.
  - cbn [run]. cbn [env_step obind fst snd]. unfold set_attack. cbn [env attack release sample_rate attack_smoother release_smoother]. rewrite F0.
    change (env_step {| env := 0; attack := 1; release := al; sample_rate := 1; attack_smoother := sm (s0, s0); release_smoother := sm (s0, s0) |} (Input 1)) with
      (env_step {| env := 0; attack := 1; release := al; sample_rate := 1; attack_smoother := sm (s0, s0); release_smoother := sm (s0, s0) |} (Input 1)) in EN1.
    cbn [env_step] in EN1, EN2. rewrite EN1. cbn [obind fst snd]. rewrite EN2. cbn [obind fst snd]. reflexivity.
  - exists 2%nat, y2. split; [reflexivity|].
    unfold peak. cbn [firstn]. cbn [fold_left]. rewrite Rabs_R1. rewrite (Rmax_right 0 1), Rmax_left by lra.
    unfold y2. rewrite EA2. set (k := 441 / 790 * (1 - 784 / 790) + 882 / 790). assert (K : 1 < k) by (unfold k; lra).
    assert (C : 1 < al + (1 - al) * k) by nra. assert (Y : y1 < 1) by (rewrite EY1; lra). nra.
Qed.
Print Assumptions C32_fast_interpolation_refuted.

(* without a change of the time constants the output is the two-coefficient recursion with
   coefficient 1 - exp(-1/(time constant * sample rate)), for any accepted rate and from a
   freshly constructed object; one sample at a time, so there is no chunking to depend on *)
Theorem C32_recursion : forall attack_s release_s rate fs xs,
  0 < attack_s -> 0 < release_s -> 0 < rate < fs / 2 ->
  exists e e', env_make attack_s release_s rate fs = Ok e /\
    run env_output e xs = Ok (e', follower (smoothing_factor attack_s fs) (smoothing_factor release_s fs) 0 xs).
Proof.
  intros a r rate fs xs Ha Hr [H1 H2]. destruct (make_rest a r rate fs H1 H2) as (e & E & E0 & EA & ER & RA & RR).
  destruct (run_rest xs e RA RR) as [e' EO]. exists e, e'. split; [exact E|]. now rewrite EO, E0, EA, ER, !coefficient_factor by lra.
Qed.
Print Assumptions C32_recursion.

(* Reset after any calls restores the behaviour of a new object with the time constants in force
   (the smoothing of their last change is abandoned) *)
Theorem C32_reset : forall attack_s release_s rate fs ops xs,
  0 < attack_s -> 0 < release_s -> 0 < rate <= fs / 10 -> positive_times ops ->
  exists e e1 outs e2 e3, env_make attack_s release_s rate fs = Ok e /\ run env_step e ops = Ok (e1, outs) /\
    env_reset e1 = Ok e2 /\
    run env_output e2 xs = Ok (e3, follower (smoothing_factor (fst (current_times attack_s release_s ops)) fs)
                                            (smoothing_factor (snd (current_times attack_s release_s ops)) fs) 0 xs).
Proof.
  intros a r rate fs ops xs Ha Hr HR HP.
  assert (HN : nonnegative_times ops).
  { unfold nonnegative_times. eapply Forall_impl; [|exact HP]. intros [s|s| |x]; cbn; lra || auto. }
  destruct (make_good a r rate fs ltac:(lra) ltac:(lra) ltac:(lra) ltac:(lra)) as (e & p & q & E & G).
  destruct (make_rest a r rate fs ltac:(lra) ltac:(lra)) as (e' & E' & _ & EA & ER & _). rewrite E in E'. injection E' as <-.
  destruct (run_good p q ops e 0 G HN) as (e1 & outs & E1 & _ & _).
  assert (SR : sample_rate e = fs).
  { unfold env_make in E. destruct (lowpass _ _ _); [|discriminate|discriminate]. cbn [obind] in E. destruct (biquad_init _ _ _ _ _ _ _) as [f| |] eqn:EI; [|discriminate|discriminate]. cbn [obind] in E.
    pose proof (init_one _ _ EI). unfold env_reset in E. cbn [attack_smoother release_smoother attack release sample_rate] in E. rewrite !steady_one in E by assumption. cbn [obind] in E. now injection E as <-. }
  destruct (run_times p q fs ops e 0 a r outs e1 G HP SR EA ER Ha Hr E1) as ((m1 & G1) & EA1 & ER1 & P1 & P2).
  destruct (reset_rest p q e1 m1 G1) as (e2 & E2 & Z2 & A2 & R2 & RA & RR). destruct (run_rest xs e2 RA RR) as [e3 E3].
  exists e, e1, outs, e2, e3. rewrite E3, Z2, A2, R2, EA1, ER1, !coefficient_factor by lra. auto.
Qed.
Print Assumptions C32_reset.

(* a concrete history meeting the hypotheses of the range theorem, with a change of the attack
   time and a Reset: the bound on its last output is 2 *)
Example C32_example : 0 <= 1 / 20 /\ 0 <= 1 / 5 /\ 0 < 200 <= 48000 / 10 /\
  nonnegative_times [Input (-7); EnvReset; Input (-1); SetAttack 0; Input 2] /\
  peak [Input (-7); EnvReset; Input (-1); SetAttack 0; Input 2] = 2.
Proof.
  repeat split; try lra; [repeat constructor; lra|]. unfold peak. cbn [fold_left].
  rewrite (Rabs_left (-1)), (Rabs_pos_eq 2) by lra. rewrite (Rmax_right 0 (- -1)), Rmax_right by lra. reflexivity.
Qed.
