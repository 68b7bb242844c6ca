From Verif Require Import Common ListLemmas Mealy RealUtil BiquadModel DesignModel DesignProofs LadderProofs LadderProofs3 EnvelopeModel EnvelopeSpec.
From Coq Require Import Psatz.
Local Open Scope R_scope.

Lemma coefficient_range s fs : 0 < fs -> 0 <= s -> 0 < coefficient_of s fs <= 1.
Proof.
  intros Hf Hs. unfold coefficient_of, first_order_coefficient. destruct (Reqb_spec (s * fs) 0) as [E|N]; [lra|].
  assert (P : 0 < s * fs) by (pose proof (Rmult_le_pos s fs Hs ltac:(lra)); lra).
  assert (Q : -1 / (s * fs) < 0) by (unfold Rdiv; pose proof (Rinv_0_lt_compat _ P); lra).
  pose proof (exp_pos (-1 / (s * fs))). pose proof (exp_increasing _ _ Q) as EI. rewrite exp_0 in EI. lra.
Qed.

(* one channel smoothers *)
Definition row (f : biquad R) : R * R := nth 0 (rows f) (0, 0).
Lemma sample_one f v : length (rows f) = 1%nat ->
  biquad_sample Rplus Rminus Rmult f [v] = Ok (with_rows f [fst (channel_step Rplus Rminus Rmult f (row f) v)], [snd (channel_step Rplus Rminus Rmult f (row f) v)]).
Proof.
  intros H. unfold biquad_sample, row. destruct (rows f) as [|r [|]]; try discriminate. reflexivity.
Qed.
Lemma steady_one f v : length (rows f) = 1%nat ->
  set_steady_state 1 Rplus Rdiv f [v] = Ok (with_rows f [(v / (fb1 f + fb2 f + 1), v / (fb1 f + fb2 f + 1))]).
Proof. intros H. unfold set_steady_state. rewrite H. reflexivity. Qed.
Lemma init_one c f : biquad_init 0 1 Rmult Rdiv (fun x => Reqb x 0) 1 c = Ok f -> length (rows f) = 1%nat.
Proof. unfold biquad_init. intros H. apply ocheck_inv in H as [_ H]. apply ocheck_inv in H as [_ H]. cbv zeta in H. injection H as <-. reflexivity. Qed.

Lemma overdamped_with f r p q : overdamped f p q -> overdamped (with_rows f r) p q.
Proof. exact (fun H => H). Qed.

(* smoother of a coefficient: all values in [0,1] *)
Definition good_smoother (f : biquad R) (p q : R) : Prop := length (rows f) = 1%nat /\ overdamped f p q /\ within p q 0 1 (row f).
Definition good (p q : R) (e : envelope) (m : R) : Prop :=
  0 < sample_rate e /\ 0 < attack e <= 1 /\ 0 < release e <= 1 /\ 0 <= env e <= m /\
  good_smoother (attack_smoother e) p q /\ good_smoother (release_smoother e) p q.

Lemma good_steady f p q v : length (rows f) = 1%nat -> overdamped f p q -> 0 <= v <= 1 ->
  exists g, set_steady_state 1 Rplus Rdiv f [v] = Ok g /\ good_smoother g p q.
Proof.
  intros H HO HV. eexists. split; [now apply steady_one|]. split; [reflexivity|]. split; [exact HO|].
  cbn [row rows with_rows nth]. now apply within_steady.
Qed.
Lemma good_sample f p q v : good_smoother f p q -> 0 <= v <= 1 ->
  exists g y, biquad_sample Rplus Rminus Rmult f [v] = Ok (g, [y]) /\ good_smoother g p q /\ 0 <= y <= 1.
Proof.
  intros (H & HO & HW) HV. do 2 eexists. split; [now apply sample_one|].
  destruct (within_step f p q HO 0 1 (row f) v HW HV) as [W' Y]. split; [|exact Y].
  split; [reflexivity|]. split; [exact HO|exact W'].
Qed.

Lemma make_good a r rate fs : 0 <= a -> 0 <= r -> 0 < rate -> rate <= fs / 10 -> exists e p q, env_make a r rate fs = Ok e /\ good p q e 0.
Proof.
  intros Ha Hr H1 H2. unfold env_make.
  destruct (design_ok (0, 0, (2 * PI * rate) * (2 * PI * rate)) (2 * PI * rate / (49 / 100)) ((2 * PI * rate) * (2 * PI * rate)) fs rate) as (c & EC & _); [lra|lra| | |].
  { pose proof PI_RGT_0. apply Rdiv_lt_0_compat; nra. } { pose proof PI_RGT_0. apply Rmult_lt_0_compat; nra. }
  assert (EL : lowpass fs rate (49 / 100) = Ok c).
  { unfold lowpass, check_arguments. rewrite (Rltb_true rate (fs / 2)), (Rltb_true 0 rate), (Rltb_true 0 (49 / 100)) by lra. exact EC. }
  rewrite EL. cbn [obind]. destruct (lowpass_overdamped fs rate (49 / 100) c H1 H2 ltac:(lra) EL) as [A0 HO].
  destruct (biquad_init 0 1 Rmult Rdiv (fun x => Reqb x 0) 1 c) as [f| |] eqn:EI.
  2,3: exfalso; unfold biquad_init in EI; cbn [Nat.leb ocheck] in EI; rewrite A0 in EI; destruct (Reqb_spec 1 0); [lra|discriminate].
  cbn [obind]. destruct (HO _ _ EI) as (p & q & OD). pose proof (init_one _ _ EI) as L.
  assert (F : 0 < fs) by lra. pose proof (coefficient_range a fs F Ha). pose proof (coefficient_range r fs F Hr).
  unfold env_reset. cbn [attack_smoother release_smoother attack release sample_rate].
  destruct (good_steady f p q (coefficient_of a fs) L OD ltac:(lra)) as (ga & E1 & G1). destruct (good_steady f p q (coefficient_of r fs) L OD ltac:(lra)) as (gr & E2 & G2).
  rewrite E1. cbn [obind]. rewrite E2. cbn [obind]. eexists. exists p, q. split; [reflexivity|]. unfold good. cbn [env attack release sample_rate attack_smoother release_smoother]. split; [lra|]. split; [lra|]. split; [lra|]. split; [lra|]. split; assumption.
Qed.

Definition next_peak (m : R) (o : env_op) : R := match o with EnvReset => 0 | Input x => Rmax m (Rabs x) | _ => m end.
Lemma step_good p q e m o : good p q e m -> match o with SetAttack s | SetRelease s => 0 <= s | _ => True end ->
  exists e' y, env_step e o = Ok (e', y) /\ good p q e' (next_peak m o) /\ (forall v, y = Some v -> 0 <= v <= next_peak m o).
Proof.
  intros (Hf & Ha & Hr & He & Ga & Gr) HO. destruct o as [s|s| |x]; cbn [env_step next_peak].
  - do 2 eexists. split; [reflexivity|]. split; [|discriminate]. unfold good, set_attack. cbn [env attack release sample_rate attack_smoother release_smoother].
    pose proof (coefficient_range s _ Hf HO). split; [lra|]. split; [lra|]. split; [lra|]. split; [lra|]. split; assumption.
  - do 2 eexists. split; [reflexivity|]. split; [|discriminate]. unfold good, set_release. cbn [env attack release sample_rate attack_smoother release_smoother].
    pose proof (coefficient_range s _ Hf HO). split; [lra|]. split; [lra|]. split; [lra|]. split; [lra|]. split; assumption.
  - unfold env_reset. destruct Ga as (La & Oa & _), Gr as (Lr & Or & _).
    destruct (good_steady _ p q (attack e) La Oa ltac:(lra)) as (ga & E1 & G1). destruct (good_steady _ p q (release e) Lr Or ltac:(lra)) as (gr & E2 & G2).
    rewrite E1. cbn [obind]. rewrite E2. cbn [obind]. do 2 eexists. split; [reflexivity|]. split; [|discriminate].
    unfold good. cbn [env attack release sample_rate attack_smoother release_smoother]. split; [lra|]. split; [lra|]. split; [lra|]. split; [lra|]. split; assumption.
  - unfold env_output. destruct (good_sample _ p q (attack e) Ga ltac:(lra)) as (ga & ya & E1 & G1 & Y1).
    destruct (good_sample _ p q (release e) Gr ltac:(lra)) as (gr & yr & E2 & G2 & Y2).
    cbv zeta. rewrite E1. cbn [obind]. rewrite E2. cbn [obind fst snd nth]. do 2 eexists. split; [reflexivity|].
    set (k := if Rltb (env e) (Rabs x) then ya else yr). assert (K : 0 <= k <= 1) by (unfold k; destruct (Rltb _ _); lra).
    assert (B : 0 <= env e + k * (Rabs x - env e) <= Rmax m (Rabs x)).
    { pose proof (Rabs_pos x). pose proof (Rmax_l m (Rabs x)). pose proof (Rmax_r m (Rabs x)). set (u := Rabs x) in *. set (M := Rmax m u) in *. set (v := env e) in *. split; [nra|]. replace (v + k * (u - v)) with ((1 - k) * v + k * u) by ring. nra. }
    split; [|intros v E; injection E as <-; exact B].
    unfold good. cbn [env attack release sample_rate attack_smoother release_smoother]. split; [lra|]. split; [lra|]. split; [lra|]. split; [lra|]. split; assumption.
Qed.

Lemma run_good p q : forall ops e m, good p q e m -> nonnegative_times ops ->
  exists e' outs, run env_step e ops = Ok (e', outs) /\ length outs = length ops /\
    forall n y, nth_error outs n = Some (Some y) -> 0 <= y <= fold_left next_peak (firstn (S n) ops) m.
Proof.
  induction ops as [|o ops IH]; intros e m G HN.
  - exists e, []. repeat split; try reflexivity; destruct n; discriminate.
  - destruct (step_good p q e m o G (Forall_inv HN)) as (e1 & y1 & E1 & G1 & B1). destruct (IH e1 _ G1 (Forall_inv_tail HN)) as (e2 & outs & E2 & L & B2).
    cbn [run]. rewrite E1. cbn [obind fst snd]. rewrite E2. cbn [obind fst snd]. do 2 eexists. split; [reflexivity|]. split; [cbn; now rewrite L|].
    intros [|n] y HY; cbn [nth_error] in HY; cbn [firstn fold_left].
    + injection HY as ->. now apply B1.
    + apply (B2 n y HY).
Qed.

(* steady smoothers, any rate *)
Definition unity (f : biquad R) : Prop := ff0 f + ff1 f + ff2 f = fb1 f + fb2 f + 1 /\ fb1 f + fb2 f + 1 <> 0.
Definition at_rest (f : biquad R) (v : R) : Prop := unity f /\ rows f = [(v / (fb1 f + fb2 f + 1), v / (fb1 f + fb2 f + 1))].
Lemma at_rest_sample f v : at_rest f v -> biquad_sample Rplus Rminus Rmult f [v] = Ok (f, [v]).
Proof.
  intros ((U & N) & R). rewrite sample_one by (rewrite R; reflexivity). unfold row. rewrite R. cbn [nth]. unfold channel_step. cbn [fst snd].
  set (d := fb1 f + fb2 f + 1) in *.
  assert (E : v - (v / d * fb1 f + v / d * fb2 f) = v / d) by (unfold d in *; field; exact N).
  rewrite E. f_equal. f_equal.
  - destruct f as [f0 f1 f2 g1 g2 r]. unfold with_rows. cbn in *. now rewrite R.
  - f_equal. transitivity (v / d * (ff0 f + ff1 f + ff2 f)); [field; exact N|]. rewrite U. fold d. field. exact N.
Qed.
Lemma lowpass_unity fs f Q c s : lowpass fs f Q = Ok c -> 0 < fs -> biquad_init 0 1 Rmult Rdiv (fun x => Reqb x 0) 1 c = Ok s -> unity s.
Proof.
  intros HC HF HI. unfold lowpass, check_arguments in HC. apply ocheck_inv in HC as [C1 HC]. apply ocheck_inv in HC as [C2 HC]. apply ocheck_inv in HC as [C3 HC].
  assert (F1 : f < fs / 2 /\ 0 < f /\ 0 < Q).
  { destruct (Rltb_spec f (fs / 2)), (Rltb_spec 0 f), (Rltb_spec 0 Q); try discriminate; lra. }
  cbv zeta in HC. unfold bilinear_transform in HC. apply ocheck_inv in HC as [_ HC]. apply ocheck_inv in HC as [_ HC]. apply ocheck_inv in HC as [_ HC]. cbv zeta in HC.
  set (w := 2 * PI * f) in *. assert (W : 0 < w) by (unfold w; pose proof PI_RGT_0; nra).
  pose proof (compute_K_pos f fs ltac:(lra) ltac:(lra)) as HK. set (K := compute_K f fs) in *.
  set (d := digital (0, 0, w * w) (1, w / Q, w * w) K) in *.
  assert (D0 : 0 < a0 d) by (apply digital_a0; [exact HK|apply Rdiv_lt_0_compat; lra|nra]).
  assert (c = normalize d) as -> by (injection HC as <-; reflexivity).
  assert (S1 : b0 d + b1 d + b2 d = 4 * (w * w)) by (unfold d; cbn; ring). assert (S2 : a0 d + a1 d + a2 d = 4 * (w * w)) by (unfold d; cbn; ring).
  clearbody d.
  unfold biquad_init in HI. apply ocheck_inv in HI as [_ HI]. apply ocheck_inv in HI as [_ HI]. cbv zeta in HI.
  match type of HI with Ok ?v = Ok _ => assert (s = v) as -> by congruence end.
  unfold unity. cbn [ff0 ff1 ff2 fb1 fb2]. unfold normalize. cbn [b0 b1 b2 a0 a1 a2].
  assert (E2 : 1 / (a0 d / a0 d) * (a1 d / a0 d) + 1 / (a0 d / a0 d) * (a2 d / a0 d) + 1 = 4 * (w * w) / a0 d) by (rewrite <- S2; field; lra).
  rewrite E2. split; [rewrite <- S1; field; lra|]. apply Rgt_not_eq, Rdiv_lt_0_compat; nra.
Qed.

Lemma make_rest a r rate fs : 0 < rate -> rate < fs / 2 -> exists e, env_make a r rate fs = Ok e /\ env e = 0 /\
  attack e = coefficient_of a fs /\ release e = coefficient_of r fs /\ at_rest (attack_smoother e) (attack e) /\ at_rest (release_smoother e) (release e).
Proof.
  intros H1 H2. unfold env_make.
  destruct (design_ok (0, 0, (2 * PI * rate) * (2 * PI * rate)) (2 * PI * rate / (49 / 100)) ((2 * PI * rate) * (2 * PI * rate)) fs rate) as (c & EC & HS & _); [lra|lra| | |].
  { pose proof PI_RGT_0. apply Rdiv_lt_0_compat; nra. } { pose proof PI_RGT_0. apply Rmult_lt_0_compat; nra. }
  assert (EL : lowpass fs rate (49 / 100) = Ok c).
  { unfold lowpass, check_arguments. rewrite (Rltb_true rate (fs / 2)), (Rltb_true 0 rate), (Rltb_true 0 (49 / 100)) by lra. exact EC. }
  rewrite EL. cbn [obind]. destruct HS as [A0 _].
  destruct (biquad_init 0 1 Rmult Rdiv (fun x => Reqb x 0) 1 c) as [f| |] eqn:EI.
  2,3: exfalso; unfold biquad_init in EI; cbn [Nat.leb ocheck] in EI; destruct (Reqb_spec (a0 c) 0); [lra|discriminate].
  cbn [obind]. pose proof (init_one _ _ EI) as L. pose proof (lowpass_unity _ _ _ _ _ EL ltac:(lra) EI) as U.
  unfold env_reset. cbn [attack_smoother release_smoother attack release sample_rate]. rewrite !steady_one by exact L. cbn [obind].
  eexists. split; [reflexivity|]. cbn [env attack release attack_smoother release_smoother]. repeat split; try reflexivity; apply U.
Qed.

Lemma run_rest : forall xs e, at_rest (attack_smoother e) (attack e) -> at_rest (release_smoother e) (release e) ->
  exists e', run env_output e xs = Ok (e', follower (attack e) (release e) (env e) xs).
Proof.
  induction xs as [|x xs IH]; intros e Ha Hr; [now exists e|].
  cbn [run follower]. unfold env_output at 1. cbv zeta. rewrite (at_rest_sample _ _ Ha). cbn [obind]. rewrite (at_rest_sample _ _ Hr). cbn [obind fst snd nth].
  set (y := env e + (if Rltb (env e) (Rabs x) then attack e else release e) * (Rabs x - env e)).
  assert (EY : y = if Rlt_dec (env e) (Rabs x) then (1 - attack e) * env e + attack e * Rabs x else (1 - release e) * env e + release e * Rabs x).
  { unfold y. destruct (Rltb_spec (env e) (Rabs x)), (Rlt_dec (env e) (Rabs x)); try lra; ring. }
  rewrite <- EY. destruct (IH {| env := y; attack := attack e; release := release e; sample_rate := sample_rate e; attack_smoother := attack_smoother e; release_smoother := release_smoother e |} Ha Hr) as [e' E].
  cbn [env attack release] in E. rewrite E. cbn [obind fst snd]. now exists e'.
Qed.

Lemma coefficient_factor tau fs : 0 < tau -> 0 < fs -> coefficient_of tau fs = smoothing_factor tau fs.
Proof.
  intros H1 H2. unfold coefficient_of, first_order_coefficient, smoothing_factor. destruct (Reqb_spec (tau * fs) 0); [nra|].
  f_equal. f_equal. field. split; lra.
Qed.
Lemma overdamped_unity f p q : overdamped f p q -> unity f.
Proof.
  intros H. pose proof (gain_sum f p q H). pose proof (gain_pos f p q H). destruct H as (_ & _ & _ & _ & _ & _ & E0 & E1 & E2).
  unfold unity. rewrite E0, E1, E2. lra.
Qed.
Lemma run_times p q fs : forall ops e m a r outs e1, good p q e m -> positive_times ops -> sample_rate e = fs ->
  attack e = coefficient_of a fs -> release e = coefficient_of r fs -> 0 < a -> 0 < r ->
  run env_step e ops = Ok (e1, outs) ->
  (exists m1, good p q e1 m1) /\ attack e1 = coefficient_of (fst (current_times a r ops)) fs /\ release e1 = coefficient_of (snd (current_times a r ops)) fs /\
  0 < fst (current_times a r ops) /\ 0 < snd (current_times a r ops).
Proof.
  induction ops as [|o ops IH]; intros e m a r outs e1 G HP HF EA ER Ha Hr E.
  - cbn in E. injection E as <- _. repeat split; try assumption. now exists m.
  - destruct (step_good p q e m o G) as (e2 & y & E1 & G1 & _).
    { pose proof (Forall_inv HP) as H. destruct o; try exact I; lra. }
    cbn [run] in E. rewrite E1 in E. cbn [obind fst snd] in E.
    destruct (run env_step e2 ops) as [[e3 o3]| |] eqn:ER2; [|discriminate|discriminate]. cbn [obind fst snd] in E. injection E as <- _.
    pose proof (Forall_inv HP) as HO. unfold current_times. cbn [fold_left].
    assert (SR : sample_rate e2 = fs /\ attack e2 = coefficient_of (match o with SetAttack s => s | _ => a end) fs /\ release e2 = coefficient_of (match o with SetRelease s => s | _ => r end) fs).
    { destruct o as [s|s| |x]; cbn [env_step] in E1.
      - injection E1 as <- _. cbn. now rewrite HF.
      - injection E1 as <- _. cbn. now rewrite HF.
      - unfold env_reset in E1. destruct G as (_ & _ & _ & _ & (La & _) & (Lr & _)). rewrite !steady_one in E1 by assumption. cbn [obind] in E1. injection E1 as <- _. cbn. auto.
      - unfold env_output in E1. destruct G as (_ & _ & _ & _ & (La & _) & (Lr & _)). cbv zeta in E1. rewrite !sample_one in E1 by assumption. cbn [obind fst snd] in E1. injection E1 as <- _. cbn. auto. }
    destruct SR as (S1 & S2 & S3).
    destruct o as [s|s| |x]; cbn [fst snd]; refine (IH e2 _ _ _ o3 e3 G1 (Forall_inv_tail HP) S1 S2 S3 _ _ ER2); assumption.
Qed.
Lemma reset_rest p q e m : good p q e m -> exists e2, env_reset e = Ok e2 /\ env e2 = 0 /\ attack e2 = attack e /\ release e2 = release e /\
  at_rest (attack_smoother e2) (attack e2) /\ at_rest (release_smoother e2) (release e2).
Proof.
  intros (_ & _ & _ & _ & (La & Oa & _) & (Lr & Or & _)). unfold env_reset. rewrite !steady_one by assumption. cbn [obind].
  eexists. split; [reflexivity|]. cbn [env attack release attack_smoother release_smoother].
  pose proof (overdamped_unity _ _ _ Oa). pose proof (overdamped_unity _ _ _ Or). repeat split; assumption || apply H || apply H0.
Qed.
