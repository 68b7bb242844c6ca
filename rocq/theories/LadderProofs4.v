(* Histories of a ladder filter: the smoothed reflection coefficients and tap gains. *)
From Verif Require Import Common ListLemmas Mealy RealUtil BiquadModel DesignModel CascadeModel LadderModel LadderSpec LadderProofs LadderProofs2 LadderProofs3.
From Coq Require Import Psatz.
Local Open Scope R_scope.

Section Ranged.
Variables (eps lo hi : R).
Hypothesis Heps : 0 < eps /\ 10 * eps < 1.
Hypothesis Hlo : -1 < lo.
Hypothesis Hhi : hi < 1.
Let inside (x : R) : Prop := lo <= x <= hi.
Lemma inside_force l : Forall inside l -> force_stability eps l = l.
Proof.
  intros H. apply force_id. eapply Forall_impl; [|exact H]. intros x [A B]. apply Rabs_def1; lra.
Qed.
Definition ranged (f : ladder) : Prop :=
  (exists p q, overdamped (reflection_smoother f) p q /\ Forall (within p q lo hi) (rows (reflection_smoother f))) /\
  Forall inside (reflection f) /\ Forall inside (reflection_target f).
Lemma smoother_reset_ranged s v s' p q : smoother_reset s v = Ok s' -> overdamped s p q -> Forall inside v ->
  overdamped s' p q /\ Forall (within p q lo hi) (rows s').
Proof.
  unfold smoother_reset, biquad_reset. destruct (1 <=? length (rows s))%nat; [|discriminate]. cbn [ocheck obind].
  unfold set_steady_state. destruct (_ =? _)%nat; [|discriminate]. cbn [oguard]. intros H HO HV. injection H as <-.
  split; [exact HO|]. cbn [rows with_rows fb1 fb2]. apply Forall_map. eapply Forall_impl; [|exact HV].
  intros x HX. cbv beta zeta. apply (within_steady _ _ _ HO). exact HX.
Qed.
Lemma smoother_step_ranged s v s' out p q : smoother_step s v = Ok (s', out) -> overdamped s p q -> Forall (within p q lo hi) (rows s) -> Forall inside v ->
  overdamped s' p q /\ Forall (within p q lo hi) (rows s') /\ Forall inside out.
Proof.
  unfold smoother_step, biquad_sample. destruct (_ && _)%bool; [|discriminate]. cbn [oguard]. cbv zeta. intros H HO HR HV.
  assert (HA : Forall (fun p' => within p q lo hi (fst p') /\ inside (snd p')) (combine (rows s) v)).
  { apply Forall_forall. intros [r x] HI. rewrite Forall_forall in HR, HV. split; [apply HR; now apply in_combine_l in HI|apply HV; now apply in_combine_r in HI]. }
  injection H as <- <-. split; [exact HO|]. cbn [rows with_rows].
  split; apply Forall_map; [apply Forall_map|apply Forall_map]; eapply Forall_impl; try exact HA; intros [r x] [A B]; cbn [fst snd] in *;
    apply (within_step _ _ _ HO lo hi r x A B).
Qed.
Lemma reset_ranged f f' : ladder_reset f = Ok f' -> (exists p q, overdamped (reflection_smoother f) p q) -> Forall inside (reflection f) -> Forall inside (reflection_target f) -> ranged f'.
Proof.
  unfold ladder_reset. intros H (p & q & HO) HR HT.
  destruct (smoother_reset (reflection_smoother f) _) as [rs| |] eqn:E; try discriminate. cbn [obind] in H.
  destruct (smoother_reset _ _) as [ts| |] in H; try discriminate. cbn [obind] in H. injection H as <-.
  destruct (smoother_reset_ranged _ _ _ p q E HO HT) as [O1 W1].
  split; [exists p, q; split; assumption|]. split; assumption.
Qed.
Lemma init_ranged fs fc Q c n k v f : lowpass fs fc Q = Ok c -> 0 < fc -> fc <= fs / 100 -> fs * / 10000000 <= fc -> 2 / 5 <= Q <= 1 / 2 ->
  ladder_init eps c n k v = Ok f -> Forall inside k -> ranged f /\ reflection f = k.
Proof.
  intros HC F1 F2 F3 HQ H HK. unfold ladder_init in H. do 3 apply ocheck_inv in H as [_ H]. cbv zeta in H.
  destruct (smoother_init c (length (force_stability eps k))) as [rs| |] eqn:E; try discriminate. cbn [obind] in H.
  destruct (smoother_init c _) as [ts| |] in H; try discriminate. cbn [obind] in H.
  destruct (proj2 (lowpass_overdamped fs fc Q c F1 ltac:(lra) HQ HC) _ rs E) as (p & q & HO).
  rewrite (inside_force k HK) in H. split.
  - eapply reset_ranged; [exact H|exists p, q; exact HO|exact HK|exact HK].
  - unfold ladder_reset in H. destruct (smoother_reset _ _) as [rs'| |] in H; try discriminate. cbn [obind] in H.
    destruct (smoother_reset _ _) as [ts'| |] in H; try discriminate. cbn [obind] in H. injection H as <-. reflexivity.
Qed.
Lemma change_ranged N f k v f' : ladder_change eps N f k v = Ok f' -> Forall inside k -> ranged f ->
  ranged f'.
Proof.
  unfold ladder_change. intros H HK (A & B & C). do 4 apply ocheck_inv in H as [_ H]. cbv zeta in H. injection H as <-.
  split; [exact A|]. split; [exact B|]. cbn [reflection_target]. rewrite inside_force by exact HK. exact HK.
Qed.
Lemma smooth_ranged f f' : smooth eps f = Ok f' -> ranged f -> ranged f'.
Proof.
  unfold smooth. intros H (A & B & C). destruct (smoothing_samples f) as [|[|n]].
  - injection H as <-. split; [exact A|]. split; assumption.
  - injection H as <-. split; [exact A|]. split; exact C.
  - destruct A as (p & q & HO & HW).
    destruct (smoother_step (reflection_smoother f) _) as [[rs out]| |] eqn:E; try discriminate. cbn [obind] in H.
    destruct (smoother_step (tap_gains_smoother f) _) as [ts| |]; try discriminate. cbn [obind] in H. injection H as <-.
    destruct (smoother_step_ranged _ _ _ _ p q E HO HW C) as (O1 & W1 & I1). cbn [fst snd].
    split; [exists p, q; split; assumption|]. split; [|exact C]. cbn [reflection]. rewrite inside_force by exact I1. exact I1.
Qed.
Lemma sample_ranged f frame f' out : ladder_sample eps f frame = Ok (f', out) -> ranged f -> ranged f'.
Proof.
  unfold ladder_sample. destruct (smooth eps f) as [f1| |] eqn:E; try discriminate. cbn [obind]. intros H HR.
  apply ocheck_inv in H as [_ H]. cbv zeta in H. injection H as <- _. apply (smooth_ranged f f1 E HR).
Qed.
Lemma step_ranged N f o f' out : ladder_step eps N f o = Ok (f', out) -> requests lo hi o -> ranged f -> ranged f'.
Proof.
  destruct o as [k v|b a| |frame]; cbn [ladder_step requests].
  - destruct (ladder_change eps N f k v) as [g| |] eqn:E; try discriminate. cbn [obind]. intros H S. injection H as <- <-. now apply (change_ranged N f k v).
  - unfold ladder_change_tf. destruct (make_ladder b a) as [kv| |] eqn:EM; try discriminate. cbn [obind].
    destruct (ladder_change eps N f (fst kv) (snd kv)) as [g| |] eqn:E; try discriminate. cbn [obind]. intros H S. injection H as <- <-.
    apply (change_ranged N f _ _ _ E). apply (S (fst kv) (snd kv)). now rewrite <- surjective_pairing.
  - destruct (ladder_reset f) as [g| |] eqn:E; try discriminate. cbn [obind]. intros H _ ((p & q & HO & _) & B & C). injection H as <- <-.
    apply (reset_ranged f g E); [exists p, q; exact HO|exact B|exact C].
  - intros H _. now apply (sample_ranged f frame f' out).
Qed.
Lemma run_ranged N ops : forall f f' outs, run (ladder_step eps N) f ops = Ok (f', outs) -> Forall (requests lo hi) ops -> ranged f -> ranged f'.
Proof.
  induction ops as [|o ops IH]; intros f f' outs H HF HR.
  - cbn in H. injection H as <- <-. exact HR.
  - cbn [run] in H. destruct (ladder_step eps N f o) as [[f1 out]| |] eqn:E; try discriminate. cbn [obind fst snd] in H.
    destruct (run (ladder_step eps N) f1 ops) as [[f2 outs2]| |] eqn:E2; try discriminate. cbn [obind fst snd] in H. injection H as <- _.
    apply (IH f1 f2 outs2 E2 (Forall_inv_tail HF)). apply (step_ranged N f o f1 out E (Forall_inv HF) HR).
Qed.
End Ranged.

(* the reflection coefficients are the requested ones after samples_max frames *)
Lemma sample_targets eps f frame f' out : ladder_sample eps f frame = Ok (f', out) ->
  reflection_target f' = reflection_target f /\ smoothing_samples f' = (smoothing_samples f - 1)%nat /\
  (smoothing_samples f' = O -> (smoothing_samples f = O /\ reflection f' = reflection f /\ scattering f' = scattering f) \/
     reflection f' = reflection_target f /\ scattering f' = scattering_of eps (reflection_target f)).
Proof.
  unfold ladder_sample, smooth. intros H. destruct (smoothing_samples f) as [|[|n]] eqn:EN.
  - cbn [obind] in H. apply ocheck_inv in H as [_ H]. cbv zeta in H. injection H as <- _. cbn. rewrite EN. tauto.
  - cbn [obind] in H. apply ocheck_inv in H as [_ H]. cbv zeta in H. injection H as <- _. cbn. tauto.
  - destruct (smoother_step (reflection_smoother f) _) as [rs| |]; try discriminate. cbn [obind] in H.
    destruct (smoother_step (tap_gains_smoother f) _) as [ts| |]; try discriminate. cbn [obind] in H.
    apply ocheck_inv in H as [_ H]. cbv zeta in H. injection H as <- _. cbn. split; [reflexivity|]. split; [lia|]. discriminate.
Qed.
Lemma run_settles eps frames : forall f f' outs, run (ladder_sample eps) f frames = Ok (f', outs) ->
  (0 < smoothing_samples f <= length frames)%nat ->
  reflection f' = reflection_target f /\ scattering f' = scattering_of eps (reflection_target f) /\ smoothing_samples f' = O.
Proof.
  assert (Z : forall frames f f' outs, run (ladder_sample eps) f frames = Ok (f', outs) -> smoothing_samples f = O ->
    reflection f' = reflection f /\ scattering f' = scattering f /\ smoothing_samples f' = O).
  { clear. induction frames as [|fr frames IH]; intros f f' outs H HZ.
    - cbn in H. injection H as <- _. tauto.
    - cbn [run] in H. destruct (ladder_sample eps f fr) as [[f1 out]| |] eqn:E; try discriminate. cbn [obind fst snd] in H.
      destruct (run (ladder_sample eps) f1 frames) as [[f2 outs2]| |] eqn:E2; try discriminate. cbn [obind fst snd] in H. injection H as <- _.
      unfold ladder_sample, smooth in E. rewrite HZ in E. cbn [obind] in E. apply ocheck_inv in E as [_ E]. cbv zeta in E. injection E as <- _.
      apply (IH _ _ _ E2). cbn. exact HZ. }
  induction frames as [|fr frames IH]; intros f f' outs H HN; [cbn in HN; lia|].
  cbn [run] in H. destruct (ladder_sample eps f fr) as [[f1 out]| |] eqn:E; try discriminate. cbn [obind fst snd] in H.
  destruct (run (ladder_sample eps) f1 frames) as [[f2 outs2]| |] eqn:E2; try discriminate. cbn [obind fst snd] in H. injection H as <- _.
  destruct (sample_targets eps f fr f1 out E) as (T1 & T2 & T3). cbn [length] in HN.
  destruct (Nat.eq_dec (smoothing_samples f1) 0) as [EZ|NZ].
  - destruct (T3 EZ) as [(X & _)|(R1 & S1)]; [lia|].
    destruct (Z frames f1 f2 outs2 E2 EZ) as (A & B & C). rewrite A, B, R1, S1. tauto.
  - rewrite <- T1. apply (IH f1 f2 outs2 E2). lia.
Qed.

Section Taps.
Variables (eps t0 t1 : R) (c : coeffs R).
Hypothesis Heps : 0 < eps /\ 10 * eps < 1.
Let k := [1 / 2].
(* silence: the state stays zero, the reflection coefficient 1/2, the tap gains below t0 and t1 *)
Definition low (f : ladder) : Prop :=
  reflection f = k /\ scattering f = scattering_of eps k /\ state f = [[0; 0]] /\
  (exists g0 g1, tap_gains f = [g0; g1] /\ g0 < t0 /\ g1 < t1) /\
  (smoothing_samples f = O \/
   reflection_target f = k /\ tap_gains_target f = [t0; t1] /\
   (exists p q s, overdamped (reflection_smoother f) p q /\ rows (reflection_smoother f) = [s] /\ within p q (1 / 2) (1 / 2) s) /\
   (exists p q s0 s1, overdamped (tap_gains_smoother f) p q /\ rows (tap_gains_smoother f) = [s0; s1] /\ below p q t0 s0 /\ below p q t1 s1)).
Lemma k_force : force_stability eps k = k.
Proof. apply force_id. repeat constructor. rewrite Rabs_pos_eq; lra. Qed.
Lemma silent_state : channel_update k (scattering_of eps k) [0; 0] 0 = [0; 0].
Proof. unfold k, scattering_of, force_stability, channel_update. cbn. f_equal; [ring|]. f_equal. ring. Qed.
Lemma smooth_low f : low f -> exists f1, smooth eps f = Ok f1 /\ low f1.
Proof.
  intros (R1 & S1 & ST & (g0 & g1 & TG & G0 & G1) & HS). unfold smooth.
  destruct (smoothing_samples f) as [|[|n]] eqn:EN.
  - exists f. split; [reflexivity|]. unfold low. rewrite R1, S1, ST, TG, EN. repeat split; [exists g0, g1; auto|now left].
  - destruct HS as [X|(RT & _)]; [discriminate|]. eexists. split; [reflexivity|]. unfold low. cbn [reflection scattering state tap_gains smoothing_samples].
    rewrite RT, ST, TG. repeat split; [exists g0, g1; auto|now left].
  - destruct HS as [X|(RT & TT & (p & q & s & HO & HR & HW) & (p' & q' & s0 & s1 & HO' & HR' & B0 & B1))]; [discriminate|].
    unfold smoother_step, biquad_sample. rewrite HR, RT, HR', TT. cbn [length Nat.leb Nat.eqb andb oguard combine map k]. cbv zeta. cbn [obind fst snd].
    destruct (within_step _ _ _ HO (1 / 2) (1 / 2) s (1 / 2) HW ltac:(lra)) as [W1 [Y1 Y2]].
    destruct (below_step _ _ _ HO' t0 s0 B0) as [C0 D0]. destruct (below_step _ _ _ HO' t1 s1 B1) as [C1 D1].
    assert (EY : snd (channel_step Rplus Rminus Rmult (reflection_smoother f) s (1 / 2)) = 1 / 2) by lra.
    rewrite EY. change [1 / 2] with k. rewrite k_force.
    eexists. split; [reflexivity|]. unfold low. cbn [reflection scattering state tap_gains smoothing_samples reflection_target tap_gains_target reflection_smoother tap_gains_smoother rows with_rows fst snd].
    repeat split; [exact ST| |].
    + eexists _, _. split; [reflexivity|]. split; assumption.
    + right. split; [reflexivity|]. split; [reflexivity|]. split.
      * exists p, q. eexists. split; [exact HO|]. split; [reflexivity|exact W1].
      * exists p', q'. eexists _, _. split; [exact HO'|]. split; [reflexivity|]. split; assumption.
Qed.
Lemma silence_low f : low f -> exists f', ladder_sample eps f [0] = Ok (f', [0]) /\ low f'.
Proof.
  intros HL. destruct (smooth_low f HL) as (f1 & E1 & (R1 & S1 & ST & (g0 & g1 & TG & G) & HS)). unfold ladder_sample. rewrite E1. cbn [obind].
  rewrite R1, S1, ST, TG. cbn [length Nat.eqb ocheck combine map fst snd]. rewrite silent_state.
  eexists. split.
  - apply f_equal, f_equal2; [reflexivity|]. cbn. f_equal. ring.
  - unfold low. cbn [reflection scattering state tap_gains smoothing_samples reflection_target tap_gains_target reflection_smoother tap_gains_smoother].
    repeat split; [exists g0, g1; tauto|]. exact HS.
Qed.
Lemma silences_low n : forall f, low f -> exists f', run (ladder_sample eps) f (repeat [0] n) = Ok (f', repeat [0] n) /\ low f'.
Proof.
  induction n as [|n IH]; intros f HL; [exists f; split; [reflexivity|exact HL]|].
  destruct (silence_low f HL) as (f1 & E1 & L1). destruct (IH f1 L1) as (f2 & E2 & L2). exists f2. split; [|exact L2].
  cbn [repeat run]. rewrite E1. cbn [obind fst snd]. rewrite E2. reflexivity.
Qed.
Lemma impulse_low f : low f -> exists f' y, ladder_sample eps f [1] = Ok (f', [y]) /\
  y < dot (channel_update k (scattering_of eps k) [0; 0] 1) [t0; t1].
Proof.
  intros HL. destruct (smooth_low f HL) as (f1 & E1 & (R1 & S1 & ST & (g0 & g1 & TG & G0 & G1) & HS)). unfold ladder_sample. rewrite E1. cbn [obind].
  rewrite R1, S1, ST, TG. cbn [length Nat.eqb ocheck combine map fst snd]. eexists _, _. split; [reflexivity|].
  unfold k, scattering_of, force_stability. cbn.
  assert (SP : 0 < clamp eps (sqrt (1 - 1 / 2 * (1 / 2)))).
  { rewrite clamp_id; [apply sqrt_lt_R0; lra|]. rewrite Rabs_pos_eq by apply sqrt_pos. apply Rlt_le_trans with (sqrt 1); [apply sqrt_lt_1; lra|rewrite sqrt_1; lra]. }
  set (s := clamp eps (sqrt (1 - 1 / 2 * (1 / 2)))) in *. nra.
Qed.
End Taps.

Lemma taps_refuted eps fc Q c N n : 0 < eps /\ 10 * eps < 1 -> (1 <= N)%nat ->
  1 / 1000 <= fc <= 1 / 100 -> 2 / 5 <= Q <= 1 / 2 -> lowpass 1 fc Q = Ok c ->
  exists k v v' f f1 f2 f3 y outs g g' y',
    ladder_init eps c 1 k v = Ok f /\ ladder_change eps N f k v' = Ok f1 /\
    run (ladder_sample eps) f1 (repeat [0] n) = Ok (f2, outs) /\ ladder_sample eps f2 [1] = Ok (f3, [y]) /\
    ladder_init eps c 1 k v' = Ok g /\ ladder_sample eps g [1] = Ok (g', [y']) /\ y < y'.
Proof.
  intros Heps HN HF HQ HC.
  assert (F1 : 0 < fc) by lra. assert (F2 : fc <= 1 / 100) by lra. assert (F3 : 1 * / 10000000 <= fc) by lra.
  destruct (lowpass_overdamped 1 fc Q c F1 ltac:(lra) HQ HC) as [A0 HOD].
  set (k := [1 / 2]). assert (KF : force_stability eps k = k) by (apply force_id; repeat constructor; rewrite Rabs_pos_eq; lra).
  assert (SI : forall n, (1 <= n)%nat -> exists s p q, smoother_init c n = Ok s /\ overdamped s p q /\ rows s = repeat (0, 0) n).
  { intros m Hm. unfold smoother_init. destruct (biquad_init 0 1 Rmult Rdiv (fun x => Reqb x 0) m c) as [s| |] eqn:E.
    - destruct (HOD m s E) as (p & q & HO). exists s, p, q. split; [reflexivity|]. split; [exact HO|].
      unfold biquad_init in E. do 2 apply ocheck_inv in E as [_ E]. cbv zeta in E. injection E as <-. reflexivity.
    - exfalso. unfold biquad_init in E. rewrite (proj2 (Nat.leb_le 1 m) Hm) in E. cbn [ocheck] in E. rewrite A0 in E. destruct (Reqb_spec 1 0); [lra|discriminate].
    - exfalso. unfold biquad_init in E. rewrite (proj2 (Nat.leb_le 1 m) Hm) in E. cbn [ocheck] in E. rewrite A0 in E. destruct (Reqb_spec 1 0); [lra|discriminate]. }
  destruct (SI 1%nat ltac:(lia)) as (rs & p & q & I1 & O1 & R1). destruct (SI 2%nat ltac:(lia)) as (ts & p' & q' & I2 & O2 & R2).
  cbn [repeat] in R1, R2.
  set (t1 := sqrt (1 - 1 / 2 * (1 / 2))).
  assert (T1 : 0 < t1) by (apply sqrt_lt_R0; lra).
  assert (CT : forall v0 v1, convert_tap_gains k [v0; v1] = [v0 / t1; v1]).
  { intros v0 v1. unfold convert_tap_gains, k. cbn. fold t1. rewrite Rmult_1_l. f_equal. f_equal. lra. }
  pose (mk := fun v0 v1 => {| reflection := k; scattering := scattering_of eps k; tap_gains := [v0 / t1; v1];
        reflection_smoother := with_rows rs [((1 / 2) / (fb1 rs + fb2 rs + 1), (1 / 2) / (fb1 rs + fb2 rs + 1))];
        tap_gains_smoother := with_rows ts [(v0 / t1 / (fb1 ts + fb2 ts + 1), v0 / t1 / (fb1 ts + fb2 ts + 1)); (v1 / (fb1 ts + fb2 ts + 1), v1 / (fb1 ts + fb2 ts + 1))];
        reflection_target := k; tap_gains_target := [v0 / t1; v1];
        state := [[0; 0]]; smoothing_samples := 0 |}).
  assert (IN : forall v0 v1, ladder_init eps c 1 k [v0; v1] = Ok (mk v0 v1)).
  { intros v0 v1. unfold ladder_init. cbn [length Nat.leb Nat.eqb negb ocheck k]. change [1 / 2] with k. rewrite KF, CT. cbv zeta.
    cbn [length k]. change [1 / 2] with k. rewrite I1. cbn [obind]. rewrite I2. cbn [obind].
    unfold ladder_reset, smoother_reset, biquad_reset. cbn [reflection_smoother tap_gains_smoother reflection_target tap_gains_target]. rewrite R1, R2.
    cbn [length Nat.leb ocheck obind]. unfold set_steady_state. cbn [rows with_rows length Nat.eqb oguard k repeat obind map]. reflexivity. }
  set (f1 := {| reflection := k; scattering := scattering_of eps k; tap_gains := tap_gains (mk 0 0);
        reflection_smoother := reflection_smoother (mk 0 0); tap_gains_smoother := tap_gains_smoother (mk 0 0);
        reflection_target := k; tap_gains_target := [1 / t1; 1]; state := [[0; 0]]; smoothing_samples := N |}).
  assert (CH : ladder_change eps N (mk 0 0) k [1; 1] = Ok f1).
  { unfold ladder_change. cbn [length reflection mk k Nat.eqb negb ocheck]. rewrite (proj2 (Nat.ltb_lt 0 N)) by lia. cbn [ocheck].
    change [1 / 2] with k. rewrite KF, CT. reflexivity. }
  assert (LW : low eps (1 / t1) 1 f1).
  { unfold low. cbn [f1 reflection scattering state tap_gains mk smoothing_samples reflection_target tap_gains_target reflection_smoother tap_gains_smoother].
    assert (0 / t1 < 1 / t1) by (apply Rmult_lt_compat_r; [now apply Rinv_0_lt_compat|lra]).
    repeat split.
    - exists (0 / t1), 0. split; [reflexivity|]. split; [assumption|lra].
    - right. repeat split.
      + exists p, q. eexists. split; [exact O1|]. split; [reflexivity|]. apply (within_steady _ _ _ O1). lra.
      + exists p', q'. eexists _, _. split; [exact O2|]. split; [reflexivity|]. split; apply (below_steady _ _ _ O2); [assumption|lra]. }
  destruct (silences_low eps (1 / t1) 1 Heps n f1 LW) as (f2 & E2 & L2).
  destruct (impulse_low eps (1 / t1) 1 f2 L2) as (f3 & y & E3 & Y3).
  exists k, [0; 0], [1; 1], (mk 0 0), f1, f2, f3, y, (repeat [0] n), (mk 1 1).
  eexists _, _. split; [apply IN|]. split; [exact CH|]. split; [exact E2|]. split; [exact E3|]. split; [apply IN|].
  split; [reflexivity|]. cbn [tap_gains mk reflection scattering fst snd]. exact Y3.
Qed.

(* a filter that is not smoothing and has seen only silence *)
Lemma settled_silence eps f r s g0 g1 n : smoothing_samples f = O -> reflection f = [r] -> scattering f = [s] -> tap_gains f = [g0; g1] -> state f = [[0; 0]] ->
  run (ladder_sample eps) f (repeat [0] n) = Ok (f, repeat [0] n).
Proof.
  intros E1 E2 E3 E4 E5. induction n as [|n IH]; [reflexivity|]. cbn [repeat run].
  assert (X : ladder_sample eps f [0] = Ok (f, [0])).
  { unfold ladder_sample, smooth. rewrite E1. cbn [obind]. rewrite E2, E3, E4, E5. cbn [length Nat.eqb ocheck combine map fst snd].
    assert (C : channel_update [r] [s] [0; 0] 0 = [0; 0]) by (unfold channel_update; cbn; f_equal; [ring|f_equal; ring]).
    rewrite C. f_equal. f_equal.
    - destruct f as [x1 x2 x3 x4 x5 x6 x7 x8 x9]. cbn [reflection scattering tap_gains state smoothing_samples reflection_smoother tap_gains_smoother reflection_target tap_gains_target] in *.
      now rewrite E1, E2, E3, E4, E5.
    - cbn. f_equal. ring. }
  rewrite X. cbn [obind fst snd]. rewrite IH. reflexivity.
Qed.
Lemma settled_impulse eps f r s g1 : smoothing_samples f = O -> reflection f = [r] -> scattering f = [s] -> tap_gains f = [0; g1] -> state f = [[0; 0]] ->
  exists f', ladder_sample eps f [1] = Ok (f', [r * g1]).
Proof.
  intros E1 E2 E3 E4 E5. eexists. unfold ladder_sample, smooth. rewrite E1. cbn [obind]. rewrite E2, E3, E4, E5. cbn [length Nat.eqb ocheck combine map fst snd].
  f_equal. apply f_equal2; [reflexivity|]. cbn. f_equal. ring.
Qed.

(* Reset in the middle of a transition *)
Lemma reset_refuted eps fc Q c N n : 0 < eps /\ 10 * eps < 1 -> (2 <= N)%nat ->
  1 / 1000 <= fc <= 1 / 100 -> 2 / 5 <= Q <= 1 / 2 -> lowpass 1 fc Q = Ok c ->
  exists k k' v f f' outs f3 y g g3 z h h3 w,
    ladder_init eps c 1 k v = Ok f /\
    run (ladder_step eps N) f (Change k' v :: Sample [0] :: Reset :: []) = Ok (f', outs) /\
    (exists f2, run (ladder_sample eps) f' (repeat [0] n) = Ok (f2, repeat [0] n) /\ ladder_sample eps f2 [1] = Ok (f3, [y])) /\
    ladder_init eps c 1 k v = Ok g /\ ladder_sample eps g [1] = Ok (g3, [z]) /\
    ladder_init eps c 1 k' v = Ok h /\ ladder_sample eps h [1] = Ok (h3, [w]) /\ z < y < w.
Proof.
  intros Heps HN HF HQ HC.
  assert (F1 : 0 < fc) by lra. assert (F2 : fc <= 1 / 100) by lra. assert (F3 : 1 * / 10000000 <= fc) by lra.
  destruct (lowpass_overdamped 1 fc Q c F1 ltac:(lra) HQ HC) as [A0 HOD].
  assert (SI : forall n, (1 <= n)%nat -> exists s p q, smoother_init c n = Ok s /\ overdamped s p q /\ rows s = repeat (0, 0) n).
  { intros m Hm. unfold smoother_init. destruct (biquad_init 0 1 Rmult Rdiv (fun x => Reqb x 0) m c) as [s| |] eqn:E.
    - destruct (HOD m s E) as (p & q & HO). exists s, p, q. split; [reflexivity|]. split; [exact HO|].
      unfold biquad_init in E. do 2 apply ocheck_inv in E as [_ E]. cbv zeta in E. injection E as <-. reflexivity.
    - exfalso. unfold biquad_init in E. rewrite (proj2 (Nat.leb_le 1 m) Hm) in E. cbn [ocheck] in E. rewrite A0 in E. destruct (Reqb_spec 1 0); [lra|discriminate].
    - exfalso. unfold biquad_init in E. rewrite (proj2 (Nat.leb_le 1 m) Hm) in E. cbn [ocheck] in E. rewrite A0 in E. destruct (Reqb_spec 1 0); [lra|discriminate]. }
  destruct (SI 1%nat ltac:(lia)) as (rs & p & q & I1 & O1 & R1). destruct (SI 2%nat ltac:(lia)) as (ts & p' & q' & I2 & O2 & R2).
  cbn [repeat] in R1, R2.
  assert (CL : forall r, 0 <= r <= 1 / 2 -> force_stability eps [r] = [r]) by (intros r Hr; apply force_id; repeat constructor; rewrite Rabs_pos_eq; lra).
  assert (TP : forall r, 0 <= r <= 1 / 2 -> convert_tap_gains [r] [0; 1] = [0; 1]).
  { intros r Hr. unfold convert_tap_gains. cbn. f_equal; [|f_equal; lra]. unfold Rdiv. ring. }
  pose (sc := fun r => [clamp eps (sqrt (1 - r * r))]).
  pose (st := fun (s : biquad R) r => (r / (fb1 s + fb2 s + 1), r / (fb1 s + fb2 s + 1))).
  pose (mk := fun r => {| reflection := [r]; scattering := sc r; tap_gains := [0; 1];
        reflection_smoother := with_rows rs [st rs r]; tap_gains_smoother := with_rows ts [st ts 0; st ts 1];
        reflection_target := [r]; tap_gains_target := [0; 1]; state := [[0; 0]]; smoothing_samples := 0 |}).
  assert (IN : forall r, 0 <= r <= 1 / 2 -> ladder_init eps c 1 [r] [0; 1] = Ok (mk r)).
  { intros r Hr. unfold ladder_init. cbn [length Nat.leb Nat.eqb negb ocheck]. rewrite (CL r Hr), (TP r Hr). cbv zeta.
    cbn [length]. rewrite I1. cbn [obind]. rewrite I2. cbn [obind].
    unfold ladder_reset, smoother_reset, biquad_reset. cbn [reflection_smoother tap_gains_smoother reflection_target tap_gains_target]. rewrite R1, R2.
    cbn [length Nat.leb ocheck obind]. unfold set_steady_state. cbn [rows with_rows length Nat.eqb oguard repeat obind map]. reflexivity. }
  set (y := snd (channel_step Rplus Rminus Rmult rs (st rs 0) (1 / 2))).
  assert (HY : 0 < y < 1 / 2).
  { unfold y, channel_step, st. cbn [fst snd]. pose proof (gain_pos rs p q O1) as GP. rewrite (gain_sum rs p q O1).
    destruct O1 as (A & B & C & D & _ & _ & E3 & E4 & E5). rewrite E3, E4, E5.
    replace (0 / ((1 - p) * (1 - q))) with 0 by (unfold Rdiv; ring).
    assert ((1 - p) * (1 - q) <= 1) by nra. lra. }
  destruct N as [|[|N]]; [lia|lia|].
  exists [0], [1 / 2], [0; 1], (mk 0).
  set (f2 := {| reflection := [y]; scattering := sc y; tap_gains := [0; 1];
        reflection_smoother := with_rows rs [st rs (1 / 2)]; tap_gains_smoother := with_rows ts [st ts 0; st ts 1];
        reflection_target := [1 / 2]; tap_gains_target := [0; 1]; state := [[0; 0]]; smoothing_samples := 0 |}).
  exists f2, [[]; [0]; []].
  destruct (settled_impulse eps f2 y _ 1 eq_refl eq_refl eq_refl eq_refl eq_refl) as (f3 & E3).
  destruct (settled_impulse eps (mk 0) 0 _ 1 eq_refl eq_refl eq_refl eq_refl eq_refl) as (g3 & E4).
  destruct (settled_impulse eps (mk (1 / 2)) (1 / 2) _ 1 eq_refl eq_refl eq_refl eq_refl eq_refl) as (h3 & E5).
  exists f3, (y * 1), (mk 0), g3, (0 * 1), (mk (1 / 2)), h3, (1 / 2 * 1).
  split; [apply IN; lra|]. split.
  - pose (f1 := {| reflection := [0]; scattering := sc 0; tap_gains := [0; 1];
        reflection_smoother := with_rows rs [st rs 0]; tap_gains_smoother := with_rows ts [st ts 0; st ts 1];
        reflection_target := [1 / 2]; tap_gains_target := [0; 1]; state := [[0; 0]]; smoothing_samples := S (S N) |}).
    assert (S1 : ladder_step eps (S (S N)) (mk 0) (Change [1 / 2] [0; 1]) = Ok (f1, [])).
    { cbn [ladder_step]. unfold ladder_change. cbn [length reflection mk Nat.eqb negb ocheck Nat.ltb Nat.leb]. rewrite (CL (1 / 2)), (TP (1 / 2)) by lra. reflexivity. }
    assert (S2 : exists r1 r2 r3, smooth eps f1 = Ok {| reflection := [y]; scattering := sc y; tap_gains := [0; 1];
        reflection_smoother := with_rows rs [r1]; tap_gains_smoother := with_rows ts [r2; r3];
        reflection_target := [1 / 2]; tap_gains_target := [0; 1]; state := [[0; 0]]; smoothing_samples := S N |}).
    { assert (G0 : snd (channel_step Rplus Rminus Rmult ts (st ts 0) 0) = 0).
      { destruct (within_step ts p' q' O2 0 0 (st ts 0) 0 (within_steady ts p' q' O2 0 0 0 ltac:(lra)) ltac:(lra)) as [_ X]. lra. }
      assert (G1 : snd (channel_step Rplus Rminus Rmult ts (st ts 1) 1) = 1).
      { destruct (within_step ts p' q' O2 1 1 (st ts 1) 1 (within_steady ts p' q' O2 1 1 1 ltac:(lra)) ltac:(lra)) as [_ X]. lra. }
      assert (X1 : exists r1, smoother_step (with_rows rs [st rs 0]) [1 / 2] = Ok (with_rows rs [r1], [y])).
      { eexists. unfold smoother_step, biquad_sample. cbn [rows with_rows length Nat.leb Nat.eqb andb oguard combine map fst snd]. reflexivity. }
      assert (X2 : exists r2 r3, smoother_step (with_rows ts [st ts 0; st ts 1]) [0; 1] = Ok (with_rows ts [r2; r3], [0; 1])).
      { eexists _, _. unfold smoother_step, biquad_sample. cbn [rows with_rows length Nat.leb Nat.eqb andb oguard combine map fst snd].
        cbv zeta. apply f_equal, f_equal2; [reflexivity|]. apply f_equal2; [exact G0|]. apply f_equal2; [exact G1|reflexivity]. }
      destruct X1 as (r1 & X1). destruct X2 as (r2 & r3 & X2). exists r1, r2, r3.
      unfold smooth, f1. cbn [smoothing_samples reflection_smoother tap_gains_smoother reflection_target tap_gains_target state].
      rewrite X1. cbn [obind]. rewrite X2. cbn [obind fst snd]. rewrite (CL y) by lra. reflexivity. }
    destruct S2 as (r1 & r2 & r3 & S2).
    cbn [run]. rewrite S1. cbn [obind fst snd ladder_step]. unfold ladder_sample. rewrite S2. cbn [obind reflection scattering tap_gains state smoothing_samples reflection_smoother tap_gains_smoother reflection_target tap_gains_target length Nat.eqb ocheck].
    cbv zeta. cbn [combine map fst snd obind].
    unfold ladder_reset, smoother_reset, biquad_reset. cbn [reflection_smoother tap_gains_smoother reflection_target tap_gains_target rows with_rows map length Nat.leb ocheck obind].
    unfold set_steady_state. cbn [rows with_rows length Nat.eqb oguard repeat obind map reflection state fst snd fb1 fb2].
    f_equal. apply f_equal2; [reflexivity|]. f_equal. f_equal. unfold channel_update. cbn. f_equal. ring.
  - split; [exists f2; split; [|exact E3]; eapply settled_silence; reflexivity|].
    split; [apply IN; lra|]. split; [exact E4|]. split; [apply IN; lra|]. split; [exact E5|lra].
Qed.
