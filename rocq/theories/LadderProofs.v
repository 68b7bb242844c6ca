From Verif Require Import Common ListLemmas RealUtil BiquadModel CascadeModel LadderModel LadderSpec.
From Coq Require Import Psatz.
Local Open Scope R_scope.

Lemma energy_nonneg l : 0 <= energy l.
Proof. induction l as [|a l IH]; cbn [energy]; nra. Qed.
Lemma energy_zeros n : energy (repeat 0 n) = 0.
Proof. induction n as [|n IH]; cbn [repeat energy]; lra. Qed.
Lemma lattice_energy k s : Forall2 (fun a c => a * a + c * c <= 1) k s -> forall st x,
  energy (fst (lattice k s st x)) + snd (lattice k s st x) * snd (lattice k s st x) <= x * x + energy st.
Proof.
  induction 1 as [|a c k s H _ IH]; intros st x; [cbn; pose proof (energy_nonneg st); lra|].
  destruct st as [|g st]; [cbn; lra|]. cbn [lattice fst snd energy]. specialize (IH st x).
  set (f := snd (lattice k s st x)) in *. set (E := energy (fst (lattice k s st x))) in *.
  assert (X : (a * f + c * g) * (a * f + c * g) + (c * f - a * g) * (c * f - a * g) = (a * a + c * c) * (f * f + g * g)) by ring.
  assert (Y : (a * a + c * c) * (f * f + g * g) <= 1 * (f * f + g * g)) by (apply Rmult_le_compat_r; nra).
  lra.
Qed.
Lemma channel_energy k s row x : Forall2 (fun a c => a * a + c * c <= 1) k s ->
  energy (channel_update k s row x) <= energy row + x * x.
Proof. intros H. unfold channel_update. cbn [energy]. pose proof (lattice_energy k s H row x). lra. Qed.

Lemma dot_energy x : forall y, dot x y * dot x y <= energy x * energy y.
Proof.
  induction x as [|a x IH]; intros y; [cbn; destruct y; cbn; lra|]. destruct y as [|b y]; [cbn; lra|]. cbn [dot energy].
  specialize (IH y). set (d := dot x y) in *. pose proof (energy_nonneg x) as PE. pose proof (energy_nonneg y) as PF.
  set (E := energy x) in *. set (F := energy y) in *.
  assert (G : 0 <= a * a * F + b * b * E - 2 * a * b * d).
  { destruct (Rle_lt_or_eq_dec 0 F PF) as [FP|F0].
    - assert (0 <= F * (a * a * F + b * b * E - 2 * a * b * d)).
      { replace (F * (a * a * F + b * b * E - 2 * a * b * d)) with ((a * F - b * d) * (a * F - b * d) + b * b * (E * F - d * d)) by ring.
        apply Rplus_le_le_0_compat; [apply Rle_0_sqr|]. apply Rmult_le_pos; [apply Rle_0_sqr|lra]. }
      apply (Rmult_le_reg_l F); lra.
    - rewrite <- F0 in *. assert (D0 : d = 0) by nra. rewrite D0. assert (0 <= b * b * E) by (apply Rmult_le_pos; [apply Rle_0_sqr|exact PE]). lra. }
  nra.
Qed.

Section Energy.
Variable eps : R.
Hypothesis Heps : 0 < eps /\ 10 * eps < 1.
Lemma clamp_bound x : Rabs (clamp eps x) < 1.
Proof.
  unfold clamp. destruct (Rltb_spec (Rabs x) 1) as [H|H]; [exact H|].
  destruct (Rltb 0 x); [rewrite Rabs_pos_eq by lra; lra|rewrite Rabs_left by lra; lra].
Qed.
Lemma clamp_id x : Rabs x < 1 -> clamp eps x = x.
Proof. intros H. unfold clamp. now rewrite (Rltb_true (Rabs x) 1 H). Qed.
Lemma force_bound l : Forall (fun x => Rabs x < 1) (force_stability eps l).
Proof. unfold force_stability. apply Forall_forall. intros x H. apply in_map_iff in H. destruct H as (y & <- & _). apply clamp_bound. Qed.
Lemma force_id l : Forall (fun x => Rabs x < 1) l -> force_stability eps l = l.
Proof. induction 1 as [|x l H _ IH]; [reflexivity|]. cbn. rewrite (clamp_id x H). f_equal. exact IH. Qed.
Lemma square_lt1 x : Rabs x < 1 -> x * x < 1.
Proof. intros H. apply Rabs_def2 in H. nra. Qed.
Lemma scatter_one x : Rabs x < 1 -> x * x + clamp eps (sqrt (1 - x * x)) * clamp eps (sqrt (1 - x * x)) <= 1.
Proof.
  intros H. pose proof (square_lt1 x H) as H1. pose proof (sqrt_sqrt (1 - x * x) ltac:(lra)) as S. pose proof (sqrt_pos (1 - x * x)) as P.
  unfold clamp. destruct (Rltb_spec (Rabs (sqrt (1 - x * x))) 1) as [L|L]; [lra|].
  rewrite Rabs_pos_eq in L by exact P. destruct (Rltb_spec 0 (sqrt (1 - x * x))) as [G|G]; nra.
Qed.
Lemma scatter_ok l : Forall (fun x => Rabs x < 1) l -> Forall2 (fun a c => a * a + c * c <= 1) l (scattering_of eps l).
Proof.
  induction 1 as [|x l H _ IH]; [constructor|]. cbn. constructor; [now apply scatter_one|exact IH].
Qed.

Definition safe (f : ladder) : Prop :=
  Forall2 (fun a c => a * a + c * c <= 1) (reflection f) (scattering f) /\ Forall (fun x => Rabs x < 1) (reflection_target f).

Lemma reset_safe f f' : ladder_reset f = Ok f' -> safe f ->
  safe f' /\ state f' = map (fun _ => repeat 0 (S (length (reflection f)))) (state f).
Proof.
  unfold ladder_reset. destruct (smoother_reset _ _) as [rs| |]; try discriminate. cbn [obind].
  destruct (smoother_reset _ _) as [ts| |]; try discriminate. cbn [obind]. intros H. injection H as <-. intros S. split; [exact S|reflexivity].
Qed.
Lemma ocheck_inv {A} b (k : outcome A) r : ocheck b k = Ok r -> b = true /\ k = Ok r.
Proof. destruct b; cbn; [auto|discriminate]. Qed.
Lemma init_safe sm n k v f : ladder_init eps sm n k v = Ok f -> safe f /\ length (state f) = n /\ Forall (fun row => energy row = 0) (state f).
Proof.
  unfold ladder_init. intros H. apply ocheck_inv in H as [_ H]. apply ocheck_inv in H as [_ H]. apply ocheck_inv in H as [_ H].
  cbv zeta in H. destruct (smoother_init _ _) as [rs| |]; try discriminate. cbn [obind] in H.
  destruct (smoother_init _ _) as [ts| |]; try discriminate. cbn [obind] in H.
  apply reset_safe in H.
  - destruct H as [S E]. split; [exact S|]. rewrite E. cbn [state]. split; [now rewrite map_length, repeat_length|].
    apply Forall_forall. intros row HR. apply in_map_iff in HR. destruct HR as (y & <- & _).
    apply energy_zeros.
  - split; cbn [reflection scattering reflection_target]; [apply scatter_ok|]; apply force_bound.
Qed.
Lemma change_safe N f k v f' : ladder_change eps N f k v = Ok f' -> safe f -> safe f' /\ state f' = state f.
Proof.
  unfold ladder_change. intros H [S1 S2]. do 4 apply ocheck_inv in H as [_ H]. injection H as <-. split; [|reflexivity].
  split; [exact S1|apply force_bound].
Qed.
Lemma smooth_safe f f' : smooth eps f = Ok f' -> safe f -> safe f' /\ state f' = state f.
Proof.
  unfold smooth. intros H [S1 S2]. destruct (smoothing_samples f) as [|[|n]].
  - injection H as <-. split; [split; assumption|reflexivity].
  - injection H as <-. split; [|reflexivity]. split; cbn; [now apply scatter_ok|exact S2].
  - destruct (smoother_step _ _) as [rs| |]; try discriminate. cbn [obind] in H.
    destruct (smoother_step (tap_gains_smoother f) _) as [ts| |]; try discriminate. cbn [obind] in H. injection H as <-.
    split; [|reflexivity]. split; cbn; [apply scatter_ok, force_bound|exact S2].
Qed.

Lemma sample_safe f frame f' out : ladder_sample eps f frame = Ok (f', out) -> safe f ->
  safe f' /\ length frame = length (state f) /\ length (state f') = length (state f) /\ length out = length (state f) /\
  forall i, (i < length (state f))%nat ->
    energy (nth i (state f') []) <= energy (nth i (state f) []) + nth i frame 0 * nth i frame 0 /\
    nth i out 0 * nth i out 0 <= energy (nth i (state f') []) * energy (tap_gains f').
Proof.
  unfold ladder_sample. destruct (smooth eps f) as [f1| |] eqn:E; try discriminate. cbn [obind]. intros H S.
  destruct (smooth_safe f f1 E S) as [S1 ST]. apply ocheck_inv in H as [HL H]. cbv zeta in H. injection H as <- <-.
  rewrite ST in *. apply Nat.eqb_eq in HL.
  split; [exact S1|]. split; [exact HL|]. cbn [state tap_gains].
  assert (LR : length (map (fun p : list R * R => channel_update (reflection f1) (scattering f1) (fst p) (snd p)) (combine (state f) frame)) = length (state f))
    by (rewrite map_length, combine_length; lia).
  split; [exact LR|]. split; [now rewrite map_length|]. intros i Hi.
  assert (N1 : nth i (map (fun p : list R * R => channel_update (reflection f1) (scattering f1) (fst p) (snd p)) (combine (state f) frame)) []
    = channel_update (reflection f1) (scattering f1) (nth i (state f) []) (nth i frame 0)).
  { rewrite (nth_indep _ [] (channel_update (reflection f1) (scattering f1) (fst (@nil R, 0)) (snd (@nil R, 0)))) by lia.
    rewrite (map_nth (fun p : list R * R => channel_update (reflection f1) (scattering f1) (fst p) (snd p))).
    rewrite combine_nth by lia. reflexivity. }
  rewrite N1. split; [apply channel_energy, S1|].
  set (rows := map (fun p : list R * R => channel_update (reflection f1) (scattering f1) (fst p) (snd p)) (combine (state f) frame)) in *.
  rewrite (nth_indep _ 0 (dot [] (tap_gains f1))) by (rewrite map_length; lia). rewrite (map_nth (fun row => dot row (tap_gains f1))).
  rewrite N1. apply dot_energy.
Qed.

Lemma step_safe N f o f' out : ladder_step eps N f o = Ok (f', out) -> safe f -> safe f' /\ length (state f') = length (state f).
Proof.
  destruct o as [k v|b a| |frame]; cbn [ladder_step].
  - destruct (ladder_change eps N f k v) as [g| |] eqn:E; try discriminate. cbn [obind]. intros H S. injection H as <- <-.
    destruct (change_safe N f k v g E S) as [X ->]. auto.
  - unfold ladder_change_tf. destruct (make_ladder b a) as [kv| |]; try discriminate. cbn [obind].
    destruct (ladder_change eps N f (fst kv) (snd kv)) as [g| |] eqn:E; try discriminate. cbn [obind]. intros H S. injection H as <- <-.
    destruct (change_safe N f _ _ g E S) as [X ->]. auto.
  - destruct (ladder_reset f) as [g| |] eqn:E; try discriminate. cbn [obind]. intros H S. injection H as <- <-.
    destruct (reset_safe f g E S) as [X ->]. rewrite map_length. auto.
  - intros H S. destruct (sample_safe f frame f' out H S) as (X & _ & Y & _). auto.
Qed.

Lemma run_energy N ops : forall f f' outs i e, run (ladder_step eps N) f ops = Ok (f', outs) -> safe f ->
  (i < length (state f))%nat -> energy (nth i (state f) []) <= e ->
  safe f' /\ length (state f') = length (state f) /\ energy (nth i (state f') []) <= e + fed i ops.
Proof.
  induction ops as [|o ops IH]; intros f f' outs i e H S Hi HE.
  - cbn in H. injection H as <- <-. cbn [fed]. split; [exact S|]. split; [reflexivity|lra].
  - cbn [run] in H. destruct (ladder_step eps N f o) as [[f1 out]| |] eqn:E; try discriminate. cbn [obind fst snd] in H.
    destruct (run (ladder_step eps N) f1 ops) as [[f2 outs2]| |] eqn:E2; try discriminate. cbn [obind fst snd] in H. injection H as <- <-.
    assert (E1 := E).
    destruct (step_safe N f o f1 out E S) as [S1 L1].
    assert (X : energy (nth i (state f1) []) <= e + fed i [o]).
    { clear IH E2. destruct o as [k v|b a| |frame]; cbn [ladder_step fed] in *.
      - destruct (ladder_change eps N f k v) as [g| |] eqn:EC; try discriminate. cbn [obind] in E. injection E as <- _.
        destruct (change_safe N f k v g EC S) as [_ ->]. lra.
      - unfold ladder_change_tf in E. destruct (make_ladder b a) as [kv| |]; try discriminate. cbn [obind] in E.
        destruct (ladder_change eps N f (fst kv) (snd kv)) as [g| |] eqn:EC; try discriminate. cbn [obind] in E. injection E as <- _.
        destruct (change_safe N f _ _ g EC S) as [_ ->]. lra.
      - destruct (ladder_reset f) as [g| |] eqn:EC; try discriminate. cbn [obind] in E. injection E as <- _.
        destruct (reset_safe f g EC S) as [_ ->].
        rewrite (nth_indep _ [] ((fun _ : list R => repeat 0 (Datatypes.S (length (reflection f)))) [])) by (rewrite map_length; exact Hi).
        rewrite (map_nth (fun _ : list R => repeat 0 (Datatypes.S (length (reflection f)))) (state f) [] i). rewrite energy_zeros.
        pose proof (energy_nonneg (nth i (state f) [])). lra.
      - destruct (sample_safe f frame f1 out E S) as (_ & _ & _ & _ & HB). destruct (HB i Hi) as [B _]. lra. }
    destruct (IH f1 f2 outs2 i (e + fed i [o]) E2 S1 ltac:(lia) X) as (S2 & L2 & B2).
    split; [exact S2|]. split; [lia|]. destruct o; cbn [fed] in *; lra.
Qed.
End Energy.
