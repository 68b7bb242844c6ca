(* The fit of the equaliser: flat targets, invalid frequencies, and an example that runs through. *)
From Verif Require Import Common RealUtil CInt BiquadModel BiquadSpec DesignModel DesignSpec DesignProofs DesignProofs2 CascadeModel CascadeSpec EqualizerModel EqualizerSpec EqualizerProofs EqualizerProps
  DecibelsModel NelderMeadModel NelderMeadSpec NelderMeadProofs NelderMeadProofs2 NelderMeadProofs3 NelderMeadProofs5 NelderMeadProps
  EqualizerFitModel EqualizerFitSpec EqualizerFitProofs EqualizerFitProofs2 EqualizerFitProofs3.
From Coquelicot Require Import Complex.
Local Open Scope R_scope.

(* ---------- flat targets ---------- *)
Lemma cost_zero m n A t y : (forall i, (i < m)%nat -> t i = 0) -> (forall k, (k < n)%nat -> y k = 0) -> cost m n A t y = 0.
Proof.
  intros Ht Hy. unfold cost. rewrite (sumn_zero m), (sumn_zero n); [ring| |].
  - intros k Hk. rewrite Hy by exact Hk. apply Rsqr_0.
  - intros i Hi. rewrite (sumn_zero n), Ht by (try exact Hi; intros k Hk; rewrite Hy by exact Hk; ring). rewrite Rminus_0_r. apply Rsqr_0.
Qed.
Lemma cost_nonneg m n A t y : 0 <= cost m n A t y.
Proof.
  unfold cost. assert (0 <= sumn m (fun i => Rsqr (sumn n (fun k => A i k * y k) - t i))) by (apply sumn_nonneg; intros; apply Rle_0_sqr).
  assert (0 <= sumn n (fun k => Rsqr (y k))) by (apply sumn_nonneg; intros; apply Rle_0_sqr). lra.
Qed.
Lemma pass_flat fs freqs targets e g g' : (forall t, In t targets -> t = 0) -> length freqs = length targets -> fit_pass fs freqs targets e g g' ->
  length g' = S (num_stages e) /\ forall k, nth k g' 0 = 0.
Proof.
  intros HT L (e0 & cs & A & x & _ & _ & _ & _ & _ & _ & M & Lg & Hg). split; [exact Lg|]. intros k.
  destruct (Nat.leb_spec k (num_stages e)) as [Hk|Hk]; [|apply nth_overflow; lia]. rewrite Hg by exact Hk.
  destruct (M (fun _ => 0)) as [_ U]. rewrite <- (U) with (k := k); [ring| |lia].
  rewrite cost_zero; [apply cost_nonneg| |reflexivity]. intros i Hi. apply HT, nth_In. lia.
Qed.
Lemma run_flat fs freqs targets e threshold it g g' : (forall t, In t targets -> t = 0) -> length freqs = length targets -> fit_run fs freqs targets e threshold it g g' -> (0 < it)%nat ->
  length g' = S (num_stages e) /\ forall k, nth k g' 0 = 0.
Proof.
  intros HT L H. induction H as [|it g g' P _|it g g' g'' P _ H IH]; intros Hit; [lia|exact (pass_flat _ _ _ _ _ _ HT L P)|].
  destruct it as [|it]; [|apply IH; lia]. inversion H; subst. exact (pass_flat _ _ _ _ _ _ HT L P).
Qed.
Lemma gains_zero e : (forall k, nth k (gains_of e) 0 = 0) -> gain_db e = 0 /\ forall s b, In (s, b) (stages e) -> stage_gain_db s = 0.
Proof.
  unfold gains_of. intros H. split.
  - specialize (H (length (stages e))). rewrite app_nth2, map_length, Nat.sub_diag in H by (rewrite map_length; lia). exact H.
  - intros s b Hs. apply In_nth_error in Hs as (i & Hi). specialize (H i). assert (Li : (i < length (stages e))%nat) by (apply nth_error_Some; rewrite Hi; discriminate).
    rewrite app_nth1 in H by (rewrite map_length; exact Li). rewrite (nth_error_nth (map (fun p => stage_gain_db (fst p)) (stages e)) i (x := stage_gain_db s)) in H; [exact H|]. rewrite nth_error_map, Hi. reflexivity.
Qed.
Lemma clear_same e : gain_db e = 0 -> (forall s b, In (s, b) (stages e) -> stage_gain_db s = 0 /\ type s <> Lowpass /\ type s <> Highpass) -> clear_all_gains e = e.
Proof.
  destruct e as [g l]. unfold clear_all_gains. cbn [gain_db stages]. intros -> H. f_equal. induction l as [|[s b] l IH]; [reflexivity|]. cbn [map fst snd].
  rewrite IH by (intros s' b' Hs; eapply H; right; exact Hs). f_equal. destruct (H s b (or_introl eq_refl)) as (G & T1 & T2). destruct s as [t f q g]. cbn in *. unfold with_gain. cbn. subst g.
  destruct t; try contradiction; reflexivity.
Qed.
Lemma flat_rms fs freqs targets e r : 0 < fs -> valid_equalizer fs e -> clear_all_gains e = e -> (forall t, In t targets -> t = 0) -> length freqs = length targets -> (0 < length freqs)%nat ->
  rms_of fs freqs targets e r -> r = 0.
Proof.
  intros Hfs HV HC HT L N (cs & hs & EC & LH & V & P & E).
  destruct (C28_cleared_is_transparent fs e 1 [] Hfs HV ltac:(lia) (Forall_nil _)) as (cs' & _ & _ & _ & EC' & T & _). rewrite HC in EC'. assert (cs' = cs) by congruence. subst cs'.
  rewrite sumn_zero in E.
  - assert (0 < INR (length freqs)) by (apply lt_0_INR; lia). apply Rmult_integral in E as [E|E]; [lra|]. apply Rmult_integral in E as [E|E]; exact E.
  - intros m Hm. destruct (nth_error freqs m) as [f|] eqn:Ef; [|apply nth_error_None in Ef; lia]. rewrite (T _ _ (proj1 (V m f Ef))), Cmod_1, ln_1.
    rewrite (HT (nth m targets 0)) by (apply nth_In; lia). unfold Rsqr, Rdiv. ring.
Qed.

(* ---------- what a filter that could be designed needs ---------- *)
Lemma design_stage_valid fs s c : design_stage fs s = Ok c -> valid_stage fs s.
Proof.
  unfold design_stage, valid_stage, valid_design.
  destruct (type s); intros H.
  - unfold lowpass in H. apply check_arguments_inv in H. tauto.
  - unfold low_shelf in H. apply check_arguments_inv in H. tauto.
  - unfold peak_symmetric, peak in H. apply check_arguments_inv in H as (H1 & H2 & H3 & _). split; [exact H1|]. split; [exact H2|].
    assert (P : 0 < db_to_linear (stage_gain_db s)) by (unfold db_to_linear, Rpower; apply exp_pos). destruct (Rltb _ _) in H3; [|exact H3].
    destruct (Rle_or_lt (quality_factor s) 0) as [Q|Q]; [|exact Q]. nra.
  - unfold high_shelf in H. apply check_arguments_inv in H. tauto.
  - unfold highpass in H. apply check_arguments_inv in H. tauto.
Qed.
Lemma append_stages_valid fs : forall l cs cs', append_stages fs cs l = Ok cs' -> Forall (fun p => snd p = true -> valid_stage fs (fst p)) l.
Proof.
  induction l as [|[s en] l IH]; intros cs cs' H; cbn [append_stages] in H; [constructor|].
  destruct (if en then design_stage fs s else Ok identity_coeffs) as [c| |] eqn:E; try discriminate H. cbn [obind] in H.
  destruct (append_biquad tolerance cs c) as [cs1| |]; try discriminate H. cbn [obind] in H. constructor; [|exact (IH _ _ H)].
  cbn [fst snd]. intros ->. exact (design_stage_valid _ _ _ E).
Qed.
Lemma coefficients_valid fs e cs : get_coefficients e fs = Ok cs -> 0 < fs /\ valid_equalizer fs e.
Proof.
  unfold get_coefficients, ocheck. destruct (Rltb_spec 0 fs) as [P|]; [|discriminate]. destruct (append_stages fs [identity_coeffs] (stages e)) as [x| |] eqn:E; try discriminate. intros _.
  split; [exact P|]. exact (append_stages_valid _ _ _ _ E).
Qed.

(* ---------- peaks of moderate gain are second order sections ---------- *)
Lemma compute_K_pos f fs : 0 < f -> f < fs / 2 -> 0 < compute_K f fs.
Proof.
  intros H1 H2. unfold compute_K. destruct (Rltb _ _); [lra|]. pose proof PI_RGT_0. apply Rdiv_lt_0_compat; [nra|].
  apply tan_gt_0; [apply Rdiv_lt_0_compat; nra|]. apply (Rmult_lt_reg_r fs); [lra|]. replace (PI * f / fs * fs) with (PI * f) by (field; lra). nra.
Qed.
Lemma peak_second_order fs f q g c : 2 <= q -> g <= 16 / 5 -> peak fs f q g = Ok c -> second_order c.
Proof.
  intros Hq Hg H. apply peak_shape in H. cbv zeta in H. destruct H as (H1 & H2 & _ & H4 & ->).
  pose proof (compute_K_pos f fs H1 H2) as HK. assert (Hw : 0 < 2 * PI * f) by (pose proof PI_RGT_0; nra).
  set (K := compute_K f fs) in *. set (w := 2 * PI * f) in *. clearbody K w.
  unfold second_order, normalize, digital, make_coeffs, bilinear_map. cbn [fst snd b2 a2 a0 b0 b1 a1]. unfold tolerance.
  set (u := w / q). assert (Hu : u * 2 <= w /\ 0 < u).
  { unfold u. split; [|apply Rdiv_lt_0_compat; lra]. apply (Rmult_le_reg_r q); [lra|]. replace (w / q * 2 * q) with (w * 2) by (field; lra). nra. }
  clearbody u. set (S := K * K + w * w). assert (HKw : 2 * (K * w) <= S) by (unfold S; pose proof (Rle_0_sqr (K - w)) as Q; unfold Rsqr in Q; lra).
  assert (HS : 0 < S) by (unfold S; nra).
  assert (HuK : 0 < u * K /\ u * K * 4 <= S) by (split; [nra|]; assert (u * 2 * K <= w * K) by (apply Rmult_le_compat_r; lra); lra).
  set (v := u * K) in *.
  assert (EA0 : 1 * K * K + v + w * w = S + v) by (unfold S, v; ring).
  assert (EB2 : (0 + 1) * K * K - g * u * K + (0 + w * w) = S - g * v) by (unfold S, v; ring).
  assert (EA2 : 1 * K * K - v + w * w = S - v) by (unfold S, v; ring).
  rewrite EA0, EB2, EA2. clearbody v S.
  assert (D : forall x, S / 5 <= x -> / 10000000000 < Rabs (x / (S + v))).
  { intros x Hx. rewrite Rabs_pos_eq by (apply Rmult_le_pos; [lra|left; apply Rinv_0_lt_compat; lra]). apply (Rmult_lt_reg_r (S + v)); [lra|].
    replace (x / (S + v) * (S + v)) with x by (field; lra). lra. }
  assert (g * v <= 16 / 5 * v) by (apply Rmult_le_compat_r; lra).
  split; apply D; lra.
Qed.
Lemma six_db : 1 <= db_to_linear 6 <= 16 / 5.
Proof.
  unfold db_to_linear. assert (P : forall a b, a <= b -> Rpower 10 a <= Rpower 10 b) by (intros a b; apply Rle_Rpower; lra).
  pose proof (P 0 (6 / 20) ltac:(lra)) as A. rewrite Rpower_O in A by lra. pose proof (P (6 / 20) (/ 2) ltac:(lra)) as B. rewrite Rpower_sqrt in B by lra. split; [exact A|].
  apply Rle_trans with (sqrt 10); [exact B|]. apply Rsqr_incr_0; [|apply sqrt_pos|lra]. rewrite Rsqr_sqrt by lra. unfold Rsqr. lra.
Qed.
Lemma enabled_le (l : list (stage * bool)) : (length (filter snd l) <= length l)%nat.
Proof. induction l as [|[s b] l IH]; [reflexivity|]. cbn [filter snd]. destruct b; cbn [length]; lia. Qed.
Lemma all_enabled (l : list (stage * bool)) : length (filter snd l) = length l -> forall i s b, nth_error l i = Some (s, b) -> b = true.
Proof.
  induction l as [|[s0 b0] l IH]; intros Q [|i] s b E; try discriminate E; cbn [nth_error filter snd length] in *.
  - injection E as -> ->. destruct b; [reflexivity|]. pose proof (enabled_le l). lia.
  - destruct b0; cbn [length] in Q; [apply (IH ltac:(lia) i s b E)|]. pose proof (enabled_le l). lia.
Qed.
