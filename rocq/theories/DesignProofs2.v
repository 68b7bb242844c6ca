From Verif Require Import Common RealUtil BiquadModel DesignModel DesignSpec DesignProofs.
From Coquelicot Require Import Complex.
From Coq Require Import Psatz.
Local Open Scope R_scope.

(* designs by band edges *)
Lemma tan_lt a b : 0 < a -> a < b -> b < PI / 2 -> tan a < tan b.
Proof. intros. apply tan_increasing; lra. Qed.


Lemma ranged_ok num fs lo hi : valid_edges fs lo hi ->
  let w1 := bilinear_prewarp lo fs in let w2 := bilinear_prewarp hi fs in
  0 < w1 /\ w1 < w2 /\
  exists c, bilinear_transform num (1, w2 - w1, w2 * w1) fs 0 = Ok c /\ stable c /\
    has_value c (RtoC 1) (RtoC (snd num / (w2 * w1))) /\
    has_value c (RtoC (-1)) (RtoC (fst (fst num))) /\
    (forall f w, (f = lo /\ w = w1) \/ (f = hi /\ w = w2) ->
     analog (1, w2 - w1, w2 * w1) (0, w) <> RtoC 0 ->
     has_value c (on_circle f fs) (Cdiv (analog num (0, w)) (analog (1, w2 - w1, w2 * w1) (0, w)))).
Proof.
  intros (Hlo & Hlh & Hhi) w1 w2.
  destruct (half_angle lo fs) as (P & A1 & S1 & C1 & T1); [lra|lra|].
  destruct (half_angle hi fs) as (_ & A2 & S2 & C2 & T2); [lra|lra|].
  assert (HT : tan (PI * lo / fs) < tan (PI * hi / fs)).
  { apply tan_lt; [lra| |lra]. unfold Rdiv. pose proof PI_RGT_0. apply Rmult_lt_compat_r; [now apply Rinv_0_lt_compat|nra]. }
  assert (W1 : 0 < w1) by (unfold w1, bilinear_prewarp; nra).
  assert (W2 : w1 < w2) by (unfold w1, w2, bilinear_prewarp; nra).
  split; [exact W1|]. split; [exact W2|].
  unfold bilinear_transform. rewrite Rltb_true by lra. rewrite Rleb_true by lra. rewrite Rltb_true by lra. cbn [ocheck].
  assert (EK : compute_K 0 fs = 2 * fs) by (unfold compute_K; rewrite Rltb_true by lra; reflexivity).
  rewrite EK. fold (digital num (1, w2 - w1, w2 * w1) (2 * fs)).
  assert (HD1 : 0 < w2 - w1) by lra. assert (HD2 : 0 < w2 * w1) by nra. assert (HK : 0 < 2 * fs) by lra.
  pose proof (digital_a0 num _ _ _ HK HD1 HD2) as HA.
  eexists. split; [reflexivity|].
  split; [apply normalize_stable; [lra|]; now apply digital_stable|].
  split; [apply normalize_value; [lra|]; apply (value_at_dc num (1, w2 - w1, w2 * w1)); cbn; lra|].
  split.
  - apply normalize_value; [lra|].
    pose proof (value_at_nyquist num (1, w2 - w1, w2 * w1) (2 * fs)) as V. cbn [fst] in V.
    replace (fst (fst num) / 1) with (fst (fst num)) in V by field. apply V; lra.
  - intros f w Hfw HD. apply normalize_value; [lra|]. rewrite on_circle_half by lra.
    destruct Hfw as [[-> ->]|[-> ->]].
    + apply value_at_match; [|lra|exact HD]. unfold w1, bilinear_prewarp, tan. field. lra.
    + apply value_at_match; [|lra|exact HD]. unfold w2, bilinear_prewarp, tan. field. lra.
Qed.

Lemma check_edges_ok {A} fs lo hi (k : outcome A) : valid_edges fs lo hi -> check_edges fs lo hi k = k.
Proof. intros (H1 & H2 & H3). unfold check_edges. rewrite !Rltb_true by lra. reflexivity. Qed.

Lemma edge_values w1 w2 : 0 < w1 -> w1 < w2 ->
  analog (1, w2 - w1, w2 * w1) (0, w1) = ((w2 - w1) * w1, (w2 - w1) * w1) /\
  analog (1, w2 - w1, w2 * w1) (0, w2) = (- ((w2 - w1) * w2), (w2 - w1) * w2).
Proof. intros. unfold analog. cbn [fst snd]. split; creal. Qed.

Lemma Cmod_half (z : C) : fst z * fst z + snd z * snd z = 1 / 2 -> Cmod z = 1 / sqrt 2.
Proof.
  intros H. unfold Cmod. cbn. replace (fst z * (fst z * 1) + snd z * (snd z * 1)) with (1 / 2) by lra.
  rewrite sqrt_div by lra. now rewrite sqrt_1.
Qed.

Lemma ranged_bandpass_props fs lo hi : valid_edges fs lo hi ->
  exists c, ranged_bandpass fs lo hi = Ok c /\ stable c /\ has_value c (RtoC 1) (RtoC 0) /\ has_value c (RtoC (-1)) (RtoC 0) /\
  (exists h, has_value c (on_circle lo fs) h /\ Cmod h = 1 / sqrt 2) /\
  (exists h, has_value c (on_circle hi fs) h /\ Cmod h = 1 / sqrt 2).
Proof.
  intros HV. unfold ranged_bandpass. rewrite check_edges_ok by exact HV. cbv zeta.
  set (w1 := bilinear_prewarp lo fs). set (w2 := bilinear_prewarp hi fs).
  destruct (ranged_ok (0, w2 - w1, 0) fs lo hi HV) as (W1 & W2 & c & E & S & D & N & M).
  fold w1 w2 in W1, W2, E, D, N, M. destruct (edge_values w1 w2 W1 W2) as [E1 E2].
  assert (0 < (w2 - w1) * w1) by nra. assert (0 < (w2 - w1) * w2) by nra.
  exists c. split; [exact E|]. split; [exact S|].
  split; [value; cbn [snd]; f_equal; field; lra|]. split; [exact N|].
  split; eexists; (split; [apply M; [tauto|]|]); rewrite ?E1, ?E2.
  - apply pair_neq_r. lra.
  - apply Cmod_half. unfold analog, Cdiv, Cinv. cbn. field. repeat split; nra.
  - apply pair_neq_r. lra.
  - apply Cmod_half. unfold analog, Cdiv, Cinv. cbn. field. repeat split; nra.
Qed.

Lemma ranged_bandstop_props fs lo hi : valid_edges fs lo hi ->
  exists c, ranged_bandstop fs lo hi = Ok c /\ stable c /\ has_value c (RtoC 1) (RtoC 1) /\ has_value c (RtoC (-1)) (RtoC 1) /\
  (exists h, has_value c (on_circle lo fs) h /\ Cmod h = 1 / sqrt 2) /\
  (exists h, has_value c (on_circle hi fs) h /\ Cmod h = 1 / sqrt 2).
Proof.
  intros HV. unfold ranged_bandstop. rewrite check_edges_ok by exact HV. cbv zeta.
  set (w1 := bilinear_prewarp lo fs). set (w2 := bilinear_prewarp hi fs).
  destruct (ranged_ok (1, 0, w2 * w1) fs lo hi HV) as (W1 & W2 & c & E & S & D & N & M).
  fold w1 w2 in W1, W2, E, D, N, M. destruct (edge_values w1 w2 W1 W2) as [E1 E2].
  assert (0 < (w2 - w1) * w1) by nra. assert (0 < (w2 - w1) * w2) by nra.
  exists c. split; [exact E|]. split; [exact S|].
  split; [value; cbn [snd]; f_equal; field; lra|]. split; [exact N|].
  split; eexists; (split; [apply M; [tauto|]|]); rewrite ?E1, ?E2.
  - apply pair_neq_r. lra.
  - apply Cmod_half. unfold analog, Cdiv, Cinv. cbn. field. repeat split; nra.
  - apply pair_neq_r. lra.
  - apply Cmod_half. unfold analog, Cdiv, Cinv. cbn. field. repeat split; nra.
Qed.

(* shelves *)
Lemma full_angle f fs : 0 < f -> f < fs / 2 -> 0 < sin (2 * PI * f / fs) /\ -1 < cos (2 * PI * f / fs) < 1.
Proof.
  intros Hf Hfs. destruct (half_angle f fs Hf Hfs) as (P & A & S & C & T).
  replace (2 * PI * f / fs) with (2 * (PI * f / fs)) by (field; lra).
  rewrite sin_2a, cos_2a. pose proof (sin2_cos2 (PI * f / fs)) as U. unfold Rsqr in U.
  repeat split; nra.
Qed.

Lemma low_shelf_props fs f q g : valid_design fs f q -> 0 < g ->
  exists c, low_shelf fs f q g = Ok c /\ stable c /\ has_value c (RtoC 1) (RtoC g) /\ has_value c (RtoC (-1)) (RtoC 1).
Proof.
  intros (Hf & Hfs & Hq) Hg. unfold low_shelf. rewrite check_arguments_ok by assumption.
  rewrite Rltb_true by exact Hg. cbn [ocheck]. destruct (full_angle f fs Hf Hfs) as (S & C1 & C2).
  set (o := 2 * PI * f / fs) in *. set (k := sqrt g).
  assert (K : 0 < k) by (apply sqrt_lt_R0; exact Hg). assert (KK : k * k = g) by (apply sqrt_sqrt; lra).
  set (beta := sin o * sqrt k / q).
  assert (B : 0 < beta). { apply Rdiv_lt_0_compat; [|exact Hq]. apply Rmult_lt_0_compat; [exact S|now apply sqrt_lt_R0]. }
  assert (P1 : 0 < k * (1 + cos o)) by nra.
  eexists. split; [reflexivity|]. split; [|split].
  - apply jury; cbn; [nra|apply Rabs_def1; nra|nra|nra].
  - apply has_value_intro.
    + intros E. apply (f_equal fst) in E. cbn in E. nra.
    + rewrite <- KK. creal.
  - apply has_value_intro.
    + intros E. apply (f_equal fst) in E. cbn in E. nra.
    + creal.
Qed.

Lemma high_shelf_props fs f q g : valid_design fs f q -> 0 < g ->
  exists c, high_shelf fs f q g = Ok c /\ stable c /\ has_value c (RtoC 1) (RtoC 1) /\ has_value c (RtoC (-1)) (RtoC g).
Proof.
  intros (Hf & Hfs & Hq) Hg. unfold high_shelf. rewrite check_arguments_ok by assumption.
  rewrite Rltb_true by exact Hg. cbn [ocheck]. destruct (full_angle f fs Hf Hfs) as (S & C1 & C2).
  set (o := 2 * PI * f / fs) in *. set (k := sqrt g).
  assert (K : 0 < k) by (apply sqrt_lt_R0; exact Hg). assert (KK : k * k = g) by (apply sqrt_sqrt; lra).
  set (beta := sin o * sqrt k / q).
  assert (B : 0 < beta). { apply Rdiv_lt_0_compat; [|exact Hq]. apply Rmult_lt_0_compat; [exact S|now apply sqrt_lt_R0]. }
  assert (P1 : 0 < k * (1 - cos o)) by nra.
  eexists. split; [reflexivity|]. split; [|split].
  - apply jury; cbn; [nra|apply Rabs_def1; nra|nra|nra].
  - apply has_value_intro.
    + intros E. apply (f_equal fst) in E. cbn in E. nra.
    + creal.
  - apply has_value_intro.
    + intros E. apply (f_equal fst) in E. cbn in E. nra.
    + rewrite <- KK. creal.
Qed.

(* symmetric peaks *)
Lemma peak_shape fs f q g c : peak fs f q g = Ok c -> let w := 2 * PI * f in let K := compute_K f fs in
  0 < f /\ f < fs / 2 /\ 0 < q /\ 0 <= g /\ c = normalize (digital (0 + 1, g * (w / q), 0 + w * w) (1, w / q, w * w) K).
Proof.
  unfold peak. intros H. apply check_arguments_inv in H. destruct H as (Hf & Hfs & Hq & H).
  apply ocheck_ok in H. destruct H as [Hg H]. destruct (Rleb_spec 0 g); [|discriminate].
  unfold bilinear_transform in H. rewrite Rltb_true in H by lra. rewrite Rleb_true in H by lra. rewrite Rltb_true in H by lra.
  cbn [ocheck] in H. injection H as <-. repeat split; auto.
Qed.

Lemma peak_symmetric_inverse_lt fs f q g c c' z : g < 1 ->
  peak_symmetric fs f q g = Ok c -> peak_symmetric fs f q (/ g) = Ok c' ->
  denominator c z <> RtoC 0 -> denominator c' z <> RtoC 0 ->
  Cmult (Cdiv (numerator c z) (denominator c z)) (Cdiv (numerator c' z) (denominator c' z)) = RtoC 1.
Proof.
  intros Hg H H'. unfold peak_symmetric in *. rewrite Rltb_true in H by exact Hg.
  apply peak_shape in H. destruct H as (Hf & Hfs & Hq & Hg0 & ->).
  assert (G0 : 0 < g). { destruct (Rle_lt_or_eq_dec 0 g Hg0); auto. subst g. lra. }
  assert (Q0 : 0 < q) by nra.
  assert (G1 : 1 < / g) by (rewrite <- Rinv_1; apply Rinv_lt_contravar; lra).
  rewrite Rltb_false in H' by lra. apply peak_shape in H'. destruct H' as (_ & _ & _ & _ & ->).
  set (w := 2 * PI * f). set (K := compute_K f fs).
  assert (HK : 0 < K) by (apply compute_K_pos; assumption).
  assert (HW : 0 < w) by (apply w_pos; exact Hf).
  assert (HA : 0 < a0 (digital (0 + 1, g * (w / (q * g)), 0 + w * w) (1, w / (q * g), w * w) K)).
  { apply digital_a0; [exact HK|apply Rdiv_lt_0_compat; lra|nra]. }
  assert (HA' : 0 < a0 (digital (0 + 1, / g * (w / q), 0 + w * w) (1, w / q, w * w) K)).
  { apply digital_a0; [exact HK|apply Rdiv_lt_0_compat; lra|nra]. }
  assert (X : digital (0 + 1, g * (w / (q * g)), 0 + w * w) (1, w / (q * g), w * w) K
    = let d := digital (0 + 1, / g * (w / q), 0 + w * w) (1, w / q, w * w) K in
      {| b0 := a0 d; b1 := a1 d; b2 := a2 d; a0 := b0 d; a1 := b1 d; a2 := b2 d |}).
  { unfold digital, make_coeffs, bilinear_map. cbn. f_equal; field; lra. }
  rewrite X in *. cbv zeta in *. set (d := digital (0 + 1, / g * (w / q), 0 + w * w) (1, w / q, w * w) K) in *.
  clearbody d. clear X. cbn [a0] in HA.
  assert (N1 : numerator (normalize {| b0 := a0 d; b1 := a1 d; b2 := a2 d; a0 := b0 d; a1 := b1 d; a2 := b2 d |}) z
             = Cmult (RtoC (a0 d / b0 d)) (denominator (normalize d) z)).
  { unfold numerator, denominator, normalize. cbn. apply injective_projections; cbn; field; repeat split; lra. }
  assert (N2 : numerator (normalize d) z
    = Cmult (RtoC (b0 d / a0 d)) (denominator (normalize {| b0 := a0 d; b1 := a1 d; b2 := a2 d; a0 := b0 d; a1 := b1 d; a2 := b2 d |}) z)).
  { unfold numerator, denominator, normalize. cbn. apply injective_projections; cbn; field; repeat split; lra. }
  rewrite N1, N2. intros D1 D2.
  transitivity (Cmult (RtoC (a0 d / b0 d)) (RtoC (b0 d / a0 d))); [field; split; assumption|].
  apply injective_projections; cbn; field; split; lra.
Qed.

Lemma peak_symmetric_inverse fs f q g c c' z :
  peak_symmetric fs f q g = Ok c -> peak_symmetric fs f q (/ g) = Ok c' ->
  denominator c z <> RtoC 0 -> denominator c' z <> RtoC 0 ->
  Cmult (Cdiv (numerator c z) (denominator c z)) (Cdiv (numerator c' z) (denominator c' z)) = RtoC 1.
Proof.
  intros H H' D D'. destruct (Rlt_dec g 1) as [L|L].
  - exact (peak_symmetric_inverse_lt fs f q g c c' z L H H' D D').
  - destruct (Req_dec g 1) as [->|NE].
    + rewrite Rinv_1, H in H'. injection H' as <-.
      apply peak_shape in H. destruct H as (Hf & Hfs & Hq & Hg0 & ->).
      match goal with |- Cmult (Cdiv ?n ?d) _ = _ => assert (E : n = d) end.
      { unfold numerator, denominator, normalize, digital. rewrite !Rplus_0_l, Rmult_1_l. reflexivity. }
      rewrite E. field. exact D.
    + rewrite Cmult_comm. apply (peak_symmetric_inverse_lt fs f q (/ g) c' c z).
      * rewrite <- Rinv_1. apply Rinv_lt_contravar; lra.
      * exact H'.
      * rewrite Rinv_involutive by lra. exact H.
      * exact D'.
      * exact D.
Qed.
