From Verif Require Import Common ListLemmas RealUtil BiquadModel DesignModel DesignSpec DesignProofs DesignProofs2 DesignProofs3 CascadeModel CascadeSpec CascadeProofs CascadeProofs2 PoleZeroModel PoleZeroSpec EqualizerSpec EqualizerProofs PoleZeroProofs PoleZeroProofs2 PoleZeroProofs3 PoleZeroProofs4 PoleZeroProofs5 PolyRoots PoleZeroProofs6 PoleZeroProofs7 PoleZeroProofs12.
From Coquelicot Require Import Complex.
Local Open Scope R_scope.

(* ---------- a bandpass filter with the wrong response ---------- *)
Lemma tan_15 : tan (PI / 12) = 2 - sqrt 3.
Proof.
  pose proof (sqrt_sqrt 3 ltac:(lra)) as S3. pose proof PI_RGT_0. assert (CP : 0 < cos (PI / 12)) by (apply cos_gt_0; lra).
  assert (E1 : 2 * sin (PI / 12) * cos (PI / 12) = 1 / 2) by (rewrite <- sin_2a; replace (2 * (PI / 12)) with (PI / 6) by field; apply sin_PI6).
  assert (E2 : 2 * cos (PI / 12) * cos (PI / 12) = 1 + sqrt 3 / 2) by (pose proof (cos_2a_cos (PI / 12)) as X; replace (2 * (PI / 12)) with (PI / 6) in X by field; rewrite cos_PI6 in X; lra).
  unfold tan. set (s := sin _) in *. set (c := cos _) in *. apply (Rmult_eq_reg_r (c * (2 * c))); [|nra]. transitivity (2 * s * c); [field; lra|]. rewrite E1.
  replace ((2 - sqrt 3) * (c * (2 * c))) with ((2 - sqrt 3) * (2 * c * c)) by ring. rewrite E2. nra.
Qed.
Lemma tan_75 : tan (5 * PI / 12) = 2 + sqrt 3.
Proof.
  pose proof (sqrt_sqrt 3 ltac:(lra)) as S3. replace (5 * PI / 12) with (PI / 2 - PI / 12) by field. unfold tan. rewrite sin_shift, cos_shift. pose proof tan_15 as T. unfold tan in T. pose proof PI_RGT_0.
  assert (CP : 0 < cos (PI / 12)) by (apply cos_gt_0; lra). assert (SP : 0 < sin (PI / 12)) by (apply sin_gt_0; lra). set (s := sin _) in *. set (c := cos _) in *.
  assert (E : s = (2 - sqrt 3) * c) by (rewrite <- T; field; lra). apply (Rmult_eq_reg_r s); [|lra]. transitivity c; [field; lra|]. rewrite E. transitivity ((4 - sqrt 3 * sqrt 3) * c); [rewrite S3|]; ring.
Qed.
Lemma real_sqrt x : 0 <= x -> complex_sqrt (RtoC x) = RtoC (sqrt x).
Proof.
  intros H. unfold complex_sqrt. cbn [RtoC fst snd]. change ((x, 0) : C) with (RtoC x). rewrite Cmod_R, Rabs_pos_eq by exact H. destruct (Rltb_spec 0 0) as [X|_]; [lra|].
  replace ((x + x) / 2) with x by field. replace ((x - x) / 2) with 0 by field. now rewrite sqrt_0.
Qed.
Lemma bandpass_peak : exists cs h, bandpass_filter (butterworth_prototype 1) 12 1 5 = Ok cs /\ stable_cascade cs /\ cascade_value cs (on_circle 3 12) h /\ 3 < Cmod h.
Proof.
  pose proof (sqrt_sqrt 3 ltac:(lra)) as S3. pose proof (sqrt_sqrt 2 ltac:(lra)) as S2. pose proof (sqrt_lt_R0 3 ltac:(lra)) as P3. pose proof (sqrt_lt_R0 2 ltac:(lra)) as P2.
  assert (B3 : 1.732 < sqrt 3 < 1.7321) by (split; nra). assert (B2 : 1.4142 < sqrt 2 < 1.4143) by (split; nra).
  replace (butterworth_prototype 1) with (Ok (butterworth 1)) by (symmetry; apply (butterworth_is 1); lia). unfold bandpass_filter. rewrite (Rltb_true 0 12), (Rltb_true 1 5), (Rltb_true 5 (12 / 2)) by lra. destruct (Rleb_spec 0 1) as [_|N]; [|lra]. cbn [ocheck obind].
  assert (EL : bilinear_prewarp 1 12 = 24 * (2 - sqrt 3)) by (unfold bilinear_prewarp; rewrite <- tan_15; replace (PI * 1 / 12) with (PI / 12) by field; ring).
  assert (EH : bilinear_prewarp 5 12 = 24 * (2 + sqrt 3)) by (unfold bilinear_prewarp; rewrite <- tan_75; replace (PI * 5 / 12) with (5 * PI / 12) by field; ring).
  rewrite EL, EH. replace (24 * (2 + sqrt 3) - 24 * (2 - sqrt 3)) with (48 * sqrt 3) by ring.
  replace (sqrt (24 * (2 + sqrt 3) * (24 * (2 - sqrt 3)))) with 24 by (symmetry; replace (24 * (2 + sqrt 3) * (24 * (2 - sqrt 3))) with (24 * 24) by nra; apply sqrt_square; lra).
  rewrite map_frequency_is, shift_roots_is, add_zeros. set (q := 24 * (sqrt 2 - sqrt 3)). set (m := set_gain _ _).
  assert (EM : m = {| lone_zeros := [0]; lone_poles := []; paired_zeros := []; paired_poles := [RtoC q]; pz_gain := 48 * sqrt 3 |}).
  { unfold m, mapped. cbn [butterworth Nat.odd Nat.even negb lone_zeros lone_poles paired_zeros paired_poles pz_gain map app moved flat_map set_gain Nat.div2 seq].
    assert (EQ : shifted_plus 24 (RtoC (fst (Cdiv (Cmult (RtoC (48 * sqrt 3)) (RtoC (-1))) (RtoC 2)))) = RtoC q).
    { replace (fst (Cdiv (Cmult (RtoC (48 * sqrt 3)) (RtoC (-1))) (RtoC 2))) with (- 24 * sqrt 3) by (cbn; field). unfold shifted_plus. rewrite <- RtoC_mult, <- RtoC_minus.
      replace (- 24 * sqrt 3 * (- 24 * sqrt 3) - 24 * 24) with ((24 * sqrt 2) * (24 * sqrt 2)) by nra. rewrite real_sqrt by nra. rewrite sqrt_square by nra. rewrite <- RtoC_plus. f_equal. unfold q. ring. }
    unfold Nat.odd. cbn [Nat.even negb map]. rewrite EQ. cbn [map app]. unfold relative_degree, poles_degree, zeros_degree. cbn. change (Pos.to_nat 1) with 1%nat. unfold set_gain. cbn [repeat lone_zeros lone_poles paired_zeros paired_poles pow]. f_equal. ring. }
  rewrite EM. clear EM m EL EH. set (m := {| lone_zeros := _ |}). assert (QB : - 8 < q < - 7) by (unfold q; lra).
  assert (MP : poles m = [RtoC q; Cconj (RtoC q)]) by reflexivity. assert (MZ : zeros m = [RtoC 0]) by reflexivity.
  destruct (discretize m 12) as (cs & E & ST & V & _).
  - lra.
  - rewrite MP. intros p [<-|[<-|[]]]; cbn; lra.
  - rewrite MZ. intros p [<-|[]]; cbn; lra.
  - rewrite MP. cbn. lia.
  - rewrite MP, MZ. cbn. lia.
  - cbn. lra.
  - right. cbn [m lone_poles lone_zeros paired_zeros paired_poles app length]. split; [lia|]. split.
    + intros x [<-|[]]. replace ((2 * 12 + 0) / (2 * 12 - 0)) with 1 by field. rewrite Rabs_R1. lra.
    + intros r [<-|[]]. unfold bilinear_root. replace (2 * 12) with 24 by ring. apply away_ratio; [intros X; apply (f_equal fst) in X; cbn in X; lra|]. rewrite <- RtoC_plus, <- RtoC_minus, !Cmod_R, !Rabs_pos_eq; lra.
  - assert (Z : on_circle 3 12 = (0, 1)) by (unfold on_circle; replace (2 * PI * 3 / 12) with (PI / 2) by field; now rewrite cos_PI2, sin_PI2).
    exists cs, (Cdiv (Cmult (RtoC (48 * sqrt 3)) (Cminus (0, 24) (RtoC 0))) (Cmult (Cminus (0, 24) (RtoC q)) (Cminus (0, 24) (RtoC q)))).
    assert (NQ : Cminus (0, 24) (RtoC q) <> RtoC 0) by (intros X; apply (f_equal snd) in X; cbn in X; lra).
    split; [exact E|]. split; [exact ST|]. split.
    + apply V; rewrite Z.
      * intros X. apply (f_equal snd) in X. cbn in X. lra.
      * intros X. apply (f_equal snd) in X. cbn in X. lra.
      * replace (Cdiv (Cmult (RtoC (2 * 12)) (Cminus (0, 1) (RtoC 1))) (Cplus (0, 1) (RtoC 1))) with ((0, 24) : C) by (apply injective_projections; cbn; field).
        unfold analog_value. rewrite MP, MZ. cbn [product_over]. replace (Cconj (RtoC q)) with (RtoC q) by (apply injective_projections; cbn; ring). rewrite !Cmult_1_r. split; [now apply Cmult_neq|reflexivity].
    + rewrite Cmod_div by now apply Cmult_neq. rewrite !Cmod_mult, Cmod2. replace (Cminus (0, 24) (RtoC 0)) with ((0, 24) : C) by (apply injective_projections; cbn; ring). replace (Cmod (0, 24)) with 24.
      2:{ unfold Cmod. cbn [fst snd]. replace (0 ^ 2 + 24 ^ 2) with (24 * 24) by ring. symmetry. apply sqrt_square. lra. }
      rewrite Cmod_R, Rabs_pos_eq by lra. cbn. set (D := (0 + - q) * (0 + - q) + (24 + - 0) * (24 + - 0)). assert (ED : D = 576 * (6 - 2 * (sqrt 2 * sqrt 3))) by (unfold D, q; nra).
      assert (DP : 0 < D) by (unfold D; nra). apply (Rmult_lt_reg_r D); [exact DP|]. unfold Rdiv. rewrite Rmult_assoc, Rinv_l by lra. rewrite ED. assert (1.4142 * 1.732 < sqrt 2 * sqrt 3) by nra. lra.
Qed.

(* ---------- a corner frequency of zero ---------- *)
Lemma lowpass_zero fs : 0 < fs -> exists cs, lowpass_filter (butterworth_prototype 1) fs 0 = Ok cs /\ ~ stable_cascade cs /\ forall h, ~ cascade_value cs (on_circle 0 fs) h.
Proof.
  intros Hfs. replace (butterworth_prototype 1) with (Ok (butterworth 1)) by (symmetry; apply (butterworth_is 1); lia). unfold lowpass_filter. rewrite (Rltb_true 0 fs), (Rltb_true 0 (fs / 2)) by lra. destruct (Rleb_spec 0 0) as [_|N]; [|lra]. cbn [ocheck obind].
  assert (EW : bilinear_prewarp 0 fs = 0) by (unfold bilinear_prewarp; replace (PI * 0 / fs) with 0 by (field; lra); rewrite tan_0; ring). rewrite EW, map_frequency_is. set (m := set_gain _ _).
  assert (EM : m = {| lone_zeros := []; lone_poles := [0]; paired_zeros := []; paired_poles := []; pz_gain := 0 |}).
  { unfold m, mapped, set_gain, butterworth, Nat.odd. cbn. change (Pos.to_nat 1) with 1%nat. f_equal; [apply f_equal2; [ring|reflexivity]|ring]. }
  rewrite EM. clear EM m EW. set (m := {| lone_zeros := _ |}). pose proof (compute_K_0 fs Hfs) as EK. set (K := 2 * fs) in *. assert (HK0 : 0 < K) by (unfold K; lra).
  assert (HK : forall r, In r (zeros m ++ poles m) -> r <> RtoC K) by (intros r [<-|[]] X; apply (f_equal fst) in X; cbn in X; lra).
  assert (V : analog_value m (RtoC K) (RtoC 0)).
  { assert (N0 : Cmult (Cminus (RtoC K) (RtoC 0)) (RtoC 1) <> RtoC 0) by (intros X; apply (f_equal fst) in X; cbn in X; lra). split; [exact N0|]. unfold poles, zeros. cbn [m lone_poles lone_zeros paired_poles paired_zeros roots map app product_over pz_gain]. field. intros X. apply (f_equal fst) in X. cbn in X. lra. }
  pose proof (bilinear_pz_ok m fs 0 (RtoC 0)) as B. rewrite EK in B. rewrite (B HK V). cbn [obind]. rewrite Cmod_R, Rabs_R0.
  assert (ED : discretized K m 0 = {| lone_zeros := [-1]; lone_poles := [1]; paired_zeros := []; paired_poles := []; pz_gain := 1 * 0 |}).
  { unfold discretized. change (Z.to_nat (relative_degree m)) with 1%nat. cbn [m lone_zeros lone_poles paired_zeros paired_poles map app repeat]. f_equal. apply f_equal2; [field; lra|reflexivity]. }
  rewrite ED. set (d := {| lone_zeros := _ |}). destruct (get_coefficients_balanced d) as [E NE].
  - split; [reflexivity|]. split; [cbn; lia|]. split; [intros r [<-|[]]; rewrite Rabs_left; lra|intros r []].
  - discriminate.
  - rewrite E. eexists. split; [reflexivity|]. assert (NV : forall h, ~ cascade_value (adjust_gain (pz_gain d) (stages_of d)) (RtoC 1) h).
    { intros h A. apply (stages_value' d) in A; [|exact NE|apply RtoC_neq; lra]. destruct A as [A _]. apply A. unfold poles. cbn [d lone_poles paired_poles roots map app product_over]. field. apply RtoC_neq. lra. }
    split.
    + intros S. destruct (S (RtoC 1)) as [h A]; [rewrite Cmod_1; lra|]. exact (NV h A).
    + intros h. replace (on_circle 0 fs) with (RtoC 1); [apply NV|]. unfold on_circle. replace (2 * PI * 0 / fs) with 0 by (field; lra). rewrite cos_0, sin_0. reflexivity.
Qed.

(* ---------- gains without roots, and sign lost ---------- *)
Definition gain_only (g : R) : pole_zero := set_gain g pz_new.
Lemma gain_lost g : get_coefficients (gain_only g) = Ok [identity_coeffs].
Proof. reflexivity. Qed.
