From Verif Require Import Common ListLemmas RealUtil BiquadModel DesignModel DesignSpec DesignProofs DesignProofs2 DesignProofs3 CascadeModel CascadeSpec CascadeProofs2 ComplexModel PoleZeroModel PoleZeroSpec PoleZeroProofs PoleZeroProofs4 PoleZeroProofs6 PoleZeroProofs7 PoleZeroProofs16 PoleZeroProofs17 PoleZeroProofs18 LadderModel MultiCrossModel MultiCrossSpec MultiCrossProofs MultiCrossProofs2 MultiCrossProofs3 MultiCrossProofs4 MultiCrossProofs6 MultiCrossProofs7 MultiCrossProofs8.
From Coquelicot Require Import Complex.
Local Open Scope R_scope.

(* ---------- the square of a section of first order ---------- *)
Lemma reqb_no x : x <> 0 -> Reqb (Rabs x) 0 = false.
Proof. intros H. destruct (Reqb_spec (Rabs x) 0) as [E|]; [|reflexivity]. apply Rabs_no_R0 in H. contradiction. Qed.
Lemma convolve_square a b : b <> 0 -> convolve [a; b; 0] [a; b; 0] = Ok [a * a; 2 * (a * b); b * b].
Proof.
  intros H. unfold convolve. cbn [product map padd rev app drop_zeros].
  assert (Z0 : forall x, x = 0 -> Reqb (Rabs x) 0 = true) by (intros x ->; apply Reqb_true_iff, Rabs_R0).
  rewrite (Z0 (0 * 0)) by ring. rewrite (Z0 (b * 0 + 0 * b)) by ring.
  rewrite reqb_no by (intros Q; apply H; nra). cbn [obind rev app]. f_equal. f_equal; [ring|]. f_equal; [ring|]. f_equal. ring.
Qed.
Lemma large_square x : / 100000 < Rabs x -> tolerance < x * x /\ tolerance < Rabs x /\ x <> 0.
Proof.
  intros H. assert (E : x * x = Rabs x * Rabs x) by (rewrite <- Rabs_mult; symmetry; apply Rabs_pos_eq; nra). unfold tolerance. split; [rewrite E; nra|]. split; [lra|]. intros ->. rewrite Rabs_R0 in H. lra.
Qed.
Lemma append_twice c : b2 c = 0 -> a2 c = 0 -> / 100000 < Rabs (b1 c) -> / 100000 < Rabs (a1 c) ->
  append_biquad tolerance [c] c = Ok [{| b0 := b0 c * b0 c; b1 := 2 * (b0 c * b1 c); b2 := b1 c * b1 c; a0 := a0 c * a0 c; a1 := 2 * (a0 c * a1 c); a2 := a1 c * a1 c |}].
Proof.
  destruct c as [p0 p1 p2 q0 q1 q2]. cbn [b0 b1 b2 a0 a1 a2]. intros -> -> HB HA.
  destruct (large_square _ HB) as (B1 & B2 & B3). destruct (large_square _ HA) as (A1 & A2 & A3). assert (T : 0 < tolerance) by (unfold tolerance; lra).
  assert (F1 : forall x y, tolerance < Rabs y -> first_order tolerance [x; y; 0] = true) by (intros x y Hy; unfold first_order; cbn [nth]; rewrite Rabs_R0, Rleb_true, Rltb_true by lra; reflexivity).
  assert (F2 : forall x y w, tolerance < w * w -> first_order tolerance [x; y; w * w] = false) by (intros x y w Hw; unfold first_order; cbn [nth]; rewrite (Rabs_pos_eq (w * w)), Rleb_false by lra; reflexivity).
  assert (F3 : forall x, first_order tolerance [x; 0; 0] = false) by (intros x; unfold first_order; cbn [nth]; rewrite Rabs_R0, (Rltb_false tolerance 0) by lra; apply andb_false_r).
  assert (G2 : forall x y w, tolerance < w * w -> zero_order tolerance [x; y; w * w] = false) by (intros x y w Hw; unfold zero_order; cbn [nth]; rewrite (Rabs_pos_eq (w * w)), (Rleb_false (w * w)) by lra; apply andb_false_r).
  assert (G3 : forall x, zero_order tolerance [x; 0; 0] = true) by (intros x; unfold zero_order; cbn [nth]; rewrite Rabs_R0, Rleb_true by lra; reflexivity).
  unfold append_biquad, simplify. cbn [app length]. set (c := {| b0 := p0; b1 := p1; b2 := 0; a0 := q0; a1 := q1; a2 := 0 |}).
  cbn [merge_pairs]. unfold find_pair at 1. cbn [find_from]. rewrite (F1 p0 p1 B2 : first_order tolerance (vec_b c) = true). cbn [skipn find_from]. rewrite (F1 p0 p1 B2 : first_order tolerance (vec_b c) = true). cbn [nth].
  rewrite (convolve_square p0 p1 B3 : convolve (vec_b c) (vec_b c) = _). cbn [obind]. unfold update. change (vresize 0 3 [p0 * p0; 2 * (p0 * p1); p1 * p1]) with [p0 * p0; 2 * (p0 * p1); p1 * p1].
  set (u := set_b c [p0 * p0; 2 * (p0 * p1); p1 * p1]). set (w := set_b c [1; 0; 0]). change (splice 1 [w] (splice 0 [u] [c; c])) with [u; w].
  unfold find_pair at 1. cbn [find_from]. rewrite (F2 _ _ _ B1 : first_order tolerance (vec_b u) = false), (F3 1 : first_order tolerance (vec_b w) = false). cbn [obind length].
  cbn [merge_pairs]. unfold find_pair at 1. cbn [find_from]. rewrite (F1 q0 q1 A2 : first_order tolerance (vec_a u) = true). cbn [skipn find_from]. rewrite (F1 q0 q1 A2 : first_order tolerance (vec_a w) = true). cbn [nth].
  rewrite (convolve_square q0 q1 A3 : convolve (vec_a u) (vec_a w) = _). cbn [obind]. change (vresize 0 3 [q0 * q0; 2 * (q0 * q1); q1 * q1]) with [q0 * q0; 2 * (q0 * q1); q1 * q1].
  set (u' := set_a u [q0 * q0; 2 * (q0 * q1); q1 * q1]). set (w' := set_a w [1; 0; 0]). change (update (update [u; w] 0 u') 1 w') with [u'; w'].
  unfold find_pair at 1. cbn [find_from]. rewrite (F2 _ _ _ A1 : first_order tolerance (vec_a u') = false), (F3 1 : first_order tolerance (vec_a w') = false). cbn [obind length].
  cbn [merge_gains length Nat.ltb Nat.leb]. unfold find_zero_order. cbn [find_from]. rewrite (G2 _ _ _ A1 : zero_order tolerance (vec_a u') = false), (G3 1 : zero_order tolerance (vec_a w') = true), (G2 _ _ _ B1 : zero_order tolerance (vec_b u') = false), (G3 1 : zero_order tolerance (vec_b w') = true).
  cbn [nth Nat.eqb firstn skipn app]. destruct (Reqb_spec (b0 w' / a0 w') 1) as [_|N]; [reflexivity|]. exfalso. apply N. cbn. field.
Qed.

(* ---------- Linkwitz-Riley crossovers of order 2 ---------- *)
Lemma lr2_sections fs f lo hi : 0 < f -> f < fs / 2 -> fine_crossover 1 fs f -> tan (PI * f / fs) <> 1 -> crossover Linkwitz_Riley_crossover 2 f fs = Ok (lo, hi) -> exists l h, lo = [l] /\ hi = [h] /\ reflective l /\ reflective h /\ a0 l = 1 /\ a0 h = 1 /\ (tan (PI * f / fs) <= / 2 -> b0 l + b0 h < 0).
Proof.
  intros P1 P2 (G1 & G2 & G3) NT E. pose proof (tan_pos f fs P1 P2) as T.
  destruct (lowpass_stages 1 fs f ltac:(lia) ltac:(lia) P1 P2 G3) as (g & pp & lp & EL & [GL GU] & L1 & L2 & _ & C1 & Q1).
  destruct (highpass_stages 1 fs f ltac:(lia) ltac:(lia) P1 P2 G3) as (g' & pp' & lp' & EH & GH & L1' & L2' & _ & C1' & Q1').
  unfold lowpass_gain, highpass_gain in *. cbn [Nat.max] in *. set (t := tan (PI * f / fs)) in *. clearbody t.
  change (length (paired_poles (butterworth 1))) with O in L1, L1'. change (length (lone_poles (butterworth 1))) with 1%nat in L2, L2'.
  destruct pp; [|discriminate]. destruct pp'; [|discriminate]. destruct lp as [|q [|? ?]]; try discriminate. destruct lp' as [|q' [|? ?]]; try discriminate.
  rewrite <- (Q1' q' (or_introl eq_refl)) in Q1. pose proof (Q1 q (or_introl eq_refl)) as ->. clear Q1 L1 L1' L2 L2' C1'.
  assert (QV : q' = (1 - t) / (1 + t)) by (apply Q1'; now left). clear Q1'.
  assert (Q0 : q' <> 0) by (intros X; apply NT; rewrite QV in X; apply (Rmult_eq_compat_r (1 + t)) in X; unfold Rdiv in X; rewrite Rmult_assoc, Rinv_l in X by lra; lra).
  assert (QA : / 100000 < Rabs q') by (destruct (C1 q' (or_introl eq_refl)); [contradiction|assumption]). clear C1.
  assert (QB : -1 < q' < 1).
  { rewrite QV. split; apply (Rmult_lt_reg_r (1 + t)); try lra; unfold Rdiv; rewrite Rmult_assoc, Rinv_l by lra; lra. }
  cbn [map app adjust_gain] in EL, EH. set (cl := set_b (lone_stage (-1) q') _) in EL. set (ch := set_b (lone_stage 1 q') _) in EH.
  assert (GL' : / 100000 < g).
  { eapply Rlt_le_trans; [|exact GL]. rewrite !pow_1. apply (Rmult_lt_reg_r (1 + t)); [lra|]. unfold Rdiv. rewrite (Rmult_assoc t), Rinv_l by lra. nra. }
  assert (GH' : / 100000 < g').
  { eapply Rlt_le_trans; [|exact GH]. rewrite !pow_1. apply (Rmult_lt_reg_r (1 + t)); [lra|]. unfold Rdiv. rewrite (Rmult_assoc 1), Rinv_l by lra. nra. }
  assert (AQ : / 100000 < Rabs (- q' - 0)) by (replace (- q' - 0) with (- q') by ring; now rewrite Rabs_Ropp).
  assert (BL : / 100000 < Rabs (b1 cl)) by (replace (b1 cl) with g by (cbn; ring); rewrite Rabs_pos_eq; lra).
  assert (BH : / 100000 < Rabs (b1 ch)) by (replace (b1 ch) with (- g') by (cbn; ring); rewrite Rabs_Ropp, Rabs_pos_eq; lra).
  assert (ZL : b2 cl = 0) by (cbn; ring). assert (ZH : b2 ch = 0) by (cbn; ring). assert (YL : a2 cl = 0) by (cbn; ring). assert (YH : a2 ch = 0) by (cbn; ring).
  pose proof (append_twice cl ZL YL BL AQ) as AL. pose proof (append_twice ch ZH YH BH AQ) as AH.
  unfold crossover, make_linkwitz_riley, make_butterworth in E. rewrite (Rltb_true 0 f), (Rltb_true f (fs / 2)) in E by assumption. cbn [Z.ltb Z.compare ocheck] in E. change (Z.rem 2 2 =? 0)%Z with true in E. change (Z.quot 2 2) with (Z.of_nat 1) in E. cbn [ocheck] in E.
  rewrite EL in E. cbn [obind] in E. rewrite EH in E. cbn [obind fst length seq append_copies snd Nat.ltb Nat.leb oguard nth] in E. rewrite AL in E. cbn [obind] in E. rewrite AH in E. cbn [obind fst snd] in E. change (Z.rem (2 - 2) 4 =? 0)%Z with true in E. injection E as <- <-.
  assert (RF : forall c, a0 c = 1 -> a1 c = -2 * q' -> a2 c = q' * q' -> reflective c).
  { intros c E0 E1 E2. unfold reflective. rewrite E0, E1, E2. split; [lra|]. assert (QQ : 0 < q' * q') by nra. split.
    - replace (q' * q' / 1) with (q' * q') by field. rewrite Rabs_pos_eq by lra. nra.
    - unfold Rdiv. rewrite Rabs_mult, Rabs_inv, (Rabs_pos_eq (1 + q' * q')) by lra. replace (Rabs (-2 * q')) with (2 * Rabs q') by (rewrite Rabs_mult; f_equal; rewrite Rabs_left; lra). assert (R2 : Rabs q' * Rabs q' = q' * q') by (rewrite <- Rabs_mult; apply Rabs_pos_eq; lra).
      assert (RP : 0 < Rabs q') by lra. assert (R1 : Rabs q' < 1) by (apply Rabs_def1; lra). split; [apply Rmult_lt_0_compat; [lra|apply Rinv_0_lt_compat; lra]|]. apply (Rmult_lt_reg_r (1 + q' * q')); [lra|]. rewrite Rmult_assoc, Rinv_l by lra. nra. }
  eexists _, _. split; [reflexivity|]. split; [reflexivity|]. split; [apply RF; cbn; ring|]. split; [apply RF; cbn; ring|]. split; [cbn; ring|]. split; [cbn; ring|].
  intros TH. assert (GL2 : g < g').
  { apply Rle_lt_trans with t; [rewrite pow_1 in GU; exact GU|]. eapply Rlt_le_trans; [|exact GH]. rewrite !pow_1. apply (Rmult_lt_reg_r (1 + t)); [lra|]. unfold Rdiv. rewrite Rmult_assoc, Rinv_l by lra. nra. }
  assert (GG : g * g < g' * g') by nra. cbn. nra.
Qed.
Lemma lr2_reflective fs f lo hi : 0 < f -> f < fs / 2 -> fine_crossover 1 fs f -> tan (PI * f / fs) <> 1 -> crossover Linkwitz_Riley_crossover 2 f fs = Ok (lo, hi) -> Forall reflective lo /\ Forall reflective hi.
Proof. intros P1 P2 F NT E. destruct (lr2_sections fs f lo hi P1 P2 F NT E) as (l & h & -> & -> & A & B & _). auto. Qed.

(* ---------- the all-pass section for a falling phase ---------- *)
Lemma allpass_minimal_values fs f phase c : 0 < f -> f < fs / 2 -> sin phase < 0 -> allpass_minimal fs f phase = Ok c ->
  let t := tan (PI * f / fs) in let u := - ((1 + cos phase) / sin phase) * (1 + 2001 * (t * t)) in
  a0 c = 1 /\ a2 c = (u - 2000 * t) / (u + 2000 * t) /\ a1 c / (1 + a2 c) = (2001 * (t * t) - 1) / (2001 * (t * t) + 1).
Proof.
  intros P1 P2 SN E t u. pose proof (tan_pos f fs P1 P2) as T. fold t in T. destruct (full_angle f fs P1 P2) as (S2 & _). assert (Hfs : 0 < fs) by lra.
  assert (CT : 0 < - ((1 + cos phase) / sin phase)).
  { assert (0 < (1 + cos phase) / - sin phase). { apply Rdiv_lt_0_compat; [|lra]. pose proof (sin2_cos2 phase) as SC. unfold Rsqr in SC. pose proof (COS_bound phase) as [CB _]. assert (cos phase <> -1) by (intros Q; rewrite Q in SC; nra). lra. } replace (- ((1 + cos phase) / sin phase)) with ((1 + cos phase) / - sin phase) by (field; lra). assumption. }
  unfold allpass_minimal, allpass in E. apply ocheck_ok in E as [_ E]. apply ocheck_ok in E as [_ E]. apply ocheck_ok in E as [_ E]. apply ocheck_ok in E as [_ E]. apply ocheck_ok in E as [_ E]. cbv zeta in E.
  set (ct := (1 + cos phase) / sin phase) in *. clearbody ct.
  assert (K : minimum_group_delay fs f phase * fs * sin (2 * PI * f / fs) / sin phase = - (1001 / 1000)).
  { unfold minimum_group_delay, infimal_group_delay. rewrite Rabs_left by lra. field. split; lra. }
  rewrite K in E. replace ((- (1001 / 1000) - 1) / (- (1001 / 1000) + 1)) with 2001 in E by field.
  assert (EW : bilinear_prewarp f fs = 2 * fs * t) by reflexivity. rewrite EW in E.
  destruct (Reqb_spec (- (1001 / 1000) + 1) 0) as [|_]; [lra|]. cbn [negb oguard] in E.
  assert (S0 : 0 < sqrt 2001) by (apply sqrt_lt_R0; lra). pose proof (sqrt_sqrt 2001 ltac:(lra)) as SS. set (s := sqrt 2001) in *. clearbody s.
  assert (D1 : 2 * fs * t * (2 * fs * t) - 2 * fs * t * s * (2 * fs * t * s) = - (2000 * (4 * (fs * fs) * (t * t)))) by (transitivity (4 * (fs * fs) * (t * t) * (1 - s * s)); [ring|rewrite SS; ring]).
  rewrite D1 in E. assert (FT : 0 < 4 * (fs * fs) * (t * t)) by (assert (0 < fs * fs) by nra; assert (0 < t * t) by nra; apply Rmult_lt_0_compat; lra).
  destruct (Reqb_spec (- (2000 * (4 * (fs * fs) * (t * t)))) 0) as [|_]; [lra|]. cbn [negb oguard] in E.
  assert (P : 2 * fs * t * s / fs / 2 = t * s) by (field; lra). rewrite P in E.
  assert (PP : t * s * (t * s) = 2001 * (t * t)) by (transitivity (t * t * (s * s)); [ring|rewrite SS; ring]). rewrite PP in E.
  assert (QQ : ct * (2 * fs * t * s) * (2 * fs * t) / - (2000 * (4 * (fs * fs) * (t * t))) = - ct * s / 2000) by (field; lra). rewrite QQ in E.
  destruct (Reqb_spec (- ct * s / 2000 * (2001 * (t * t) + 1) + t * s) 0) as [|ND]; [discriminate|]. cbn [negb oguard] in E. injection E as <-. cbn [make_coeffs a0 a1 a2 fst snd].
  assert (TT : 0 < t * t) by (apply Rmult_lt_0_compat; lra). assert (U0 : 0 < u) by (unfold u; apply Rmult_lt_0_compat; lra). assert (US : - ct * s / 2000 * (2001 * (t * t) + 1) = u * s / 2000) by (unfold u; field). rewrite US.
  split; [reflexivity|]. split.
  - field. nra.
  - replace (1 + (u * s / 2000 - t * s) / (u * s / 2000 + t * s)) with (2 * (u * s / 2000) / (u * s / 2000 + t * s)) by (field; nra). rewrite <- US. field. repeat split; try lra; try nra.
Qed.
Lemma butterworth_1 W : analog_value (butterworth 1) (0, W) (Cinv (1, W)).
Proof.
  assert (E : product_over (fun p => Cminus (0, W) p) (poles (butterworth 1)) = (1, W)).
  { unfold poles, roots. cbn [butterworth lone_poles paired_poles Nat.odd Nat.even negb Nat.div2 seq map app product_over]. apply injective_projections; cbn; ring. }
  split; [rewrite E|rewrite E; unfold zeros, roots; cbn [butterworth lone_zeros paired_zeros map app product_over pz_gain]].
  - intros X. apply (f_equal fst) in X. cbn in X. lra.
  - unfold Cdiv. ring.
Qed.

(* ---------- three bands with crossovers of order 2 at W = 1/4 and 1/2 ---------- *)
Lemma example_bank fs : 0 < fs -> exists d, design_bank Linkwitz_Riley_crossover 2 3 fs [at_tan fs (1 / 4); at_tan fs (1 / 2)] = Ok d /\ clear_allpass d /\ reflective_bank d.
Proof.
  intros F. destruct (at_tan_ok fs (1 / 4) F ltac:(lra)) as (T0 & A0 & B0). destruct (at_tan_ok fs (1 / 2) F ltac:(lra)) as (T1 & A1 & B1). pose proof (at_tan_lt fs (1 / 4) (1 / 2) F ltac:(lra)) as LT.
  assert (F0 : fine_crossover 1 fs (at_tan fs (1 / 4))) by (apply fine_at; [assumption|lra|auto|lra]). assert (F1 : fine_crossover 1 fs (at_tan fs (1 / 2))) by (apply fine_at; [assumption|lra|auto|lra]).
  set (f0 := at_tan fs (1 / 4)) in *. set (f1 := at_tan fs (1 / 2)) in *. clearbody f0 f1. set (h := (4 / 5, - (2 / 5)) : C).
  assert (HV : analog_value (butterworth 1) (0, tan (PI * f0 / fs) / tan (PI * f1 / fs)) h).
  { rewrite T0, T1. replace (1 / 4 / (1 / 2)) with (1 / 2) by field. replace h with (Cinv (1, 1 / 2)); [apply butterworth_1|]. unfold Cinv, h. cbn [fst snd]. f_equal; field. }
  assert (HH : Cmult h h = (12 / 25, - (16 / 25))) by (unfold h, Cmult; cbn [fst snd]; f_equal; field).
  assert (MH : Cmod (Cmult h h) = 4 / 5).
  { rewrite HH. unfold Cmod. cbn [fst snd]. replace ((12 / 25) ^ 2 + (- (16 / 25)) ^ 2) with (4 / 5 * (4 / 5)) by field. apply sqrt_square. lra. }
  destruct (three_bands 1 fs f0 f1 h ltac:(lia) ltac:(lia) A0 (Rlt_le _ _ LT) B1 F0 F1 HV) as (phase & HR & HX & lo0 & hi0 & lo1 & hi1 & E0 & E1 & _ & _ & _ & _ & ED).
  rewrite MH, HH in HX. unfold cis, RtoC, Cmult in HX. cbn [fst snd] in HX. pose proof (f_equal fst HX) as X1. pose proof (f_equal snd HX) as X2. cbn [fst snd] in X1, X2.
  assert (CP : cos phase = 3 / 5) by lra. assert (SP : sin phase = - (4 / 5)) by lra.
  destruct (proj2 (accept_phase fs f0 phase A0 B0 HR)) as [c EC]. { rewrite SP, Rabs_Ropp, Rabs_pos_eq; lra. }
  rewrite EC in ED. cbn [obind] in ED. eexists. split; [exact ED|].
  destruct (allpass_minimal_values fs f0 phase c A0 B0 ltac:(lra) EC) as (C0 & C2 & C1). cbv zeta in C1, C2. rewrite T0, CP, SP in C2. rewrite T0 in C1.
  assert (V2 : a2 c = - (1983 / 6017)) by (rewrite C2; field). assert (V1 : a1 c / (1 + a2 c) = 1985 / 2017) by (rewrite C1; field).
  split.
  - unfold clear_allpass. cbn [appended]. constructor; [|constructor]. rewrite V2, Rabs_Ropp, Rabs_pos_eq; lra.
  - assert (N : forall t, t = 1 / 4 \/ t = 1 / 2 -> t <> 1) by (intros t [-> | ->]; lra).
    destruct (lr2_reflective fs f0 lo0 hi0 A0 B0 F0 ltac:(apply N; auto) E0) as [R1 R2]. destruct (lr2_reflective fs f1 lo1 hi1 A1 B1 F1 ltac:(apply N; auto) E1) as [R3 R4].
    unfold reflective_bank. cbn [lowpass_coeffs highpass_coeffs allpass_coeffs]. split; [auto|]. split; [auto|]. constructor; [|constructor]. constructor; [|constructor].
    unfold reflective. rewrite C0, V1, V2. split; [lra|]. split; [|rewrite Rabs_pos_eq; lra]. replace (- (1983 / 6017) / 1) with (- (1983 / 6017)) by field. rewrite Rabs_Ropp, Rabs_pos_eq; lra.
Qed.
