(* The complete integral near one. *)
From Coq Require Import ZArith Reals Lra Lia List Bool.
From Coquelicot Require Import Coquelicot.
From Verif Require Import EllipticSpec EllipticProofs.
Local Open Scope R_scope.

Lemma sin2_tan t : cos t <> 0 -> sin t * sin t = tan t * tan t / (1 + tan t * tan t).
Proof.
  intros H. unfold tan. pose proof (sin2_cos2 t) as E. unfold Rsqr in E. assert (0 < cos t * cos t) by nra.
  replace (1 + sin t / cos t * (sin t / cos t)) with ((cos t * cos t + sin t * sin t) / (cos t * cos t)) by (field; exact H).
  replace (cos t * cos t + sin t * sin t) with 1 by lra. field. exact H.
Qed.
Lemma sin_half_minus_atan x : sin (PI / 2 - atan x) * sin (PI / 2 - atan x) = 1 / (1 + x * x).
Proof.
  replace (PI / 2 - atan x) with (PI / 2 - atan x) by reflexivity. rewrite <- cos_sin_shift_helper || idtac.
  assert (E : sin (PI / 2 - atan x) = cos (atan x)) by (symmetry; apply cos_sin || (rewrite sin_shift; reflexivity)). rewrite E.
  pose proof (atan_bound x) as B. assert (C : 0 < cos (atan x)) by (apply cos_gt_0; lra).
  pose proof (sin2_tan (atan x) ltac:(lra)) as S. rewrite tan_atan in S. pose proof (sin2_cos2 (atan x)) as P. unfold Rsqr in P.
  replace (cos (atan x) * cos (atan x)) with (1 - sin (atan x) * sin (atan x)) by lra. rewrite S. field. nra.
Qed.
Lemma integrand_tan m t : 0 <= m < 1 -> cos t <> 0 -> integrand m t = sqrt (1 + tan t * tan t) / sqrt (1 + (1 - m) * (tan t * tan t)).
Proof.
  intros M C. unfold integrand. rewrite sin2_tan by exact C. set (x := tan t * tan t). assert (X : 0 <= x) by (unfold x; nra).
  replace (1 - m * (x / (1 + x))) with ((1 + (1 - m) * x) / (1 + x)) by (field; lra).
  rewrite sqrt_div_alt by lra. assert (0 < sqrt (1 + x)) by (apply sqrt_lt_R0; lra). assert (0 < sqrt (1 + (1 - m) * x)) by (apply sqrt_lt_R0; nra). field. lra.
Qed.
Section Middle.
Variable m : R.
Hypothesis M : 0 <= m < 1.
Let p := sqrt (1 - m).
Lemma p_pos : 0 < p <= 1.
Proof. unfold p. split; [apply sqrt_lt_R0; lra|]. rewrite <- sqrt_1 at 2. apply sqrt_le_1_alt. lra. Qed.
Lemma p_sq : p * p = 1 - m.
Proof. apply sqrt_sqrt. lra. Qed.
Lemma reflect_derive t : 0 <= t < PI / 2 -> is_derive (fun t => F t m + F (PI / 2 - atan (p * tan t)) m) t 0.
Proof.
  intros T. pose proof p_pos as P. pose proof p_sq as Q. assert (C : 0 < cos t) by (apply cos_gt_0; lra).
  assert (I1 := integrand_tan m t M ltac:(lra)).
  assert (I2 : integrand m (PI / 2 - atan (p * tan t)) = sqrt (1 + p * p * (tan t * tan t)) / (p * sqrt (1 + tan t * tan t))).
  { unfold integrand. rewrite sin_half_minus_atan. set (x := tan t * tan t). assert (X : 0 <= x) by (unfold x; nra).
    replace (p * tan t * (p * tan t)) with (p * p * x) by (unfold x; ring).
    assert (PX : 0 <= p * p * x) by (apply Rmult_le_pos; nra).
    replace (1 - m * (1 / (1 + p * p * x))) with (p * p * (1 + x) / (1 + p * p * x)).
    - rewrite sqrt_div_alt by lra. rewrite sqrt_mult_alt by nra. rewrite sqrt_square by lra.
      assert (0 < sqrt (1 + x)) by (apply sqrt_lt_R0; lra). assert (0 < sqrt (1 + p * p * x)) by (apply sqrt_lt_R0; lra). field. lra.
    - replace m with (1 - p * p) by lra. field. lra. }
  rewrite <- Q in I1. set (x := tan t * tan t) in *. assert (X : 0 <= x) by (unfold x; nra). assert (PX : 0 <= p * p * x) by (apply Rmult_le_pos; nra).
  evar_last.
  - apply (is_derive_plus (K := R_AbsRing) (V := R_NormedModule)).
    + apply F_derive, M.
    + apply (is_derive_comp (K := R_AbsRing) (V := R_NormedModule) (fun q => F q m) (fun t => PI / 2 - atan (p * tan t))).
      * apply F_derive, M.
      * instantiate (1 := - (p * (1 + x) / (1 + p * p * x))). evar_last.
        -- apply (is_derive_minus (K := R_AbsRing) (V := R_NormedModule)); [apply (is_derive_const (K := R_AbsRing) (V := R_NormedModule))|].
           apply (is_derive_comp (K := R_AbsRing) (V := R_NormedModule) atan (fun t => p * tan t)).
           ++ apply is_derive_Reals. apply derivable_pt_lim_atan.
           ++ apply (is_derive_scal tan t p). apply is_derive_Reals. 
              instantiate (1 := 1 + x).
              pose proof (derive_pt_tan t ltac:(lra)) as D. unfold derive_pt in D. destruct (derivable_pt_tan t ltac:(lra)) as (l & Hl). cbn in D.
              unfold derivable_pt_abs in Hl. replace (1 + x) with l; [exact Hl|]. rewrite D. unfold x, Rsqr. cbn. ring.
        -- unfold minus, plus, opp, scal, zero. cbn. unfold mult. cbn. unfold Rsqr. replace (p * tan t * (p * tan t * 1)) with (p * p * x) by (unfold x; ring). field. lra.
  - rewrite I1, I2. unfold plus, scal. cbn. unfold mult. cbn.
    assert (A : 0 < sqrt (1 + x)) by (apply sqrt_lt_R0; lra). assert (B : 0 < sqrt (1 + p * p * x)) by (apply sqrt_lt_R0; lra).
    assert (A2 : sqrt (1 + x) * sqrt (1 + x) = 1 + x) by (apply sqrt_sqrt; lra). assert (B2 : sqrt (1 + p * p * x) * sqrt (1 + p * p * x) = 1 + p * p * x) by (apply sqrt_sqrt; lra).
    set (a := sqrt (1 + x)) in *. set (b := sqrt (1 + p * p * x)) in *. rewrite <- A2, <- B2. field. lra.
Qed.
Let t0 := atan (/ sqrt p).
Lemma t0_range : 0 < t0 < PI / 2.
Proof.
  pose proof p_pos as P. split; [|apply atan_bound]. unfold t0. rewrite <- atan_0. apply atan_increasing. apply Rinv_0_lt_compat, sqrt_lt_R0. lra.
Qed.
Lemma K_twice : K m = 2 * F t0 m.
Proof.
  pose proof p_pos as P. pose proof t0_range as T.
  pose proof (eq_is_derive (V := R_NormedModule) (fun t => F t m + F (PI / 2 - atan (p * tan t)) m) 0 t0) as H. cbv beta in H.
  specialize (H ltac:(intros; apply reflect_derive; lra) ltac:(lra)). rewrite tan_0, Rmult_0_r, atan_0, F_0 in H.
  unfold t0 in H at 2. rewrite tan_atan in H.
  assert (S : 0 < sqrt p) by (apply sqrt_lt_R0; lra). assert (SS : sqrt p * sqrt p = p) by (apply sqrt_sqrt; lra).
  replace (p * / sqrt p) with (sqrt p) in H by (rewrite <- SS at 2; field; lra).
  replace (PI / 2 - atan (sqrt p)) with t0 in H.
  - unfold K. replace (PI / 2) with (PI / 2 - 0) by ring. lra.
  - unfold t0. rewrite atan_inv by exact S. ring.
Qed.
Lemma arcsinh_derive t : 0 <= t < PI / 2 -> is_derive (fun t => arcsinh (tan t)) t (sqrt (1 + tan t * tan t)).
Proof.
  intros T. assert (C : 0 < cos t) by (apply cos_gt_0; lra). set (x := tan t * tan t) in *. assert (X : 0 <= x) by (unfold x; nra).
  assert (A : 0 < sqrt (1 + x)) by (apply sqrt_lt_R0; lra). assert (A2 : sqrt (1 + x) * sqrt (1 + x) = 1 + x) by (apply sqrt_sqrt; lra).
  evar_last.
  - apply (is_derive_comp (K := R_AbsRing) (V := R_NormedModule) arcsinh tan).
    + apply is_derive_Reals. apply derivable_pt_lim_arcsinh.
    + apply is_derive_Reals. instantiate (1 := 1 + x).
      pose proof (derive_pt_tan t ltac:(lra)) as D. unfold derive_pt in D. destruct (derivable_pt_tan t ltac:(lra)) as (l & Hl). cbn in D.
      unfold derivable_pt_abs in Hl. replace (1 + x) with l; [exact Hl|]. rewrite D. unfold x, Rsqr. cbn. ring.
  - unfold scal. cbn. unfold mult. cbn. replace (tan t * (tan t * 1) + 1) with (1 + x) by (unfold x; ring). rewrite <- A2 at 1. field. lra.
Qed.
Lemma F_t0_bounds : arcsinh (/ sqrt p) / sqrt (1 + p) <= F t0 m <= arcsinh (/ sqrt p).
Proof.
  pose proof p_pos as P. pose proof p_sq as Q. pose proof t0_range as T. assert (S : 0 < sqrt p) by (apply sqrt_lt_R0; lra). assert (SS : sqrt p * sqrt p = p) by (apply sqrt_sqrt; lra).
  assert (SP : 1 <= sqrt (1 + p)) by (rewrite <- sqrt_1 at 1; apply sqrt_le_1_alt; lra).
  assert (TT : tan t0 = / sqrt p) by apply tan_atan.
  assert (BD : forall t, 0 <= t <= t0 -> sqrt (1 + tan t * tan t) / sqrt (1 + p) <= integrand m t <= sqrt (1 + tan t * tan t)).
  { intros t Ht. rewrite integrand_tan by (try exact M; apply Rgt_not_eq, cos_gt_0; lra). set (x := tan t * tan t).
    assert (X0 : 0 <= tan t). { destruct (Req_dec t 0) as [->|N]; [rewrite tan_0; lra|]. left. apply tan_gt_0; lra. }
    assert (X1 : tan t <= / sqrt p). { rewrite <- TT. destruct (Req_dec t t0) as [->|N]; [lra|]. left. apply tan_increasing; lra. }
    assert (X : 0 <= x <= / p). { unfold x. rewrite <- SS, Rinv_mult. nra. }
    assert (Y : 0 <= (1 - m) * x <= p). { rewrite <- Q. split; [nra|]. apply Rle_trans with (p * p * / p); [apply Rmult_le_compat_l; nra|]. right. field. lra. }
    assert (B1 : 1 <= sqrt (1 + (1 - m) * x)) by (rewrite <- sqrt_1 at 1; apply sqrt_le_1_alt; lra).
    assert (B2 : sqrt (1 + (1 - m) * x) <= sqrt (1 + p)) by (apply sqrt_le_1_alt; lra). pose proof (sqrt_pos (1 + x)).
    split; unfold Rdiv.
    - apply Rmult_le_compat_l; [assumption|]. apply Rinv_le_contravar; lra.
    - rewrite <- (Rmult_1_r (sqrt (1 + x))) at 2. apply Rmult_le_compat_l; [assumption|]. apply Rle_trans with (/ 1); [apply Rinv_le_contravar; lra|lra]. }
  assert (A0 : arcsinh (tan 0) = 0). { rewrite tan_0. apply arcsinh_0. }
  split.
  - destruct (MVT_gen (fun t => F t m - arcsinh (tan t) / sqrt (1 + p)) 0 t0 (fun t => integrand m t - sqrt (1 + tan t * tan t) / sqrt (1 + p))) as (c & Hc & E).
    + rewrite Rmin_left, Rmax_right by lra. intros t Ht. apply (is_derive_minus (K := R_AbsRing) (V := R_NormedModule)); [apply F_derive, M|].
      exact (is_derive_scal_l (K := R_AbsRing) (V := R_NormedModule) (fun t => arcsinh (tan t)) t (sqrt (1 + tan t * tan t)) (/ sqrt (1 + p)) (arcsinh_derive t ltac:(lra))).
    + rewrite Rmin_left, Rmax_right by lra. intros t Ht. apply continuity_pt_minus; [apply F_cont, M|]. unfold Rdiv. apply continuity_pt_mult; [|apply continuity_pt_const; now intros ? ?].
      apply derivable_continuous_pt. eexists. apply is_derive_Reals. apply arcsinh_derive. lra.
    + rewrite Rmin_left, Rmax_right in Hc by lra. pose proof (BD c Hc). rewrite A0, F_0, TT in E. cbv beta in E. assert (0 <= (integrand m c - sqrt (1 + tan c * tan c) / sqrt (1 + p)) * (t0 - 0)) by (apply Rmult_le_pos; lra). lra.
  - destruct (MVT_gen (fun t => arcsinh (tan t) - F t m) 0 t0 (fun t => sqrt (1 + tan t * tan t) - integrand m t)) as (c & Hc & E).
    + rewrite Rmin_left, Rmax_right by lra. intros t Ht. apply (is_derive_minus (K := R_AbsRing) (V := R_NormedModule)); [apply arcsinh_derive; lra|apply F_derive, M].
    + rewrite Rmin_left, Rmax_right by lra. intros t Ht. apply continuity_pt_minus; [|apply F_cont, M].
      apply derivable_continuous_pt. eexists. apply is_derive_Reals. apply arcsinh_derive. lra.
    + rewrite Rmin_left, Rmax_right in Hc by lra. pose proof (BD c Hc). rewrite A0, F_0, TT in E. cbv beta in E. assert (0 <= (sqrt (1 + tan c * tan c) - integrand m c) * (t0 - 0)) by (apply Rmult_le_pos; lra). lra.
Qed.
Lemma ln_le_sub x : 0 < x -> ln x <= x - 1.
Proof. intros H. pose proof (exp_ineq1_le (ln x)). rewrite exp_ln in H0 by exact H. lra. Qed.
Lemma ln_mono x y : 0 < x -> x <= y -> ln x <= ln y.
Proof. intros H [L| ->]; [left; now apply ln_increasing|right; reflexivity]. Qed.
(* K between the two *)
Lemma K_log : (1 - p / 2) * ln (4 / p) <= K m <= ln (4 / p) + p.
Proof.
  pose proof p_pos as P. destruct F_t0_bounds as (L & U). rewrite K_twice. assert (S : 0 < sqrt p) by (apply sqrt_lt_R0; lra). assert (SS : sqrt p * sqrt p = p) by (apply sqrt_sqrt; lra).
  set (r := sqrt (1 + p)) in *. assert (R1 : 1 <= r) by (unfold r; rewrite <- sqrt_1 at 1; apply sqrt_le_1_alt; lra). assert (RR : r * r = 1 + p) by (apply sqrt_sqrt; lra).
  assert (A : 2 * arcsinh (/ sqrt p) = ln ((1 + r) * (1 + r) / p)).
  { unfold arcsinh. replace (sqrt ((/ sqrt p) ^ 2 + 1)) with (r / sqrt p).
    - replace (/ sqrt p + r / sqrt p) with ((1 + r) / sqrt p) by (field; lra). assert (Z : 0 < (1 + r) / sqrt p) by (apply Rdiv_lt_0_compat; lra).
      replace ((1 + r) * (1 + r) / p) with ((1 + r) / sqrt p * ((1 + r) / sqrt p)) by (rewrite <- SS at 3; field; lra). rewrite ln_mult by assumption. ring.
    - unfold r. rewrite <- sqrt_div_alt by lra. f_equal. rewrite <- SS at 2. rewrite <- SS at 2. cbn. rewrite SS. replace (/ sqrt p * (/ sqrt p * 1)) with (/ (sqrt p * sqrt p)) by (field; lra). rewrite SS. field. lra. }
  assert (LB : ln (4 / p) <= ln ((1 + r) * (1 + r) / p)).
  { apply ln_mono; [apply Rdiv_lt_0_compat; lra|]. unfold Rdiv. apply Rmult_le_compat_r; [left; apply Rinv_0_lt_compat; lra|nra]. }
  assert (UB : ln ((1 + r) * (1 + r) / p) <= ln (4 / p) + p).
  { apply Rle_trans with (ln (4 / p * (1 + p))).
    - apply ln_mono; [apply Rdiv_lt_0_compat; nra|]. apply Rle_trans with (4 * (1 + p) / p); [|right; field; lra]. unfold Rdiv. apply Rmult_le_compat_r; [left; apply Rinv_0_lt_compat; lra|nra].
    - rewrite ln_mult; [|apply Rdiv_lt_0_compat; lra|lra]. pose proof (ln_le_sub (1 + p) ltac:(lra)). lra. }
  assert (L0 : 0 <= ln (4 / p)). { rewrite <- ln_1. apply ln_mono; [lra|]. apply (Rmult_le_reg_r p); [lra|]. unfold Rdiv. rewrite Rmult_assoc, Rinv_l by lra. lra. }
  split; [|lra].
  apply Rle_trans with (ln (4 / p) / r); [|apply Rle_trans with (2 * arcsinh (/ sqrt p) / r); [rewrite A; unfold Rdiv; apply Rmult_le_compat_r; [left; apply Rinv_0_lt_compat; lra|exact LB]|unfold Rdiv in *; lra]].
  rewrite Rmult_comm. unfold Rdiv at 2. apply Rmult_le_compat_l; [exact L0|]. apply (Rmult_le_reg_r r); [lra|]. rewrite Rinv_l by lra. nra.
Qed.
End Middle.

(* the asymptotic formula *)
Lemma asymptotic m : 1 - / 10 ^ 12 < m < 1 -> let m1 := 1 - m in let temp := - (1 / 2) * ln (m1 / 16) in
  Rabs (temp + (temp - 1) * m1 / 4 - K m) <= / 10 ^ 12 * K m.
Proof.
  intros H. cbv zeta. set (k := sqrt m). assert (KK : k * k = m) by (apply sqrt_sqrt; lra). assert (K0 : 0 <= k) by apply sqrt_pos.
  assert (K1 : 1 - / 10 ^ 12 <= k < 1) by nra. set (d := (1 - k) / 2). assert (Kd : k = 1 - 2 * d) by (unfold d; field).
  assert (D : 0 < d <= 3 / 10 ^ 13). { unfold d. assert (1 - k * k < / 10 ^ 12) by lra. nra. }
  assert (DD : 0 < d * d <= d * (3 / 10 ^ 13)) by nra.
  set (q := sqrt (1 - up k)). assert (Q : q = d / (1 - d)).
  { unfold q. apply sqrt_lem_1; [pose proof (up_range k ltac:(lra)); lra| |].
    - apply Rle_mult_inv_pos; lra.
    - unfold up. rewrite Kd. field. lra. }
  pose proof (K_log (up k) (up_range k ltac:(lra))) as B. fold q in B. rewrite gauss_K, KK in B by lra.
  set (T := - (1 / 2) * ln ((1 - m) / 16)).
  assert (QP : 0 < q) by (rewrite Q; apply Rdiv_lt_0_compat; lra).
  assert (Q1 : q <= 11 / 10 * d). { rewrite Q. apply (Rmult_le_reg_r (1 - d)); [lra|]. unfold Rdiv. rewrite Rmult_assoc, Rinv_l by lra. nra. }
  assert (M1 : 1 - m = 4 * d * (1 - d)) by (rewrite <- KK, Kd; ring).
  assert (E : ln (4 / q) = 2 * (T + ln (1 - d))).
  { unfold T. rewrite M1. replace (4 / q) with ((1 - d) * (1 - d) / (4 * d * (1 - d) / 16)) by (rewrite Q; field; lra).
    unfold Rdiv at 1. assert (0 < 4 * d * (1 - d) / 16) by (apply Rdiv_lt_0_compat; [nra|lra]).
    rewrite ln_mult; [|nra|now apply Rinv_0_lt_compat]. rewrite ln_Rinv by assumption. rewrite ln_mult by lra. lra. }
  assert (LU : ln (1 - d) <= - d) by (pose proof (ln_le_sub (1 - d) ltac:(lra)); lra).
  assert (LL : - (d + 2 * (d * d)) <= ln (1 - d)).
  { pose proof (ln_le_sub (/ (1 - d)) ltac:(apply Rinv_0_lt_compat; lra)) as Z. rewrite ln_Rinv in Z by lra.
    assert (/ (1 - d) <= 1 + d + 2 * (d * d)); [|lra]. apply (Rmult_le_reg_r (1 - d)); [lra|]. rewrite Rinv_l by lra. nra. }
  assert (T1 : 4 <= T).
  { unfold T. assert (X : ln ((1 - m) / 16) <= ln (exp (-8))).
    - apply ln_mono; [apply Rdiv_lt_0_compat; lra|].
      assert (E3 : exp 8 <= 10 ^ 12). { replace 8 with (1 + 1 + 1 + 1 + 1 + 1 + 1 + 1) by ring. rewrite !exp_plus. pose proof exp_le_3 as E3. pose proof (exp_pos 1) as P1.
        set (e := exp 1) in *. clearbody e. assert (0 < e * e <= 9) by nra. assert (0 < e * e * e * e <= 81) by nra. nra. }
      replace (-8) with (Ropp 8) by lra. rewrite exp_Ropp. apply Rle_trans with (/ 10 ^ 12); [lra|]. apply Rinv_le_contravar; [apply exp_pos|exact E3].
    - rewrite ln_exp in X. lra. }
  fold T. set (V := T + (T - 1) * (1 - m) / 4). assert (EV : V = T + (T - 1) * (d * (1 - d))) by (unfold V; rewrite M1; field).
  rewrite E, Kd in B. set (KK' := K m) in *. set (l := ln (1 - d)) in *. clearbody KK' l. clearbody q T. rewrite EV. clear - B D DD QP Q1 LU LL T1.
  (* B : (1 - q/2) * (2 (T + l)) <= (2 - 2d) KK' <= 2 (T + l) + q *)
  assert (B1 : (1 - q / 2) * (T + l) <= (1 - d) * KK') by lra. assert (B2 : (1 - d) * KK' <= T + l + q / 2) by lra.
  assert (TL : 3 <= T + l) by nra.
  assert (KP : 2 <= KK').
  { assert (2 <= (1 - d) * KK') by (apply Rle_trans with (2 := B1); nra). nra. }
  assert (Dif : Rabs ((1 - d) * (T + (T - 1) * (d * (1 - d))) - (T + l)) <= 4 * T * (d * d) + 4 * (d * d)).
  { replace ((1 - d) * (T + (T - 1) * (d * (1 - d))) - (T + l)) with (T * (d * d * (d - 2)) + (- (d * (1 - d) * (1 - d)) - l)) by ring.
    eapply Rle_trans; [apply Rabs_triang|]. apply Rplus_le_compat.
    - rewrite Rabs_mult, (Rabs_pos_eq T), (Rabs_left1 (d * d * (d - 2))) by nra. replace (4 * T * (d * d)) with (T * (4 * (d * d))) by ring. apply Rmult_le_compat_l; nra.
    - apply Rabs_le. split; nra. }
  apply Rabs_le_between in Dif.
  apply Rabs_le. assert (TK : T <= 2 * KK').
  { assert (9 / 10 * (T + l) <= (1 - d) * KK') by (apply Rle_trans with (2 := B1); apply Rmult_le_compat_r; lra). nra. }
  assert (TD : T * (d * d) <= KK' * (d * (6 / 10 ^ 13))). { apply Rle_trans with (2 * KK' * (d * d)); [nra|]. nra. }
  assert (Kd : 0 < KK' * d) by nra. assert (KD : KK' * d <= KK' * (3 / 10 ^ 13)) by (apply Rmult_le_compat_l; lra).
  set (V := T + (T - 1) * (d * (1 - d))) in *. clearbody V.
  assert (UP : (1 - d) * (V - KK') <= / 10 ^ 12 * KK' * (1 - d)).
  { assert (q / 2 * (T + l) <= 11 / 10 * (KK' * d)); [|nra].
    assert (T + l <= 2 * KK') by nra. nra. }
  assert (DN : - (/ 10 ^ 12 * KK' * (1 - d)) <= (1 - d) * (V - KK')) by nra.
  split; apply (Rmult_le_reg_l (1 - d)); lra.
Qed.
