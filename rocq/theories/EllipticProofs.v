(* The elliptic integral and the transformation of Gauss. *)
From Coq Require Import ZArith Reals Lra Lia List Bool.
From Coquelicot Require Import Coquelicot.
From Verif Require Import EllipticSpec.
Import ListNotations.
Local Open Scope R_scope.

Lemma sin2_range t : 0 <= sin t * sin t <= 1.
Proof. pose proof (sin2_cos2 t) as H. unfold Rsqr in H. nra. Qed.
Lemma under_pos m t : 0 <= m < 1 -> 1 - m <= 1 - m * (sin t * sin t) <= 1.
Proof. intros M. pose proof (sin2_range t). nra. Qed.
Lemma integrand_range m t : 0 <= m < 1 -> 1 <= integrand m t <= / sqrt (1 - m).
Proof.
  intros M. pose proof (under_pos m t M) as U. unfold integrand.
  assert (S : 0 < sqrt (1 - m)) by (apply sqrt_lt_R0; lra).
  assert (A : sqrt (1 - m) <= sqrt (1 - m * (sin t * sin t))) by (apply sqrt_le_1_alt; lra).
  assert (B : sqrt (1 - m * (sin t * sin t)) <= 1) by (rewrite <- sqrt_1 at 2; apply sqrt_le_1_alt; lra).
  split.
  - rewrite <- Rinv_1 at 1. apply Rinv_le_contravar; lra.
  - apply Rinv_le_contravar; lra.
Qed.
Lemma integrand_cont m t : 0 <= m < 1 -> continuous (integrand m) t.
Proof.
  intros M. apply (ex_derive_continuous (K := R_AbsRing) (V := R_NormedModule)). unfold integrand.
  pose proof (under_pos m t M). auto_derive. repeat split; try lra. apply Rgt_not_eq, sqrt_lt_R0. lra.
Qed.
Lemma integrand_int m a b : 0 <= m < 1 -> ex_RInt (integrand m) a b.
Proof. intros M. apply (ex_RInt_continuous (V := R_CompleteNormedModule)). intros. now apply integrand_cont. Qed.

Lemma F_0 m : F 0 m = 0.
Proof. unfold F. rewrite RInt_point. reflexivity. Qed.
Lemma F_derive m p : 0 <= m < 1 -> is_derive (fun q => F q m) p (integrand m p).
Proof.
  intros M. apply (is_derive_RInt (integrand m) (fun q => F q m) 0 p).
  - apply filter_forall. intros b. apply (RInt_correct (V := R_CompleteNormedModule)). now apply integrand_int.
  - now apply integrand_cont.
Qed.
Lemma F_cont m p : 0 <= m < 1 -> continuity_pt (fun q => F q m) p.
Proof. intros M. apply derivable_continuous_pt. exists (integrand m p). apply is_derive_Reals. now apply F_derive. Qed.
Lemma F_step m p q : 0 <= m < 1 -> p <= q -> q - p <= F q m - F p m <= (q - p) / sqrt (1 - m).
Proof.
  intros M L. destruct (MVT_gen (fun q => F q m) p q (integrand m)) as (c & _ & E).
  - intros. now apply F_derive.
  - intros. now apply F_cont.
  - rewrite E. pose proof (integrand_range m c M). unfold Rdiv. nra.
Qed.
Lemma F_pos m p : 0 <= m < 1 -> 0 <= p -> p <= F p m <= p / sqrt (1 - m).
Proof. intros M P. pose proof (F_step m 0 p M P) as H. rewrite F_0, !Rminus_0_r in H. exact H. Qed.
Lemma F_incr m p q : 0 <= m < 1 -> p <= q -> F p m <= F q m.
Proof. intros M L. pose proof (F_step m p q M L). lra. Qed.
Lemma F_odd m p : 0 <= m < 1 -> F (- p) m = - F p m.
Proof.
  intros M. unfold F. apply is_RInt_unique.
  replace (- RInt (integrand m) 0 p) with (opp (RInt (integrand m) 0 p)) by reflexivity.
  pose proof (is_RInt_comp_opp (V := R_NormedModule) (integrand m) 0 (- p) (RInt (integrand m) 0 p)) as H.
  rewrite Ropp_0, Ropp_involutive in H. specialize (H (RInt_correct (V := R_CompleteNormedModule) _ _ _ (integrand_int m 0 p M))).
  apply (is_RInt_opp (V := R_NormedModule)) in H. eapply is_RInt_ext; [|exact H]. intros x _. cbn.
  unfold opp. cbn. rewrite Ropp_involutive. unfold integrand. rewrite sin_neg. f_equal. f_equal. f_equal. ring.
Qed.

(* asin *)
Lemma asin_derive x : -1 < x < 1 -> is_derive asin x (/ sqrt (1 - x * x)).
Proof.
  intros H. apply is_derive_Reals. pose proof (derive_pt_asin x H) as D. unfold derive_pt in D.
  destruct (derivable_pt_asin x H) as (l & Hl). cbn in D. subst l. unfold Rsqr, derivable_pt_abs in Hl. now rewrite Rdiv_1_l in Hl || unfold Rdiv in Hl; rewrite Rmult_1_l in Hl.
Qed.
Lemma asin_mono x y : -1 <= x -> x <= y -> y <= 1 -> asin x <= asin y.
Proof.
  intros A B D. pose proof (asin_bound x). pose proof (asin_bound y). apply sin_incr_0; try lra. rewrite !sin_asin; lra.
Qed.

(* the transformation of Gauss *)
Definition gauss (k1 y : R) : R := (1 + k1) * y / (1 + k1 * (y * y)).
Definition up (k1 : R) : R := 4 * k1 / ((1 + k1) * (1 + k1)).
Lemma up_range k1 : 0 <= k1 < 1 -> 0 <= up k1 < 1.
Proof.
  intros H. unfold up. assert (0 < (1 + k1) * (1 + k1)) by nra. split.
  - apply Rle_mult_inv_pos; lra.
  - apply (Rmult_lt_reg_r ((1 + k1) * (1 + k1))); [lra|]. unfold Rdiv. rewrite Rmult_assoc, Rinv_l by lra. nra.
Qed.
Lemma gauss_range k1 y : 0 <= k1 < 1 -> 0 <= y <= 1 -> y <= gauss k1 y <= 1.
Proof.
  intros A B. unfold gauss. assert (P : 0 < 1 + k1 * (y * y)) by nra. split.
  - apply (Rmult_le_reg_r (1 + k1 * (y * y))); [lra|]. unfold Rdiv. rewrite Rmult_assoc, Rinv_l by lra. assert (0 <= y * (1 - y * y)) by nra. nra.
  - apply (Rmult_le_reg_r (1 + k1 * (y * y))); [lra|]. unfold Rdiv. rewrite Rmult_assoc, Rinv_l by lra.
    assert (0 <= (1 - y) * (1 - k1 * y)) by (apply Rmult_le_pos; nra). nra.
Qed.
Lemma gauss_lt k1 y : 0 <= k1 < 1 -> 0 <= y < 1 -> gauss k1 y < 1.
Proof.
  intros A B. unfold gauss. assert (P : 0 < 1 + k1 * (y * y)) by nra.
  apply (Rmult_lt_reg_r (1 + k1 * (y * y))); [lra|]. unfold Rdiv. rewrite Rmult_assoc, Rinv_l by lra.
  assert (0 < (1 - y) * (1 - k1 * y)) by (apply Rmult_lt_0_compat; nra). nra.
Qed.
Lemma gauss_opp k1 y : gauss k1 (- y) = - gauss k1 y.
Proof. unfold gauss. replace (- y * - y) with (y * y) by ring. unfold Rdiv. ring. Qed.
Lemma gauss_derive k1 t : 0 <= k1 < 1 -> 0 <= t < PI / 2 ->
  is_derive (fun t => F (asin (gauss k1 (sin t))) (up k1) - (1 + k1) * F t (k1 * k1)) t 0.
Proof.
  intros A B. assert (S : 0 <= sin t < 1).
  { split; [apply sin_ge_0; lra|]. rewrite <- sin_PI2. apply sin_increasing_1; lra. }
  assert (CP : 0 < cos t) by (apply cos_gt_0; lra).
  set (y := sin t) in *. assert (D : 0 < 1 + k1 * (y * y)) by nra.
  assert (SC : cos t * cos t = 1 - y * y). { pose proof (sin2_cos2 t) as H. unfold Rsqr in H. unfold y. lra. }
  assert (G : -1 < gauss k1 y < 1). { pose proof (gauss_range k1 y A ltac:(lra)). pose proof (gauss_lt k1 y A S). lra. }
  set (D1 := sqrt (1 - k1 * k1 * (y * y))).
  assert (P1 : 0 < 1 - k1 * k1 * (y * y)) by nra.
  assert (DP : 0 < D1) by (apply sqrt_lt_R0; exact P1).
  assert (DD : D1 * D1 = 1 - k1 * k1 * (y * y)) by (apply sqrt_sqrt; lra).
  assert (E1 : sqrt (1 - gauss k1 y * gauss k1 y) = cos t * D1 / (1 + k1 * (y * y))).
  { apply sqrt_lem_1; [nra| |].
    - apply Rlt_le, Rdiv_lt_0_compat; [nra|lra].
    - unfold gauss. replace (cos t * D1 / (1 + k1 * (y * y)) * (cos t * D1 / (1 + k1 * (y * y)))) with ((cos t * cos t) * (D1 * D1) / ((1 + k1 * (y * y)) * (1 + k1 * (y * y)))) by (field; lra).
      rewrite SC, DD. field. lra. }
  assert (SA : sin (asin (gauss k1 y)) = gauss k1 y) by (apply sin_asin; lra).
  assert (E2 : integrand (up k1) (asin (gauss k1 y)) = (1 + k1 * (y * y)) / (1 - k1 * (y * y))).
  { unfold integrand. rewrite SA. rewrite <- (Rinv_inv ((1 + k1 * (y * y)) / (1 - k1 * (y * y)))). f_equal. apply sqrt_lem_1.
    - assert (H := up_range k1 A). nra.
    - apply Rlt_le, Rinv_0_lt_compat, Rdiv_lt_0_compat; nra.
    - unfold gauss, up. field. repeat split; nra. }
  assert (E3 : integrand (k1 * k1) t = / D1) by reflexivity.
  evar_last.
  - apply (is_derive_minus (K := R_AbsRing) (V := R_NormedModule)).
    + apply (is_derive_comp (K := R_AbsRing) (V := R_NormedModule) (fun q => F q (up k1)) (fun t => asin (gauss k1 (sin t)))).
      * apply F_derive. now apply up_range.
      * apply (is_derive_comp (K := R_AbsRing) (V := R_NormedModule) asin (fun t => gauss k1 (sin t))).
        -- apply asin_derive. exact G.
        -- instantiate (1 := (1 + k1) * (1 - k1 * (y * y)) / ((1 + k1 * (y * y)) * (1 + k1 * (y * y))) * cos t).
           unfold gauss. auto_derive; [fold y; lra|]. fold y. field. lra.
    + apply (is_derive_scal (fun t => F t (k1 * k1)) t (1 + k1)). apply F_derive. nra.
  - fold y. rewrite E2, E3, E1. unfold minus, plus, opp, scal. cbn. unfold mult. cbn. field. repeat split; nra.
Qed.
Lemma gauss_F_lt k1 t : 0 <= k1 < 1 -> 0 <= t < PI / 2 -> F (asin (gauss k1 (sin t))) (up k1) = (1 + k1) * F t (k1 * k1).
Proof.
  intros A B. destruct (Req_dec t 0) as [->|NZ].
  - rewrite sin_0. unfold gauss. rewrite Rmult_0_r. unfold Rdiv. rewrite Rmult_0_l, asin_0, !F_0. ring.
  - pose proof (eq_is_derive (V := R_NormedModule) (fun t => F (asin (gauss k1 (sin t))) (up k1) - (1 + k1) * F t (k1 * k1)) 0 t) as H.
    cbv beta in H. specialize (H ltac:(intros; apply gauss_derive; lra) ltac:(lra)).
    rewrite sin_0 in H. unfold gauss in H at 1. rewrite Rmult_0_r in H. unfold Rdiv in H. rewrite Rmult_0_l, asin_0, !F_0 in H. lra.
Qed.
Lemma gauss_1 k1 : 0 <= k1 -> gauss k1 1 = 1.
Proof. intros. unfold gauss. field. lra. Qed.
Lemma gauss_K k1 : 0 <= k1 < 1 -> K (up k1) = (1 + k1) * K (k1 * k1).
Proof.
  intros A. unfold K. pose proof PI_RGT_0 as PP. pose proof (up_range k1 A) as U. assert (U1 : 0 <= k1 * k1 < 1) by nra.
  assert (Sq : forall t, 0 <= t < PI / 2 -> F t (up k1) <= (1 + k1) * F t (k1 * k1) <= F (PI / 2) (up k1)).
  { intros t T. rewrite <- gauss_F_lt by assumption.
    assert (S : 0 <= sin t <= 1) by (split; [apply sin_ge_0; lra|apply SIN_bound]).
    pose proof (gauss_range k1 (sin t) A S) as G. pose proof (asin_bound (gauss k1 (sin t))). split; apply F_incr; try assumption; try lra.
    rewrite <- (asin_sin t) at 1 by lra. apply asin_mono; lra. }
  set (L := / sqrt (1 - up k1)). set (L1 := / sqrt (1 - k1 * k1)).
  assert (LP : 0 < L) by (apply Rinv_0_lt_compat, sqrt_lt_R0; lra). assert (LP1 : 0 < L1) by (apply Rinv_0_lt_compat, sqrt_lt_R0; lra).
  apply Rle_antisym; apply le_epsilon; intros eps E.
  - set (d := Rmin (PI / 4) (eps / L)). assert (0 < d) by (apply Rmin_pos; [lra|now apply Rdiv_lt_0_compat]).
    assert (d <= PI / 4) by apply Rmin_l. assert (d * L <= eps).
    { apply Rle_trans with (eps / L * L); [apply Rmult_le_compat_r; [lra|apply Rmin_r]|]. right. field. lra. }
    destruct (Sq (PI / 2 - d) ltac:(lra)) as (S1 & _). pose proof (F_step (up k1) (PI / 2 - d) (PI / 2) U ltac:(lra)) as St.
    replace (PI / 2 - (PI / 2 - d)) with d in St by ring. change (d / sqrt (1 - up k1)) with (d * L) in St.
    pose proof (F_incr (k1 * k1) (PI / 2 - d) (PI / 2) U1 ltac:(lra)) as I.
    apply (Rmult_le_compat_l (1 + k1)) in I; [|lra]. lra.
  - set (d := Rmin (PI / 4) (eps / (2 * L1))). assert (0 < d) by (apply Rmin_pos; [lra|apply Rdiv_lt_0_compat; lra]).
    assert (d <= PI / 4) by apply Rmin_l. assert (2 * (d * L1) <= eps).
    { apply Rle_trans with (2 * (eps / (2 * L1) * L1)); [apply Rmult_le_compat_l; [lra|]; apply Rmult_le_compat_r; [lra|apply Rmin_r]|]. right. field. lra. }
    destruct (Sq (PI / 2 - d) ltac:(lra)) as (_ & S1). pose proof (F_step (k1 * k1) (PI / 2 - d) (PI / 2) U1 ltac:(lra)) as St.
    replace (PI / 2 - (PI / 2 - d)) with d in St by ring. change (d / sqrt (1 - k1 * k1)) with (d * L1) in St.
    assert (I : F (PI / 2) (k1 * k1) <= F (PI / 2 - d) (k1 * k1) + d * L1) by lra.
    apply (Rmult_le_compat_l (1 + k1)) in I; [|lra]. assert (0 < d * L1) by (apply Rmult_lt_0_compat; lra).
    assert ((1 + k1) * (d * L1) <= 2 * (d * L1)) by (apply Rmult_le_compat_r; lra). lra.
Qed.
Lemma gauss_F k1 y : 0 <= k1 < 1 -> -1 <= y <= 1 -> F (asin (gauss k1 y)) (up k1) = (1 + k1) * F (asin y) (k1 * k1).
Proof.
  intros A. assert (P : forall y, 0 <= y <= 1 -> F (asin (gauss k1 y)) (up k1) = (1 + k1) * F (asin y) (k1 * k1)).
  { clear y. intros y Y. destruct (Req_dec y 1) as [->|N].
    - rewrite gauss_1, asin_1 by lra. exact (gauss_K k1 A).
    - assert (B : - (PI / 2) < asin y < PI / 2) by (apply asin_bound_lt; lra). rewrite <- (gauss_F_lt k1 (asin y) A).
      + rewrite (sin_asin y) by lra. reflexivity.
      + split; [|lra]. rewrite <- asin_0. apply asin_mono; lra. }
  intros Y. destruct (Rle_dec 0 y) as [H|H]; [now apply P; lra|].
  pose proof (P (- y) ltac:(lra)) as E. rewrite gauss_opp, !asin_opp, !F_odd in E by (try apply up_range; nra). lra.
Qed.
