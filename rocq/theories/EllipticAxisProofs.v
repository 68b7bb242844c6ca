(* The elliptic integral along the imaginary axis. *)
From Coq Require Import ZArith Reals Lra Lia List Bool.
From Coquelicot Require Import Coquelicot.
From Verif Require Import Common RealUtil CInt ComplexModel ComplexProofs EllipticModel EllipticSpec EllipticAxisSpec EllipticProofs EllipticProofs2 EllipticProofs4 EllipticProofs5.
Import ListNotations.
Local Open Scope R_scope.

Lemma sq_pos x : 0 <= x * x.
Proof. nra. Qed.
Lemma integrand_i_pos m t : 0 <= m -> 0 < integrand_i m t <= 1.
Proof.
  intros M. unfold integrand_i. pose proof (sq_pos (sinh t)) as Q. assert (1 <= 1 + m * (sinh t * sinh t)) by nra. assert (1 <= sqrt (1 + m * (sinh t * sinh t))) by (rewrite <- sqrt_1 at 1; apply sqrt_le_1_alt; lra).
  split; [apply Rinv_0_lt_compat; lra|]. rewrite <- Rinv_1 at 2. apply Rinv_le_contravar; lra.
Qed.
Lemma sinh_derive t : is_derive sinh t (cosh t).
Proof. apply is_derive_Reals, derivable_pt_lim_sinh. Qed.
Lemma integrand_i_cont m t : 0 <= m -> continuous (integrand_i m) t.
Proof.
  intros M. apply (ex_derive_continuous (K := R_AbsRing) (V := R_NormedModule)). unfold integrand_i, sinh.
  pose proof (sq_pos ((exp t - exp (- t)) / 2)). assert (1 <= 1 + m * ((exp t - exp (- t)) / 2 * ((exp t - exp (- t)) / 2))) by nra. auto_derive. repeat split; try lra. apply Rgt_not_eq, sqrt_lt_R0. unfold Rdiv in *. lra.
Qed.
Lemma integrand_i_int m a b : 0 <= m -> ex_RInt (integrand_i m) a b.
Proof. intros M. apply (ex_RInt_continuous (V := R_CompleteNormedModule)). intros. now apply integrand_i_cont. Qed.
Lemma F_i_0 m : F_i 0 m = 0.
Proof. unfold F_i. rewrite RInt_point. reflexivity. Qed.
Lemma F_i_derive m p : 0 <= m -> is_derive (fun q => F_i q m) p (integrand_i m p).
Proof.
  intros M. apply (is_derive_RInt (integrand_i m) (fun q => F_i q m) 0 p).
  - apply filter_forall. intros b. apply (RInt_correct (V := R_CompleteNormedModule)). now apply integrand_i_int.
  - now apply integrand_i_cont.
Qed.
Lemma F_i_cont m p : 0 <= m -> continuity_pt (fun q => F_i q m) p.
Proof. intros M. apply derivable_continuous_pt. exists (integrand_i m p). apply is_derive_Reals. now apply F_i_derive. Qed.
Lemma sinh_le x y : x <= y -> sinh x <= sinh y.
Proof. intros [L| ->]; [left; now apply sinh_lt|right; reflexivity]. Qed.
Lemma sinh_pos x : 0 <= x -> 0 <= sinh x.
Proof. intros H. rewrite <- sinh_0. now apply sinh_le. Qed.
Lemma sinh_neg x : sinh (- x) = - sinh x.
Proof. unfold sinh. rewrite Ropp_involutive. field. Qed.
Lemma arcsinh_neg x : arcsinh (- x) = - arcsinh x.
Proof. rewrite <- (sinh_arcsinh x) at 1. rewrite <- sinh_neg. apply arcsinh_sinh. Qed.
(* where m sinh^2 <= z, the integral is between (1 - z / 2) y and y *)
Lemma F_i_bounds m y z : 0 <= m -> 0 <= y -> m * (sinh y * sinh y) <= z -> z <= 1 -> (1 - z / 2) * y <= F_i y m <= y.
Proof.
  intros M Y Z Z1. destruct (MVT_gen (fun q => F_i q m) 0 y (integrand_i m)) as (c & B & E).
  - intros. now apply F_i_derive.
  - intros. now apply F_i_cont.
  - rewrite F_i_0, !Rminus_0_r in E. rewrite E. rewrite Rmin_left, Rmax_right in B by lra. pose proof (integrand_i_pos m c M) as P.
    assert (SC : 0 <= sinh c <= sinh y) by (split; [apply sinh_pos; lra|apply sinh_le; lra]). assert (0 <= sinh c * sinh c <= sinh y * sinh y) by nra. assert (L : m * (sinh c * sinh c) <= z) by nra.
    assert (L0 : 0 <= m * (sinh c * sinh c)) by nra. assert (I : 1 - z / 2 <= integrand_i m c).
    { unfold integrand_i. set (w := m * (sinh c * sinh c)) in *. assert (S1 : 1 <= sqrt (1 + w)) by (rewrite <- sqrt_1 at 1; apply sqrt_le_1_alt; lra). assert (SS : sqrt (1 + w) * sqrt (1 + w) = 1 + w) by (apply sqrt_sqrt; lra). set (s := sqrt (1 + w)) in *.
      apply (Rmult_le_reg_r s); [lra|]. rewrite Rinv_l by lra. assert (s <= 1 + w / 2) by nra. assert ((1 - z / 2) * s <= (1 - w / 2) * s) by nra. nra. }
    nra.
Qed.
Lemma F_i_incr m p q : 0 <= m -> p < q -> F_i p m < F_i q m.
Proof.
  intros M L. destruct (MVT_gen (fun q => F_i q m) p q (integrand_i m)) as (c & B & E).
  - intros. now apply F_i_derive.
  - intros. now apply F_i_cont.
  - pose proof (integrand_i_pos m c M). nra.
Qed.
Lemma F_i_pos m y : 0 <= m -> 0 <= y -> 0 <= F_i y m.
Proof. intros M [L| <-]; [pose proof (F_i_incr m 0 y M L) as H; rewrite F_i_0 in H; lra|rewrite F_i_0; lra]. Qed.
Lemma F_i_odd m p : 0 <= m -> F_i (- p) m = - F_i p m.
Proof.
  intros M. unfold F_i. apply is_RInt_unique.
  replace (- RInt (integrand_i m) 0 p) with (opp (RInt (integrand_i m) 0 p)) by reflexivity.
  pose proof (is_RInt_comp_opp (V := R_NormedModule) (integrand_i m) 0 (- p) (RInt (integrand_i m) 0 p)) as H.
  rewrite Ropp_0, Ropp_involutive in H. specialize (H (RInt_correct (V := R_CompleteNormedModule) _ _ _ (integrand_i_int m 0 p M))).
  apply (is_RInt_opp (V := R_NormedModule)) in H. eapply is_RInt_ext; [|exact H]. intros x _. cbn.
  unfold opp. cbn. rewrite Ropp_involutive. unfold integrand_i. rewrite sinh_neg. f_equal. f_equal. f_equal. ring.
Qed.
(* Gauss' transformation there *)
Definition gauss_i (k1 y : R) : R := (1 + k1) * y / (1 - k1 * (y * y)).
Lemma gauss_i_derive k1 t : 0 <= k1 < 1 -> 0 <= t -> k1 * (sinh t * sinh t) < 1 ->
  is_derive (fun t => F_i (arcsinh (gauss_i k1 (sinh t))) (up k1) - (1 + k1) * F_i t (k1 * k1)) t 0.
Proof.
  intros A B L. assert (CP : 0 < cosh t) by (unfold cosh; pose proof (exp_pos t); pose proof (exp_pos (- t)); lra).
  assert (SC : cosh t * cosh t = 1 + sinh t * sinh t) by (unfold cosh, sinh; pose proof (exp_neg t); nra).
  set (y := sinh t) in *. assert (D : 0 < 1 - k1 * (y * y)) by lra. pose proof (sq_pos y) as YY. pose proof (up_range k1 A) as U.
  set (D1 := sqrt (1 + k1 * k1 * (y * y))). assert (P1 : 1 <= 1 + k1 * k1 * (y * y)) by nra.
  assert (DP : 0 < D1) by (apply sqrt_lt_R0; lra). assert (DD : D1 * D1 = 1 + k1 * k1 * (y * y)) by (apply sqrt_sqrt; lra).
  assert (E1 : sqrt (gauss_i k1 y ^ 2 + 1) = cosh t * D1 / (1 - k1 * (y * y))).
  { apply sqrt_lem_1; [pose proof (pow2_ge_0 (gauss_i k1 y)); lra| |].
    - apply Rlt_le, Rdiv_lt_0_compat; [nra|lra].
    - unfold gauss_i. replace (cosh t * D1 / (1 - k1 * (y * y)) * (cosh t * D1 / (1 - k1 * (y * y)))) with ((cosh t * cosh t) * (D1 * D1) / ((1 - k1 * (y * y)) * (1 - k1 * (y * y)))) by (field; lra).
      rewrite SC, DD. field. lra. }
  assert (E2 : integrand_i (up k1) (arcsinh (gauss_i k1 y)) = (1 - k1 * (y * y)) / (1 + k1 * (y * y))).
  { unfold integrand_i. rewrite sinh_arcsinh. assert (0 < 1 + k1 * (y * y)) by nra. rewrite <- (Rinv_inv ((1 - k1 * (y * y)) / (1 + k1 * (y * y)))). f_equal. apply sqrt_lem_1.
    - pose proof (sq_pos (gauss_i k1 y)). nra.
    - apply Rlt_le, Rinv_0_lt_compat, Rdiv_lt_0_compat; nra.
    - unfold gauss_i, up. field. repeat split; nra. }
  assert (E3 : integrand_i (k1 * k1) t = / D1) by reflexivity.
  evar_last.
  - apply (is_derive_minus (K := R_AbsRing) (V := R_NormedModule)).
    + apply (is_derive_comp (K := R_AbsRing) (V := R_NormedModule) (fun q => F_i q (up k1)) (fun t => arcsinh (gauss_i k1 (sinh t)))).
      * apply F_i_derive. lra.
      * apply (is_derive_comp (K := R_AbsRing) (V := R_NormedModule) arcsinh (fun t => gauss_i k1 (sinh t))).
        -- apply is_derive_Reals, derivable_pt_lim_arcsinh.
        -- apply (is_derive_comp (K := R_AbsRing) (V := R_NormedModule) (gauss_i k1) sinh); [|apply sinh_derive].
           instantiate (1 := (1 + k1) * (1 + k1 * (y * y)) / ((1 - k1 * (y * y)) * (1 - k1 * (y * y)))).
           fold y. unfold gauss_i. auto_derive; [lra|]. field. lra.
    + apply (is_derive_scal (fun t => F_i t (k1 * k1)) t (1 + k1)). apply F_i_derive. nra.
  - fold y. rewrite E2, E3, E1. unfold minus, plus, opp, scal. cbn. unfold mult. cbn. field. repeat split; nra.
Qed.
Lemma gauss_i_F k1 y : 0 <= k1 < 1 -> 0 <= y -> k1 * (y * y) < 1 -> F_i (arcsinh (gauss_i k1 y)) (up k1) = (1 + k1) * F_i (arcsinh y) (k1 * k1).
Proof.
  intros A Y L. destruct Y as [Y| <-].
  - assert (T : 0 < arcsinh y) by (rewrite <- arcsinh_0; now apply arcsinh_lt).
    pose proof (eq_is_derive (V := R_NormedModule) (fun t => F_i (arcsinh (gauss_i k1 (sinh t))) (up k1) - (1 + k1) * F_i t (k1 * k1)) 0 (arcsinh y)) as H.
    cbv beta in H. specialize (H ltac:(intros t B; apply gauss_i_derive; [exact A|lra|]; pose proof (sinh_pos t ltac:(lra)); pose proof (sinh_le t (arcsinh y) ltac:(lra)) as Q; rewrite sinh_arcsinh in Q; assert (sinh t * sinh t <= y * y) by nra; nra) T).
    rewrite sinh_0, sinh_arcsinh in H. unfold gauss_i in H at 1. rewrite Rmult_0_r in H. unfold Rdiv in H. rewrite Rmult_0_l, arcsinh_0, !F_i_0 in H. lra.
  - unfold gauss_i. rewrite Rmult_0_r. unfold Rdiv. rewrite Rmult_0_l, arcsinh_0, !F_i_0. ring.
Qed.
(* the steps of the recursion *)
Definition descend_i (k k1 x : R) : R := x / ((1 + sqrt (1 + (x * k) * (x * k))) * (1 / 2 * (1 + k1))).
Lemma descend_i_ok k x : 0 <= k < 1 -> 0 <= x -> let y := descend_i k (landen_step k) x in 0 <= y /\ landen_step k * (y * y) < 1 /\ gauss_i (landen_step k) y = x.
Proof.
  intros A B. cbv zeta. unfold descend_i. destruct (landen_range k A) as ((N & _) & L). pose proof (up_landen k A) as U. unfold up in U.
  set (k1 := landen_step k) in *. assert (Z : 1 <= 1 + x * k * (x * k)) by (pose proof (sq_pos (x * k)); lra).
  set (r := sqrt (1 + x * k * (x * k))). assert (RP : 1 <= r) by (rewrite <- sqrt_1; apply sqrt_le_1_alt; lra). assert (RR : r * r = 1 + x * k * (x * k)) by (apply sqrt_sqrt; lra).
  assert (D : 0 < (1 + r) * (1 / 2 * (1 + k1))) by nra. set (y := x / _). assert (Ky : k1 * (y * y) = (r - 1) / (1 + r)).
  { unfold y. replace (k1 * (x / ((1 + r) * (1 / 2 * (1 + k1))) * (x / ((1 + r) * (1 / 2 * (1 + k1)))))) with (4 * k1 / ((1 + k1) * (1 + k1)) * (x * x) / ((1 + r) * (1 + r))) by (field; lra).
    rewrite U. replace (k * k * (x * x)) with (r * r - 1) by (rewrite RR; ring). field. lra. }
  split; [unfold y; apply Rle_mult_inv_pos; lra|]. split.
  - rewrite Ky. apply (Rmult_lt_reg_r (1 + r)); [lra|]. unfold Rdiv. rewrite Rmult_assoc, Rinv_l by lra. lra.
  - unfold gauss_i. rewrite Ky. unfold y. field. repeat split; lra.
Qed.
Fixpoint descend_i_all (k : R) (ks : list R) (x : R) : R := match ks with [] => x | k1 :: r => descend_i_all k1 r (descend_i k k1 x) end.
Lemma descend_i_F ks : forall k x, 0 <= k < 1 -> chain k ks -> 0 <= x -> 0 <= descend_i_all k ks x /\ (ks <> [] \/ k * (x * x) < 1 -> final k ks * (descend_i_all k ks x * descend_i_all k ks x) < 1) /\
  F_i (arcsinh x) (k * k) = product ks * F_i (arcsinh (descend_i_all k ks x)) (final k ks * final k ks).
Proof.
  induction ks as [|k1 r IH]; intros k x H CH X; cbn [chain product descend_i_all final] in *.
  - split; [exact X|]. split; [intros [?|?]; [congruence|assumption]|ring].
  - destruct CH as (E & CH). destruct (landen_range k H) as (R1 & R2). destruct (descend_i_ok k x H X) as (Y & Lt & G). rewrite <- E in *.
    destruct (IH k1 (descend_i k k1 x) ltac:(lra) CH Y) as (A & B & D). split; [exact A|]. split; [intros _; apply B; now right|].
    pose proof (gauss_i_F k1 (descend_i k k1 x) ltac:(lra) Y Lt) as GF. rewrite G in GF. rewrite E in GF at 1. rewrite up_landen in GF by exact H. rewrite GF, D. ring.
Qed.
Lemma descend_is_imag ex ks : forall k x, 0 <= k < 1 -> chain k ks -> descend ex k ks (0, x) = Ok (0, descend_i_all k ks x).
Proof.
  induction ks as [|k1 r IH]; intros k x H CH; cbn [descend descend_i_all chain] in *; [reflexivity|]. destruct CH as (E & CH). destruct (landen_range k H) as (R1 & R2).
  replace (csub (1, 0) (csquare (cmul_real (0, x) k))) with (1 + x * k * (x * k), 0) by (unfold csub, csquare, cmul_real; cbn [fst snd]; f_equal; ring).
  assert (Z : 1 <= 1 + x * k * (x * k)) by (pose proof (sq_pos (x * k)); lra). rewrite csqrt_real by lra. set (s := sqrt (1 + x * k * (x * k))). pose proof (sqrt_pos (1 + x * k * (x * k))) as SP. fold s in SP.
  set (d := (1 + s) * (1 / 2 * (1 + k1))). assert (DP : 0 < d) by (unfold d; nra). replace (cmul_real (cadd (1, 0) (s, 0)) (1 / 2 * (1 + k1))) with (d, 0) by (unfold cmul_real, cadd, d; cbn [fst snd]; f_equal; ring).
  rewrite cdiv_ok by (intros X; injection X; lra). cbn [obind]. replace (Cdiv (0, x) (d, 0)) with ((0, descend_i k k1 x) : Complex.C) by (unfold Cdiv, Cmult, Cinv, descend_i; fold s; fold d; cbn [fst snd]; apply injective_projections; cbn; field; nra).
  apply IH; [lra|exact CH].
Qed.
