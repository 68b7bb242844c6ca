From Verif Require Import Common RealUtil ComplexModel.
From Coquelicot Require Import Complex.
From Coq Require Import Psatz.
Local Open Scope R_scope.

Lemma pow2_pos e : 0 < powerRZ 2 e.
Proof. apply powerRZ_lt. lra. Qed.
Lemma pow2_neg e : powerRZ 2 (- e) = / powerRZ 2 e.
Proof. apply powerRZ_neg'. Qed.

Lemma cabs_Cmod ex (z : cplx) : cabs ex z = Cmod z.
Proof.
  unfold cabs. set (a := if Rltb _ _ then _ else _). set (b := if Rltb (Rabs (fst z)) (Rabs (snd z)) then Rabs (fst z) else _).
  cbv zeta. set (e := ex a).
  assert (S : a * a + b * b = fst z * fst z + snd z * snd z).
  { assert (SQ : forall x, Rabs x * Rabs x = x * x) by (intros x; rewrite <- Rabs_mult; apply Rabs_pos_eq, Rle_0_sqr).
    unfold a, b. destruct (Rltb _ _); rewrite !SQ; ring. }
  clearbody a b. unfold ldexp. rewrite pow2_neg. pose proof (pow2_pos e) as P. set (p := powerRZ 2 e) in *.
  replace (a * / p * (a * / p) + b * / p * (b * / p)) with ((a * a + b * b) * (/ p * / p)) by ring.
  rewrite sqrt_mult by (try (apply Rle_0_sqr); rewrite S; apply Rplus_le_le_0_compat; apply Rle_0_sqr).
  rewrite sqrt_square by (left; now apply Rinv_0_lt_compat). rewrite S. unfold Cmod.
  rewrite Rmult_assoc, Rinv_l by lra. rewrite Rmult_1_r. f_equal. cbn. ring.
Qed.

Lemma cdiv_ok ex (w z : cplx) : z <> (0, 0) -> cdiv ex w z = Ok (Cdiv w z).
Proof.
  intros NZ. unfold cdiv. cbv zeta. set (e := if Rleb _ _ then _ else _). unfold ldexp. rewrite pow2_neg.
  pose proof (pow2_pos e) as P. set (p := powerRZ 2 e) in *. clearbody p.
  destruct z as [x y], w as [u v]. cbn [fst snd].
  assert (D : x * x + y * y <> 0).
  { intros E. apply NZ. assert (x = 0) by nra. assert (y = 0) by nra. now subst. }
  assert (D' : x * / p * (x * / p) + y * / p * (y * / p) <> 0).
  { replace (x * / p * (x * / p) + y * / p * (y * / p)) with ((x * x + y * y) * (/ p * / p)) by ring.
    apply Rmult_integral_contrapositive_currified; [exact D|]. apply Rmult_integral_contrapositive_currified; apply Rinv_neq_0_compat; lra. }
  destruct (Reqb_spec (x * / p * (x * / p) + y * / p * (y * / p)) 0); [contradiction|]. cbn [negb oguard].
  f_equal. apply injective_projections; cbn; field; repeat split; try lra; try (intros Z; apply D; lra).
Qed.

Lemma csqrt_spec ex (z : cplx) : cmul (csqrt ex z) (csqrt ex z) = z /\ 0 <= fst (csqrt ex z) /\
  (fst (csqrt ex z) = 0 -> 0 <= snd (csqrt ex z)).
Proof.
  unfold csqrt. destruct z as [x y]. cbn [fst snd]. destruct (Reqb_spec x 0) as [->|NX].
  - set (q := sqrt (Rabs y / 2)). assert (Q0 : 0 <= q) by apply sqrt_pos.
    assert (QQ : q * q = Rabs y / 2) by (apply sqrt_sqrt; pose proof (Rabs_pos y); lra).
    cbv zeta. unfold cmul. cbn [fst snd]. destruct (Rltb_spec y 0) as [L|L].
    + rewrite (Rabs_left y L) in QQ. split; [apply f_equal2; lra|]. split; [exact Q0|]. intros Z. rewrite Z in *. lra.
    + rewrite (Rabs_pos_eq y) in QQ by lra. split; [apply f_equal2; lra|]. split; [exact Q0|]. intros _. exact Q0.
  - rewrite cabs_Cmod. set (m := Cmod (x, y)).
    assert (MM : m * m = x * x + y * y).
    { unfold m, Cmod. rewrite sqrt_sqrt; cbn; [ring|]. rewrite !Rmult_1_r. apply Rplus_le_le_0_compat; apply Rle_0_sqr. }
    assert (M0 : 0 <= m) by apply Cmod_ge_0.
    pose proof (Rabs_pos_lt x NX) as AX.
    set (q := sqrt ((m + Rabs x) / 2)). assert (Q0 : 0 < q) by (apply sqrt_lt_R0; lra).
    assert (QQ : q * q = (m + Rabs x) / 2) by (apply sqrt_sqrt; lra). cbv zeta.
    assert (AA : Rabs x * Rabs x = x * x) by (rewrite <- Rabs_mult; apply Rabs_pos_eq, Rle_0_sqr).
    assert (YY : y * y = (m - Rabs x) * (2 * (q * q))) by (rewrite QQ; lra).
    assert (Y2 : y / (2 * q) * (y / (2 * q)) = (m - Rabs x) / 2).
    { replace (y / (2 * q) * (y / (2 * q))) with (y * y / (4 * (q * q))) by (field; lra). rewrite YY. field. lra. }
    unfold cmul. destruct (Rltb_spec 0 x) as [L|L]; cbn [fst snd].
    + rewrite (Rabs_pos_eq x) in * by lra. split; [apply f_equal2; [rewrite QQ, Y2; field|field; lra]|]. split; lra.
    + assert (L' : x < 0) by lra. rewrite (Rabs_left x L') in *.
      assert (PY : forall s, (0 <= s) -> Rabs s = s) by (intros; now apply Rabs_pos_eq).
      assert (Y3 : Rabs y / (2 * q) * (Rabs y / (2 * q)) = (m - - x) / 2).
      { assert (AY : Rabs y * Rabs y = y * y) by (rewrite <- Rabs_mult; apply Rabs_pos_eq, Rle_0_sqr).
        replace (Rabs y / (2 * q) * (Rabs y / (2 * q))) with (y * y / (4 * (q * q))) by (rewrite <- AY; field; lra). rewrite YY. field. lra. }
      assert (PP : 0 <= Rabs y / (2 * q)) by (apply Rmult_le_pos; [apply Rabs_pos|left; apply Rinv_0_lt_compat; lra]).
      destruct (Rltb_spec y 0) as [N|N].
      * rewrite (Rabs_left y N) in *. split; [apply f_equal2; [rewrite Y3; lra|field; lra]|]. split; [exact PP|].
        intros Z. exfalso. assert (0 < - y / (2 * q)) by (apply Rdiv_lt_0_compat; lra). lra.
      * rewrite (Rabs_pos_eq y) in * by lra. split; [apply f_equal2; [rewrite Y3; lra|field; lra]|]. split; [exact PP|]. intros _. lra.
Qed.

(* argument *)
Lemma atan2_spec x y r : r * r = x * x + y * y -> 0 < r ->
  r * cos (atan2 y x) = x /\ r * sin (atan2 y x) = y /\ - PI < atan2 y x <= PI.
Proof.
  intros HR RP. pose proof PI_RGT_0 as PP. unfold atan2.
  assert (AT : forall x y, x <> 0 -> r * r = x * x + y * y -> r * cos (atan (y / x)) = Rabs x /\ r * sin (atan (y / x)) = y * Rabs x / x).
  { clear x y HR. intros x y NX HR. rewrite cos_atan, sin_atan.
    assert (E : 1 + Rsqr (y / x) = (r / x) * (r / x)).
    { unfold Rsqr. apply (Rmult_eq_reg_r (x * x)); [|nra]. replace (r / x * (r / x) * (x * x)) with (r * r) by (field; exact NX).
      replace ((1 + y / x * (y / x)) * (x * x)) with (x * x + y * y) by (field; exact NX). lra. }
    rewrite E. replace (r / x * (r / x)) with (Rsqr (r / x)) by reflexivity. rewrite sqrt_Rsqr_abs.
    assert (RX : Rabs (r / x) = r / Rabs x) by (unfold Rdiv; rewrite Rabs_mult, Rabs_inv, (Rabs_pos_eq r) by lra; reflexivity). rewrite RX.
    pose proof (Rabs_pos_lt x NX). split; field; repeat split; lra. }
  destruct (Rltb_spec 0 x) as [X|X]; [|destruct (Rltb_spec x 0) as [X'|X']].
  - destruct (AT x y ltac:(lra) HR) as [A1 A2]. rewrite (Rabs_pos_eq x) in * by lra. split; [exact A1|].
    split; [rewrite A2; field; lra|]. pose proof (atan_bound (y / x)). lra.
  - destruct (AT x y ltac:(lra) HR) as [A1 A2]. rewrite (Rabs_left x) in * by lra. pose proof (atan_bound (y / x)) as B.
    assert (IX : / x < 0) by now apply Rinv_lt_0_compat.
    destruct (Rleb_spec 0 y) as [Y|Y].
    + rewrite neg_cos, neg_sin. split; [lra|]. split; [replace (r * - sin (atan (y / x))) with (- (r * sin (atan (y / x)))) by ring; rewrite A2; field; lra|].
      split; [lra|]. destruct (Req_dec y 0) as [->|NY]; [unfold Rdiv; rewrite Rmult_0_l, atan_0; lra|].
      assert (atan (y / x) < 0) by (rewrite <- atan_0; apply atan_increasing; unfold Rdiv; nra). lra.
    + assert (0 < atan (y / x)) by (rewrite <- atan_0; apply atan_increasing; unfold Rdiv; nra).
      replace (atan (y / x) - PI) with (- (PI - atan (y / x))) by ring. rewrite cos_neg, sin_neg.
      rewrite Rtrigo_facts.cos_pi_minus, Rtrigo_facts.sin_pi_minus.
      split; [lra|]. split; [replace (r * - sin (atan (y / x))) with (- (r * sin (atan (y / x)))) by ring; rewrite A2; field; lra|]. lra.
  - assert (x = 0) by lra. subst x. destruct (Rltb_spec 0 y) as [Y|Y]; [|destruct (Rltb_spec y 0) as [Y'|Y']].
    + rewrite cos_PI2, sin_PI2. assert (r = y) by nra. lra.
    + rewrite cos_neg, sin_neg, cos_PI2, sin_PI2. assert (r = - y) by nra. lra.
    + assert (y = 0) by lra. subst y. nra.
Qed.

Lemma clog_ok ex (z : cplx) : z <> (0, 0) -> exists l, clog ex z = Ok l /\ cexp l = z /\ - PI < snd l <= PI.
Proof.
  intros NZ. unfold clog. rewrite cabs_Cmod.
  assert (M : 0 < Cmod z) by (apply Cmod_gt_0; exact NZ).
  destruct (Reqb_spec (Cmod z) 0); [lra|]. cbn [negb oguard]. eexists. split; [reflexivity|].
  assert (MM : Cmod z * Cmod z = fst z * fst z + snd z * snd z).
  { unfold Cmod. rewrite sqrt_sqrt; cbn; [ring|]. rewrite !Rmult_1_r. apply Rplus_le_le_0_compat; apply Rle_0_sqr. }
  destruct (atan2_spec (fst z) (snd z) (Cmod z) MM M) as (A1 & A2 & A3). unfold cexp, carg. cbn [fst snd]. rewrite exp_ln by exact M.
  split; [|exact A3]. rewrite A1, A2. now destruct z.
Qed.

Lemma exp_neg x : exp x * exp (- x) = 1.
Proof. rewrite <- exp_plus. replace (x + - x) with 0 by ring. apply exp_0. Qed.

(* cosh and sinh of a logarithm *)
Lemma hyperbolic_of_log (l u v : cplx) : cexp l = u -> cmul u v = (1, 0) ->
  ccosh l = ((fst u + fst v) / 2, (snd u + snd v) / 2) /\ csinh l = ((fst u - fst v) / 2, (snd u - snd v) / 2).
Proof.
  intros E1 E2. destruct l as [x y]. unfold cexp in E1. cbn [fst snd] in E1. subst u. unfold cmul in E2. cbn [fst snd] in E2.
  destruct v as [p q]. cbn [fst snd] in *. injection E2 as E2 E3.
  pose proof (exp_pos x) as X1. pose proof (exp_pos (- x)) as X2. pose proof (exp_neg x) as X3.
  pose proof (sin2_cos2 y) as SC. unfold Rsqr in SC.
  set (c := cos y) in *. set (s := sin y) in *. set (e := exp x) in *.
  assert (P : p = exp (- x) * c).
  { assert (p * e = c). { transitivity ((e * c * p - e * s * q) * c + (e * c * q + e * s * p) * s); [|rewrite E2, E3; ring].
      transitivity (p * e * (s * s + c * c)); [rewrite SC; ring|ring]. }
    transitivity (p * (e * exp (- x))); [rewrite X3; ring|]. rewrite <- Rmult_assoc, H. ring. }
  assert (Q : q = - exp (- x) * s).
  { assert (q * e = - s). { transitivity ((e * c * q + e * s * p) * c - (e * c * p - e * s * q) * s); [|rewrite E2, E3; ring].
      transitivity (q * e * (s * s + c * c)); [rewrite SC; ring|ring]. }
    transitivity (q * (e * exp (- x))); [rewrite X3; ring|]. rewrite <- Rmult_assoc, H. ring. }
  unfold ccosh, csinh, cosh, sinh. cbn [fst snd]. fold e. rewrite P, Q. fold c s. split; apply f_equal2; field.
Qed.

Lemma cmul_zero_l (z : cplx) : cmul (0, 0) z = (0, 0).
Proof. unfold cmul. cbn. apply f_equal2; ring. Qed.

Lemma log_minus_ok ex z : exists l, log_minus ex z = Ok l /\ ccosh l = z /\ - PI < snd l <= PI.
Proof.
  unfold log_minus. set (w := (_, 2 * fst z * snd z)). destruct (csqrt_spec ex w) as (S1 & _ & _).
  set (s := csqrt ex w) in *. set (u := cadd z s). set (v := csub z s).
  assert (UV : cmul u v = (1, 0)).
  { destruct z as [x y], s as [a b]. unfold w, cmul in S1. cbn [fst snd] in S1. injection S1 as Sa Sb.
    unfold u, v, cadd, csub, cmul. cbn [fst snd]. apply f_equal2; lra. }
  assert (NU : u <> (0, 0)) by (intros E; rewrite E, cmul_zero_l in UV; injection UV as F; lra).
  destruct (clog_ok ex u NU) as (l & E & EE & B). exists l. split; [exact E|]. split; [|exact B].
  destruct (hyperbolic_of_log l u v EE UV) as [-> _]. destruct z as [x y]. unfold u, v, cadd, csub. cbn [fst snd]. apply f_equal2; field.
Qed.
Lemma log_plus_ok ex z : exists l, log_plus ex z = Ok l /\ csinh l = z /\ - PI < snd l <= PI /\ 0 <= fst (ccosh l).
Proof.
  unfold log_plus. set (w := (_, 2 * fst z * snd z)). destruct (csqrt_spec ex w) as (S1 & S2 & _).
  set (s := csqrt ex w) in *. set (u := cadd z s). set (v := csub s z).
  assert (UV : cmul u v = (1, 0)).
  { destruct z as [x y], s as [a b]. unfold w, cmul in S1. cbn [fst snd] in S1. injection S1 as Sa Sb.
    unfold u, v, cadd, csub, cmul. cbn [fst snd]. apply f_equal2; lra. }
  assert (NU : u <> (0, 0)) by (intros E; rewrite E, cmul_zero_l in UV; injection UV as F; lra).
  destruct (clog_ok ex u NU) as (l & E & EE & B). exists l. split; [exact E|].
  destruct (hyperbolic_of_log l u v EE UV) as [-> ->]. split; [|split; [exact B|]].
  - destruct z as [x y]. unfold u, v, cadd, csub. cbn [fst snd]. apply f_equal2; field.
  - destruct z as [x y]. unfold u, v, cadd, csub. cbn [fst snd]. lra.
Qed.

Lemma cosh_pos x : 0 < cosh x.
Proof. unfold cosh. pose proof (exp_pos x). pose proof (exp_pos (- x)). lra. Qed.
Lemma cosh_neg x : cosh (- x) = cosh x.
Proof. unfold cosh. rewrite Ropp_involutive. lra. Qed.
Lemma sinh_neg x : sinh (- x) = - sinh x.
Proof. unfold sinh. rewrite Ropp_involutive. lra. Qed.
Lemma sinh_nonneg x : 0 <= x -> 0 <= sinh x.
Proof. intros H. unfold sinh. assert (exp (- x) <= exp x). { destruct (Req_dec x 0) as [->|N]; [rewrite Ropp_0; lra|]. left. apply exp_increasing. lra. } lra. Qed.
Lemma sinh_pos x : 0 < x -> 0 < sinh x.
Proof. intros H. unfold sinh. assert (exp (- x) < exp x) by (apply exp_increasing; lra). lra. Qed.
Lemma sin_nonneg y : 0 <= y <= PI -> 0 <= sin y.
Proof. intros. apply sin_ge_0; lra. Qed.
Lemma cos_abs y : cos (Rabs y) = cos y.
Proof. unfold Rabs. destruct (Rcase_abs y); [apply cos_neg|reflexivity]. Qed.
Lemma cosh_abs y : cosh (Rabs y) = cosh y.
Proof. unfold Rabs. destruct (Rcase_abs y); [apply cosh_neg|reflexivity]. Qed.
Lemma cos_copy_sign y s : cos (copy_sign y s) = cos y.
Proof. unfold copy_sign. destruct (Rltb s 0); rewrite ?cos_neg; apply cos_abs. Qed.
Lemma cosh_copy_sign y s : cosh (copy_sign y s) = cosh y.
Proof. unfold copy_sign. destruct (Rltb s 0); rewrite ?cosh_neg; apply cosh_abs. Qed.
Lemma abs_sinh x : sinh (Rabs x) = Rabs (sinh x).
Proof.
  destruct (Rle_dec 0 x); [rewrite !Rabs_pos_eq; auto using sinh_nonneg|].
  rewrite (Rabs_left x) by lra. rewrite sinh_neg. rewrite Rabs_left; [ring|]. assert (0 < sinh (- x)) by (apply sinh_pos; lra). rewrite sinh_neg in H. lra.
Qed.
Lemma abs_sin y : - PI < y <= PI -> sin (Rabs y) = Rabs (sin y).
Proof.
  intros B. destruct (Rle_dec 0 y) as [H|H].
  - rewrite !Rabs_pos_eq; [reflexivity|apply sin_nonneg; lra|exact H].
  - rewrite (Rabs_left y) by lra. rewrite sin_neg. assert (0 <= sin (- y)) by (apply sin_nonneg; lra). rewrite sin_neg in H0.
    rewrite Rabs_left1; lra.
Qed.
Lemma sin_copy_sign y s : - PI < y <= PI -> sin (copy_sign y s) = if Rltb s 0 then - Rabs (sin y) else Rabs (sin y).
Proof. intros B. unfold copy_sign. destruct (Rltb s 0); rewrite ?sin_neg, abs_sin; auto. Qed.
Lemma sinh_copy_sign y s : sinh (copy_sign y s) = if Rltb s 0 then - Rabs (sinh y) else Rabs (sinh y).
Proof. unfold copy_sign. destruct (Rltb s 0); rewrite ?sinh_neg, abs_sinh; auto. Qed.

Lemma sign_product a b t : t = a * b -> Rabs a * (if Rltb t 0 then - Rabs b else Rabs b) = t.
Proof.
  intros ->. destruct (Rltb_spec (a * b) 0).
  - replace (Rabs a * - Rabs b) with (- Rabs (a * b)) by (rewrite Rabs_mult; ring). rewrite Rabs_left by assumption. ring.
  - rewrite <- Rabs_mult, Rabs_pos_eq; lra.
Qed.

Lemma cacosh_ok ex z : exists w, cacosh ex z = Ok w /\ ccosh w = z /\ 0 <= fst w /\ - PI <= snd w <= PI.
Proof.
  unfold cacosh. destruct (log_minus_ok ex z) as (l & -> & HC & B). cbn [omap obind]. eexists. split; [reflexivity|].
  destruct l as [x y]. destruct z as [a b]. unfold ccosh in *. cbn [fst snd] in *. injection HC as H1 H2.
  rewrite cosh_abs, cos_copy_sign, abs_sinh, (sin_copy_sign y b B).
  rewrite (sign_product (sinh x) (sin y) b) by (symmetry; exact H2). split; [now rewrite H1|]. split; [apply Rabs_pos|].
  unfold copy_sign. assert (Rabs y <= PI) by (apply Rabs_le; lra). pose proof (Rabs_pos y). destruct (Rltb b 0); lra.
Qed.
Lemma cacos_ok ex z : exists w, cacos ex z = Ok w /\ ccos w = z /\ 0 <= fst w <= PI.
Proof.
  unfold cacos. destruct (log_minus_ok ex z) as (l & -> & HC & B). cbn [omap obind]. eexists. split; [reflexivity|].
  destruct l as [x y]. destruct z as [a b]. unfold ccosh, ccos in *. cbn [fst snd] in *. injection HC as H1 H2.
  rewrite cos_abs, cosh_copy_sign, (abs_sin y B), sinh_copy_sign.
  split; [apply f_equal2; [rewrite <- H1; ring|]|split; [apply Rabs_pos|apply Rabs_le; lra]].
  replace (- Rabs (sin y) * (if Rltb (- b) 0 then - Rabs (sinh x) else Rabs (sinh x)))
    with (- (Rabs (sin y) * (if Rltb (- b) 0 then - Rabs (sinh x) else Rabs (sinh x)))) by ring.
  destruct (Rltb_spec (- b) 0) as [L|L].
  - replace (Rabs (sin y) * - Rabs (sinh x)) with (- Rabs (sinh x * sin y)) by (rewrite Rabs_mult; ring). rewrite H2, Rabs_pos_eq; lra.
  - rewrite <- Rabs_mult. replace (sin y * sinh x) with b by (rewrite <- H2; ring). rewrite Rabs_left1; lra.
Qed.
Lemma casinh_ok ex z : exists w, casinh ex z = Ok w /\ csinh w = z /\ - (PI / 2) <= snd w <= PI / 2.
Proof.
  unfold casinh. destruct (log_plus_ok ex z) as (l & -> & HC & B & HR). cbn [omap obind]. eexists. split; [reflexivity|].
  destruct l as [x y]. destruct z as [a b]. unfold ccosh, csinh in *. cbn [fst snd] in *. injection HC as H1 H2.
  pose proof (cosh_pos x) as CP.
  assert (CY : 0 <= cos y). { apply (Rmult_le_reg_l (cosh x)); [exact CP|]. lra. }
  split.
  - rewrite cos_copy_sign, cosh_copy_sign, sinh_copy_sign, (sin_copy_sign y b B). apply f_equal2.
    + rewrite Rmult_comm. rewrite <- (Rabs_pos_eq (cos y)) by exact CY.
      apply sign_product. rewrite <- H1. ring.
    + rewrite <- (Rabs_pos_eq (cosh x)) by lra. apply sign_product. symmetry. exact H2.
  - assert (A : Rabs y <= PI / 2).
    { apply Rnot_lt_le. intros L. assert (Rabs y <= PI) by (apply Rabs_le; lra).
      assert (cos (Rabs y) < 0) by (apply cos_lt_0; lra). rewrite cos_abs in H0. lra. }
    unfold copy_sign. pose proof (Rabs_pos y). destruct (Rltb b 0); lra.
Qed.
Lemma casin_ok ex z : exists w, casin ex z = Ok w /\ csin w = z /\ - (PI / 2) <= fst w <= PI / 2.
Proof.
  unfold casin. destruct (casinh_ok ex (- snd z, fst z)) as (w & -> & HC & B). cbn [omap obind]. eexists. split; [reflexivity|].
  destruct w as [x y]. destruct z as [a b]. unfold csinh, csin in *. cbn [fst snd] in *. injection HC as H1 H2.
  split; [|exact B]. rewrite cosh_neg, sinh_neg. apply f_equal2; lra.
Qed.
