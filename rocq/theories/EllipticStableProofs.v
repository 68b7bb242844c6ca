(* The fourth quadrant in the coordinates of the addition theorem, and the ascent from the last modulus to the first. *)
From Verif Require Import Common ListLemmas RealUtil CInt ComplexModel ComplexProofs EllipticModel EllipticSpec EllipticAxisSpec EllipticProofs EllipticProofs2 EllipticProofs4 EllipticProofs5 EllipticAxisProofs EllipticAxisProofs2 EllipticAxisProofs3 EllipticDesignModel EllipticDesignProofs EllipticDesignProofs4 EllipticDesignProofs5 EllipticDesignProofs6.
From Coquelicot Require Import Coquelicot.
Local Open Scope R_scope.
Local Notation C := Complex.C.

(* w = sn(x - i y) for the modulus k, where sn(x) = s and sn(i y) = i t *)
Definition coords (k : R) (w : C) (s t : R) : Prop := exists p q, 0 < p /\ 0 < q /\
  p * p = (1 + t * t) * (1 + k * k * (t * t)) /\ q * q = (1 - s * s) * (1 - k * k * (s * s)) /\
  w = (s * p / (1 + k * k * (s * s) * (t * t)), - (t * q / (1 + k * k * (s * s) * (t * t)))).
Lemma coords_fourth k w s t : 0 < s -> 0 < t -> coords k w s t -> fourth w.
Proof.
  intros S T (p & q & P & Q & _ & _ & ->). assert (M : 0 < 1 + k * k * (s * s) * (t * t)) by (pose proof (sq_pos (k * s * t)); nra). split; cbn [fst snd].
  - apply Rdiv_lt_0_compat; nra.
  - assert (0 < t * q / (1 + k * k * (s * s) * (t * t))) by (apply Rdiv_lt_0_compat; nra). lra.
Qed.
Lemma coords_n2 k w s t : coords k w s t -> n2 w = (s * s + t * t) / (1 + k * k * (s * s) * (t * t)).
Proof.
  intros (p & q & P & Q & PP & QQ & ->). assert (M : 0 < 1 + k * k * (s * s) * (t * t)) by (pose proof (sq_pos (k * s * t)); nra). unfold n2. cbn [fst snd]. set (m := 1 + k * k * (s * s) * (t * t)) in *.
  replace (s * p / m * (s * p / m) + - (t * q / m) * - (t * q / m)) with ((s * s * (p * p) + t * t * (q * q)) / (m * m)) by (field; lra). rewrite PP, QQ. replace (s * s * ((1 + t * t) * (1 + k * k * (t * t))) + t * t * ((1 - s * s) * (1 - k * k * (s * s)))) with ((s * s + t * t) * m) by (unfold m; ring). field. lra.
Qed.
Lemma step_formula ex k (w : C) : 0 <= k -> fourth w -> k * n2 w < 1 -> let d := (1 - k * n2 w) * (1 - k * n2 w) + 4 * k * (fst w * fst w) in
  exists q : C, cdiv ex w (cadd (1, 0) (cmul_real (csquare w) k)) = Ok q /\ cmul_real q (1 + k) = ((1 + k) * (fst w * (1 + k * n2 w)) / d, (1 + k) * (snd w * (1 - k * n2 w)) / d).
Proof.
  intros K (X & Y) N. destruct w as [x y]. cbn [fst snd] in X, Y. unfold n2 in *. cbn [fst snd] in N |- *. cbv zeta. set (n := x * x + y * y) in *.
  assert (N0 : 0 < n) by (unfold n; nra). set (a := 1 + k * (x * x - y * y)). set (b := 2 * k * x * y). replace (cadd (1, 0) (cmul_real (csquare (x, y)) k)) with (a, b) by (unfold cadd, cmul_real, csquare, a, b; cbn [fst snd]; f_equal; ring).
  assert (D : a * a + b * b = (1 - k * n) * (1 - k * n) + 4 * k * (x * x)) by (unfold a, b, n; ring). assert (DP : 0 < (1 - k * n) * (1 - k * n)) by nra. assert (XX : 0 <= 4 * k * (x * x)) by nra. assert (D0 : 0 < a * a + b * b) by lra. rewrite <- D.
  rewrite cdiv_ok. 2:{ intros E. injection E as E1 E2. rewrite E1, E2 in D0. lra. }
  exists (Cdiv (x, y) (a, b)). split; [reflexivity|]. unfold cmul_real, Cdiv, Cmult, Cinv. cbn [fst snd]. f_equal.
  - assert (E : x * (1 + k * n) = x * a + y * b) by (unfold a, b, n; ring). rewrite E. field. nra.
  - assert (E : y * (1 - k * n) = y * a - x * b) by (unfold a, b, n; ring). rewrite E. field. nra.
Qed.
Lemma coords_step ex k1 (w : C) s t : 0 <= k1 < 1 -> 0 < s < 1 -> 0 < t -> k1 * (t * t) < 1 -> coords k1 w s t -> forall k, k * k = up k1 ->
  exists q : C, cdiv ex w (cadd (1, 0) (cmul_real (csquare w) k1)) = Ok q /\ coords k (cmul_real q (1 + k1)) (gauss k1 s) (gauss_i k1 t).
Proof.
  intros H S T L W k U. pose proof (coords_n2 _ _ _ _ W) as N. pose proof (coords_fourth _ _ _ _ (proj1 S) T W) as FW. destruct W as (p & q & P & Q & PP & QQ & WE). set (S2 := s * s) in *. set (T2 := t * t) in *. assert (S2R : 0 < S2 < 1) by (unfold S2; nra). assert (T2R : 0 < T2) by (unfold T2; nra). assert (KS : 0 <= k1 * S2 < 1) by nra. assert (KT : 0 <= k1 * T2 < 1) by nra.
  assert (KK : 0 <= k1 * k1) by nra. assert (ST : 0 < S2 * T2) by nra. assert (M : 0 < 1 + k1 * k1 * S2 * T2) by (replace (k1 * k1 * S2 * T2) with (k1 * k1 * (S2 * T2)) by ring; nra). set (m := 1 + k1 * k1 * S2 * T2) in *.
  assert (A1 : 1 + k1 * n2 w = (1 + k1 * S2) * (1 + k1 * T2) / m) by (rewrite N; unfold m in *; field; lra). assert (A2 : 1 - k1 * n2 w = (1 - k1 * S2) * (1 - k1 * T2) / m) by (rewrite N; unfold m in *; field; lra).
  assert (LT : k1 * n2 w < 1). { assert (0 < (1 - k1 * S2) * (1 - k1 * T2) / m) by (apply Rdiv_lt_0_compat; nra). lra. }
  destruct (step_formula ex k1 w ltac:(lra) FW LT) as (z & Z & ZE). cbv zeta in ZE. exists z. split; [exact Z|]. rewrite ZE, A1, A2. clear Z ZE. rewrite WE. cbn [fst snd].
  set (Y := (1 + k1 * S2) * (1 + k1 * S2) * ((1 - k1 * T2) * (1 - k1 * T2)) + 4 * k1 * S2 * T2 * ((1 + k1) * (1 + k1))). assert (YP : 0 < Y) by (unfold Y; assert (0 < (1 + k1 * S2) * (1 + k1 * S2) * ((1 - k1 * T2) * (1 - k1 * T2))) by (apply Rmult_lt_0_compat; nra); assert (0 <= 4 * k1 * S2 * T2 * ((1 + k1) * (1 + k1))) by (apply Rmult_le_pos; nra); lra).
  assert (DE : (1 - k1 * S2) * (1 - k1 * T2) / m * ((1 - k1 * S2) * (1 - k1 * T2) / m) + 4 * k1 * (s * p / m * (s * p / m)) = Y / (m * m)). { replace (s * p / m * (s * p / m)) with (S2 * (p * p) / (m * m)) by (unfold S2; field; lra). rewrite PP. unfold Y. field. lra. }
  rewrite DE. set (a := 1 + k1 * S2) in *. set (b := 1 - k1 * T2) in *. assert (AP : 0 < a) by (unfold a; lra). assert (BP : 0 < b) by (unfold b; lra).
  assert (G1 : gauss k1 s * gauss k1 s = (1 + k1) * (1 + k1) * S2 / (a * a)) by (unfold gauss; fold S2; fold a; unfold S2; field; lra). assert (G2 : gauss_i k1 t * gauss_i k1 t = (1 + k1) * (1 + k1) * T2 / (b * b)) by (unfold gauss_i; fold T2; fold b; unfold T2; field; lra).
  exists (p * (1 + k1 * T2) / (b * b)), (q * (1 - k1 * S2) / (a * a)). unfold coords. rewrite U, G1, G2. unfold up. split; [apply Rdiv_lt_0_compat; nra|]. split; [apply Rdiv_lt_0_compat; nra|]. split; [|split].
  - replace (p * (1 + k1 * T2) / (b * b) * (p * (1 + k1 * T2) / (b * b))) with (p * p * ((1 + k1 * T2) * (1 + k1 * T2)) / (b * b * (b * b))) by (field; lra). rewrite PP. unfold b in *. field. lra.
  - replace (q * (1 - k1 * S2) / (a * a) * (q * (1 - k1 * S2) / (a * a))) with (q * q * ((1 - k1 * S2) * (1 - k1 * S2)) / (a * a * (a * a))) by (field; lra). rewrite QQ. unfold a in *. field. lra.
  - assert (ME : 1 + 4 * k1 / ((1 + k1) * (1 + k1)) * ((1 + k1) * (1 + k1) * S2 / (a * a)) * ((1 + k1) * (1 + k1) * T2 / (b * b)) = Y / (a * a * (b * b))) by (unfold Y; field; lra). rewrite ME. unfold gauss, gauss_i. fold S2 T2. fold a b. f_equal; field; repeat split; lra.
Qed.
(* the real part of cd only grows on the way up *)
Lemma cd_grows k1 s k c : 0 <= k1 < 1 -> 0 < s < 1 -> k * k = up k1 -> 0 <= c -> c * (1 - k1 * k1 * (s * s)) <= 1 - s * s ->
  c * (1 - k * k * (gauss k1 s * gauss k1 s)) <= 1 - gauss k1 s * gauss k1 s.
Proof.
  intros K S U CP B. rewrite U. set (x := s * s) in *. assert (X : 0 < x < 1) by (unfold x; nra). assert (A : 0 < 1 + k1 * x) by nra.
  assert (G : gauss k1 s * gauss k1 s = (1 + k1) * (1 + k1) * x / ((1 + k1 * x) * (1 + k1 * x))) by (unfold gauss; fold x; unfold x; field; fold x; lra). rewrite G. unfold up.
  replace (1 - 4 * k1 / ((1 + k1) * (1 + k1)) * ((1 + k1) * (1 + k1) * x / ((1 + k1 * x) * (1 + k1 * x)))) with ((1 - k1 * x) * (1 - k1 * x) / ((1 + k1 * x) * (1 + k1 * x))) by (field; lra).
  replace (1 - (1 + k1) * (1 + k1) * x / ((1 + k1 * x) * (1 + k1 * x))) with ((1 - x) * (1 - k1 * k1 * x) / ((1 + k1 * x) * (1 + k1 * x))) by (field; lra).
  unfold Rdiv. rewrite <- Rmult_assoc. apply Rmult_le_compat_r; [left; apply Rinv_0_lt_compat; nra|]. assert (KX : 0 <= k1 * x < 1) by nra. assert (KK : 0 <= k1 * k1 * x <= k1 * x) by (split; nra). set (e := k1 * k1 * x) in *. set (d := k1 * x) in *. clearbody d e.
  assert ((1 - d) * (1 - d) <= (1 - e) * (1 - e)) by nra. assert (c * ((1 - d) * (1 - d)) <= c * ((1 - e) * (1 - e))) by (apply Rmult_le_compat_l; lra). assert (c * (1 - e) * (1 - e) <= (1 - x) * (1 - e)) by (apply Rmult_le_compat_r; lra). lra.
Qed.
Lemma coords_ascend ex c ks : 0 <= c -> forall k y (w : C) s, 0 <= k < 1 -> chain k ks -> 0 < y -> 0 < s < 1 -> c * (1 - final k ks * final k ks * (s * s)) <= 1 - s * s -> coords (final k ks) w s (descend_i_all k ks y) ->
  exists (w' : C) s', ascend ex ks w = Ok w' /\ 0 < s' < 1 /\ coords k w' s' y /\ c * (1 - k * k * (s' * s')) <= 1 - s' * s'.
Proof.
  intros CP. induction ks as [|k1 r IH]; intros k y w s K CH Y S B W; cbn [ascend chain final descend_i_all] in *; [exists w, s; repeat split; (exact W || lra)|].
  destruct CH as (E & CH). destruct (landen_range k K) as (R1 & R2). destruct (descend_i_ok k y K ltac:(lra)) as (Y0 & LT & G). pose proof (up_landen k K) as U. rewrite <- E in *. set (t := descend_i k k1 y) in *. assert (T : 0 < t). { destruct Y0 as [L|Z]; [exact L|]. rewrite <- Z in G. unfold gauss_i in G. rewrite Rmult_0_r in G. unfold Rdiv in G. lra. }
  destruct (IH k1 t w s ltac:(lra) CH T S B W) as (w1 & s1 & A & S1 & C1 & B1). rewrite A. cbn [obind]. destruct (coords_step ex k1 w1 s1 t ltac:(lra) S1 T LT C1 k (eq_sym U)) as (q & Q & CQ). rewrite Q. cbn [obind]. rewrite G in CQ. eexists _, _. split; [reflexivity|]. split; [|split; [exact CQ|exact (cd_grows k1 s1 k c ltac:(lra) S1 (eq_sym U) CP B1)]]. pose proof (gauss_open k1 s1 ltac:(lra) S1). lra.
Qed.
(* csin in these coordinates *)
Lemma coords_start k a b : 0 <= k < 1 -> 0 < a < PI / 2 -> 0 < b -> exists s t, 0 < s < 1 /\ 0 < t /\ coords k (csin (a, - b)) s t /\ t * t * (1 - k * k * (cosh b * cosh b)) <= sinh b * sinh b /\ cos a * cos a <= 1 - s * s.
Proof.
  intros K A B. set (sg := sin a * sin a). set (h := sinh b * sinh b). assert (SA : 0 < sin a) by (apply sin_gt_0; lra). assert (CA : 0 < cos a) by (apply cos_gt_0; lra). assert (SC : cos a * cos a = 1 - sg) by (pose proof (sin2_cos2 a) as T; unfold Rsqr in T; unfold sg; lra). assert (SH : 0 < sinh b) by (rewrite <- sinh_0'; apply sinh_lt; exact B). pose proof (cosh_square b) as CH. fold h in CH. assert (CP : 0 < cosh b) by (unfold cosh; pose proof (exp_pos b); pose proof (exp_pos (- b)); lra).
  assert (SG : 0 < sg < 1) by (unfold sg in *; split; nra). assert (HP : 0 < h) by (unfold h; nra). set (e := / (1 - sg)). assert (EP : e * (1 - sg) = 1) by (unfold e; field; lra). assert (E1 : 1 < e) by nra.
  destruct (IVT_cor (fun x => 1 + k * k * (x * (1 + h) - 1) * (1 - x * (1 - sg)) - x) 1 e) as (x & X & E).
  - apply derivable_continuous. intros z. eexists. apply is_derive_Reals. auto_derive; [exact I|]. reflexivity.
  - lra.
  - replace (1 + k * k * (e * (1 + h) - 1) * (1 - e * (1 - sg)) - e) with (1 - e) by (rewrite EP; ring). replace (1 + k * k * (1 * (1 + h) - 1) * (1 - 1 * (1 - sg)) - 1) with (k * k * (h * sg)) by ring. assert (0 <= k * k * (h * sg)) by (apply Rmult_le_pos; nra). nra.
  - assert (XE : x < e). { destruct (Req_dec x e) as [Z|Z]; [|lra]. exfalso. rewrite Z in E. replace (1 + k * k * (e * (1 + h) - 1) * (1 - e * (1 - sg)) - e) with (1 - e) in E by (rewrite EP; ring). lra. }
    set (S2 := 1 - x * (1 - sg)). set (T2 := x * (1 + h) - 1). assert (S2R : 0 < S2 <= sg) by (unfold S2; nra). assert (T2R : 0 < T2) by (unfold T2; nra). assert (XM : x = 1 + k * k * S2 * T2) by (unfold S2, T2; lra).
    assert (SS : sqrt S2 * sqrt S2 = S2) by (apply sqrt_sqrt; lra). assert (TT : sqrt T2 * sqrt T2 = T2) by (apply sqrt_sqrt; lra). assert (SP : 0 < sqrt S2) by (apply sqrt_lt_R0; lra). assert (TP : 0 < sqrt T2) by (apply sqrt_lt_R0; lra). exists (sqrt S2), (sqrt T2). split; [split; [exact SP|nra]|]. split; [exact TP|]. split.
    + assert (KS : 0 <= k * k < 1) by nra. assert (X0 : 0 < x) by lra. exists (sqrt ((1 + T2) * (1 + k * k * T2))), (sqrt ((1 - S2) * (1 - k * k * S2))). rewrite SS, TT. assert (PV : 0 < (1 + T2) * (1 + k * k * T2)) by (apply Rmult_lt_0_compat; nra). assert (QV : 0 < (1 - S2) * (1 - k * k * S2)) by (apply Rmult_lt_0_compat; nra).
      split; [now apply sqrt_lt_R0|]. split; [now apply sqrt_lt_R0|]. split; [apply sqrt_sqrt; lra|]. split; [apply sqrt_sqrt; lra|]. rewrite <- XM. unfold csin. cbn [fst snd]. rewrite cosh_neg, sinh_neg.
      assert (F1 : sqrt S2 * sqrt ((1 + T2) * (1 + k * k * T2)) = x * (sin a * cosh b)). { rewrite <- sqrt_mult by lra. apply Rsqr_inj; [apply sqrt_pos|apply Rmult_le_pos; nra|]. rewrite Rsqr_sqrt by (apply Rmult_le_pos; lra). unfold Rsqr. transitivity (x * x * (sg * (cosh b * cosh b))); [|unfold sg; ring]. rewrite CH. assert (J : S2 * (1 + k * k * T2) = x * sg) by (transitivity (S2 + (x - 1)); [rewrite XM at 1; ring|unfold S2; ring]). transitivity ((1 + T2) * (S2 * (1 + k * k * T2))); [ring|]. rewrite J. unfold T2. ring. }
      assert (F2 : sqrt T2 * sqrt ((1 - S2) * (1 - k * k * S2)) = x * (cos a * sinh b)). { rewrite <- sqrt_mult by lra. apply Rsqr_inj; [apply sqrt_pos|apply Rmult_le_pos; nra|]. rewrite Rsqr_sqrt by (apply Rmult_le_pos; lra). unfold Rsqr. transitivity (x * x * (cos a * cos a * h)); [|unfold h; ring]. rewrite SC. assert (J : T2 * (1 - k * k * S2) = x * h) by (transitivity (T2 - (x - 1)); [rewrite XM at 1; ring|unfold T2; ring]). transitivity ((1 - S2) * (T2 * (1 - k * k * S2))); [ring|]. rewrite J. unfold S2. ring. }
      rewrite F1, F2. f_equal; field; lra.
    + rewrite SS. split; [|lra]. rewrite TT, CH. fold h. assert (TE : T2 = (1 + k * k * S2 * T2) * (1 + h) - 1) by (rewrite <- XM; reflexivity). assert (k * k * S2 * T2 <= k * k * T2) by (assert (0 <= k * k * T2) by (apply Rmult_le_pos; nra); nra). nra.
Qed.

(* cd at such a point *)
Lemma cd_ratio (q w : C) k s t c : 0 < k < 1 -> 0 < s < 1 -> 0 < t -> coords k w s t -> 0 < fst q -> 0 <= c ->
  Cmult (Cmult q q) (Cminus (RtoC 1) (Cmult (RtoC (k * k)) (Cmult w w))) = Cminus (RtoC 1) (Cmult w w) ->
  c * (1 - k * k * (s * s)) <= 1 - s * s -> c * (snd q * snd q) <= fst q * fst q /\ fst q <= 1 + t * t /\ snd q <= t /\ c <= fst q * fst q * ((2 + t * t) * (2 + t * t)).
Proof.
  intros K S T (p & r & P & R0 & PP & RR & WE) Q CP E B. assert (S2 : 0 < s * s < 1) by nra. assert (T2 : 0 < t * t) by nra. assert (K2 : 0 < k * k < 1) by nra.
  assert (V1 : 0 < 1 - s * s) by lra. assert (V2 : 0 < 1 - k * k * (s * s)) by nra. assert (V3 : 0 < 1 + t * t) by lra. assert (V4 : 0 < 1 + k * k * (t * t)) by nra.
  pose proof (sqrt_lt_R0 _ V1) as c0. pose proof (sqrt_lt_R0 _ V2) as d0. pose proof (sqrt_lt_R0 _ V3) as e0. pose proof (sqrt_lt_R0 _ V4) as f0.
  assert (cc := sqrt_sqrt _ (Rlt_le _ _ V1)). assert (dd := sqrt_sqrt _ (Rlt_le _ _ V2)). assert (ee := sqrt_sqrt _ (Rlt_le _ _ V3)). assert (ff := sqrt_sqrt _ (Rlt_le _ _ V4)).
  set (x := sqrt (1 - s * s)) in *. set (d := sqrt (1 - k * k * (s * s))) in *. set (y := sqrt (1 + t * t)) in *. set (e := sqrt (1 + k * k * (t * t))) in *. clearbody x d y e.
  assert (PE : p = y * e). { apply Rsqr_inj; [lra|nra|]. unfold Rsqr. rewrite PP. transitivity ((y * y) * (e * e)); [rewrite ee, ff; reflexivity|ring]. }
  assert (RE : r = x * d). { apply Rsqr_inj; [lra|nra|]. unfold Rsqr. rewrite RR. transitivity ((x * x) * (d * d)); [rewrite cc, dd; reflexivity|ring]. }
  set (n := 1 + k * k * (s * s) * (t * t)) in *. assert (NP : 0 < n) by (unfold n; assert (0 <= k * k * (s * s) * (t * t)) by (repeat apply Rmult_le_pos; lra); lra).
  set (u := (x * y, s * d * t * e) : C). set (v := (d * e, k * k * s * x * t * y) : C).
  assert (UU : Cmult u u = Cmult (RtoC (n * n)) (Cminus (RtoC 1) (Cmult w w))).
  { rewrite WE, PE, RE. unfold u, Cmult, Cminus, Cplus, Copp, RtoC. cbn [fst snd]. apply injective_projections; cbn [fst snd].
    - transitivity ((x * x) * (y * y) - s * s * (t * t) * (d * d) * (e * e)); [ring|]. transitivity (n * n - (s * s * (y * y) * (e * e) - t * t * (x * x) * (d * d))); [|field; lra]. rewrite cc, dd, ee, ff. unfold n. ring.
    - field. lra. }
  assert (VV : Cmult v v = Cmult (RtoC (n * n)) (Cminus (RtoC 1) (Cmult (RtoC (k * k)) (Cmult w w)))).
  { rewrite WE, PE, RE. unfold v, Cmult, Cminus, Cplus, Copp, RtoC. cbn [fst snd]. apply injective_projections; cbn [fst snd].
    - transitivity ((d * d) * (e * e) - k * k * (k * k) * (s * s) * (t * t) * (x * x) * (y * y)); [ring|]. transitivity (n * n - k * k * (s * s * (y * y) * (e * e) - t * t * (x * x) * (d * d))); [|field; lra]. rewrite cc, dd, ee, ff. unfold n. ring.
    - field. lra. }
  assert (F : Cmult (Cminus (Cmult q v) u) (Cplus (Cmult q v) u) = RtoC 0). { transitivity (Cminus (Cmult (Cmult q q) (Cmult v v)) (Cmult u u)); [ring|]. rewrite VV, UU, <- E. ring. }
  assert (W : 0 < (d * e) * (d * e)) by (assert (0 < d * e) by nra; nra). set (g := k * k * s * x * t * y). assert (G2 : 0 <= g * g) by apply Rle_0_sqr. set (V := (d * e) * (d * e) + g * g). assert (VP : 0 < V) by (unfold V; lra).
  assert (X : forall sg, Cmult q v = Cmult (RtoC sg) u -> fst q * V = sg * (p * r * n) /\ snd q * V = sg * (s * t * (1 - k * k) * n)).
  { intros sg Z. assert (Z' : Cmult q (RtoC V) = Cmult (RtoC sg) (Cmult u (Cconj v))). { transitivity (Cmult (Cmult q v) (Cconj v)); [|rewrite Z; ring]. destruct q as [q1 q2]. unfold v, Cconj, Cmult, RtoC, V. fold g. cbn [fst snd]. f_equal; ring. }
    destruct q as [q1 q2]. unfold u, v, Cconj, Cmult, RtoC in Z'. cbn [fst snd] in Z' |- *. injection Z' as Z1 Z2. split.
    - transitivity (q1 * V - q2 * 0); [ring|]. rewrite Z1, PE, RE. unfold n. ring.
    - transitivity (q1 * 0 + q2 * V); [ring|]. rewrite Z2. transitivity (sg * (s * t * ((d * d) * (e * e) - k * k * (x * x) * (y * y)))); [ring|]. rewrite cc, dd, ee, ff. unfold n. ring. }
  assert (PR : 0 < p * r * n) by (repeat apply Rmult_lt_0_compat; assumption).
  assert (Y : fst q * V = p * r * n /\ snd q * V = s * t * (1 - k * k) * n).
  { destruct (Ceq_dec (Cminus (Cmult q v) u) (RtoC 0)) as [Z|Z].
    - destruct (X 1) as (X1 & X2); [transitivity (Cplus (Cminus (Cmult q v) u) u); [ring|rewrite Z; ring]|]. lra.
    - destruct (Ceq_dec (Cplus (Cmult q v) u) (RtoC 0)) as [Z2|Z2]; [|exfalso; now apply (Cmult_neq_0 _ _ Z Z2)]. exfalso. destruct (X (-1)) as (X1 & _); [transitivity (Cminus (Cplus (Cmult q v) u) u); [ring|rewrite Z2; replace (RtoC (-1)) with (Copp (RtoC 1)) by (apply injective_projections; cbn; lra); ring]|]. assert (0 < fst q * V) by (apply Rmult_lt_0_compat; assumption). lra. }
  destruct Y as (Y1 & Y2). assert (KS : 0 <= k * k * (s * s) < 1) by nra. assert (XD : x <= d) by nra. assert (DY : d <= 1 <= y /\ 1 <= e <= y). { split; [split; nra|split; nra]. } assert (KT : 0 <= k * k * (t * t)) by nra. assert (NE : 1 <= n <= e * e). { rewrite ff. unfold n. set (a := k * k) in *. set (b := s * s) in *. set (j := t * t) in *. clearbody a b j. assert (0 <= a * j) by nra. assert (a * b * j = (a * j) * b) by ring. nra. }
  assert (V1' : (d * e) * (d * e) <= V) by (unfold V; lra). split; [|split; [|split]].
  2:{ apply (Rmult_le_reg_r V); [exact VP|]. rewrite Y1, PE, RE. apply Rle_trans with ((1 + t * t) * ((d * e) * (d * e))); [|apply Rmult_le_compat_l; lra]. rewrite <- ee. replace (y * e * (x * d) * n) with ((y * e * d) * (x * n)) by ring. replace (y * y * (d * e * (d * e))) with ((y * e * d) * (d * (y * e))) by ring. assert (YE : 0 < y * e * d) by (repeat apply Rmult_lt_0_compat; lra). apply Rmult_le_compat_l; [lra|]. apply Rmult_le_compat; [lra|lra|exact XD|]. apply Rle_trans with (e * e); [lra|]. apply Rmult_le_compat_r; lra. }
  2:{ apply (Rmult_le_reg_r V); [exact VP|]. rewrite Y2. apply Rle_trans with (t * ((d * e) * (d * e))); [|apply Rmult_le_compat_l; lra]. replace (s * t * (1 - k * k) * n) with (t * (s * ((1 - k * k) * n))) by ring. apply Rmult_le_compat_l; [lra|]. replace (d * e * (d * e)) with ((d * d) * (e * e)) by ring. assert (A1 : (1 - k * k) * n <= (d * d) * (e * e)) by (apply Rmult_le_compat; nra). assert (0 <= (1 - k * k) * n) by (apply Rmult_le_pos; lra). nra. }
  2:{ assert (GB : g * g <= (d * e) * (d * e) * (y * y)). { unfold g. replace (k * k * s * x * t * y * (k * k * s * x * t * y)) with ((k * k * (s * s)) * (k * k * (t * t)) * (x * x) * (y * y)) by ring. apply Rmult_le_compat_r; [nra|]. replace (d * e * (d * e)) with ((e * e) * (d * d)) by ring. apply Rmult_le_compat; [apply Rmult_le_pos; lra|nra| |nra]. rewrite ff. nra. }
    assert (VB : V <= (d * e) * (d * e) * (2 + t * t)) by (unfold V; rewrite ee in GB; lra). apply (Rmult_le_reg_r (V * V)); [nra|]. replace (fst q * fst q * ((2 + t * t) * (2 + t * t)) * (V * V)) with ((fst q * V) * (fst q * V) * ((2 + t * t) * (2 + t * t))) by ring. rewrite Y1, PE, RE.
    apply Rle_trans with (c * ((d * e) * (d * e) * (2 + t * t) * ((d * e) * (d * e) * (2 + t * t)))); [apply Rmult_le_compat_l; [exact CP|apply Rmult_le_compat; lra]|]. replace (c * (d * e * (d * e) * (2 + t * t) * (d * e * (d * e) * (2 + t * t)))) with ((c * (d * d)) * ((e * e) * ((d * d) * (e * e))) * ((2 + t * t) * (2 + t * t))) by ring. apply Rmult_le_compat_r; [nra|].
    replace (y * e * (x * d) * n * (y * e * (x * d) * n)) with ((x * x) * ((y * y) * ((d * d) * (e * e)) * (n * n))) by ring. assert (B2 : c * (d * d) <= x * x) by (rewrite dd, cc; exact B). assert (DE : 0 <= (d * d) * (e * e)) by (apply Rmult_le_pos; nra). apply Rmult_le_compat; [apply Rmult_le_pos; nra|apply Rmult_le_pos; nra|exact B2|]. assert (N2 : 1 <= n * n) by nra. set (z := d * d * (e * e)) in *. apply Rle_trans with (y * y * z); [apply Rmult_le_compat_r; nra|]. rewrite <- (Rmult_1_r (y * y * z)) at 1. apply Rmult_le_compat_l; [apply Rmult_le_pos; nra|exact N2]. }
  apply (Rmult_le_reg_r (V * V)); [nra|]. replace (c * (snd q * snd q) * (V * V)) with (c * ((snd q * V) * (snd q * V))) by ring. replace (fst q * fst q * (V * V)) with ((fst q * V) * (fst q * V)) by ring. rewrite Y1, Y2.
  replace (c * (s * t * (1 - k * k) * n * (s * t * (1 - k * k) * n))) with (c * ((s * s) * (t * t) * ((1 - k * k) * (1 - k * k))) * (n * n)) by ring. replace (p * r * n * (p * r * n)) with ((p * p) * (r * r) * (n * n)) by ring. apply Rmult_le_compat_r; [nra|]. rewrite PP, RR.
  assert (I1 : 1 - k * k <= 1 - k * k * (s * s)) by nra. set (D := 1 - k * k * (s * s)) in *. assert (I2 : (1 - k * k) * (1 - k * k) <= D * D) by nra. assert (I3 : (s * s) * (t * t) * ((1 - k * k) * (1 - k * k)) <= t * t * (D * D)). { apply Rle_trans with (1 * (t * t) * ((1 - k * k) * (1 - k * k))); [apply Rmult_le_compat_r; [nra|apply Rmult_le_compat_r; lra]|]. rewrite Rmult_1_l. apply Rmult_le_compat_l; lra. }
  apply Rle_trans with (c * (t * t * (D * D))); [apply Rmult_le_compat_l; assumption|]. replace (c * (t * t * (D * D))) with (t * t * D * (c * D)) by ring. apply Rle_trans with (t * t * D * (1 - s * s)); [apply Rmult_le_compat_l; [nra|exact B]|]. replace (t * t * D * (1 - s * s)) with (t * t * ((1 - s * s) * D)) by ring. apply Rmult_le_compat_r; [nra|]. nra.
Qed.
