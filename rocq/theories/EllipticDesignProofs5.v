(* The second-order design for moderate ripples: the degree equation almost exactly, and the pole in the left half plane. *)
From Coq Require Import ZArith Reals Lra Lia List Bool.
From Coquelicot Require Import Coquelicot.
From Verif Require Import Common RealUtil CInt ComplexModel ComplexProofs EllipticModel EllipticSpec EllipticProofs EllipticProofs2 EllipticProofs3 EllipticProofs4 EllipticProofs5 EllipticProofs6 EllipticDesignModel EllipticDesignSpec EllipticDesignProofs.
Import ListNotations.
Local Open Scope R_scope.
Local Notation C := Complex.C.

Lemma sin_lip a b : Rabs (sin a - sin b) <= Rabs (a - b).
Proof.
  destruct (MVT_gen sin b a cos) as (c & _ & E); [intros; apply is_derive_Reals, derivable_pt_lim_sin|intros; apply continuity_sin|]. rewrite E, Rabs_mult. rewrite <- (Rmult_1_l (Rabs (a - b))) at 2. apply Rmult_le_compat_r; [apply Rabs_pos|]. apply Rabs_le. apply COS_bound.
Qed.
Lemma sin_t0 x : 0 < x -> sin (atan (/ sqrt x)) * sin (atan (/ sqrt x)) = / (1 + x).
Proof.
  intros X. assert (S : 0 < sqrt x) by now apply sqrt_lt_R0. assert (SS : sqrt x * sqrt x = x) by (apply sqrt_sqrt; lra). pose proof (atan_bound (/ sqrt x)) as B. assert (CP : 0 < cos (atan (/ sqrt x))) by (apply cos_gt_0; lra).
  pose proof (tan_atan (/ sqrt x)) as T. pose proof (sin2_cos2 (atan (/ sqrt x))) as P. unfold tan in T. unfold Rsqr in P. set (c := cos _) in *. set (s := sin _) in *. assert (E : c = s * sqrt x) by (assert (s = c * (s / c)) by (field; lra); rewrite T in H; rewrite H; field; lra).
  apply (Rmult_eq_reg_r (1 + x)); [|lra]. rewrite Rinv_l by lra. assert (c * c = s * s * x) by (rewrite E; replace (s * sqrt x * (s * sqrt x)) with (s * s * (sqrt x * sqrt x)) by ring; now rewrite SS). lra.
Qed.
Lemma ln_29 x : / 2 ^ 27 <= x -> ln (4 / x) <= 29.
Proof.
  intros X. assert (XP : 0 < x) by (assert (0 < / 2 ^ 27) by (apply Rinv_0_lt_compat; lra); lra). apply Rle_trans with (ln (2 ^ 29)).
  - apply ln_mono; [apply Rdiv_lt_0_compat; lra|]. apply (Rmult_le_reg_r x); [lra|]. unfold Rdiv. rewrite Rmult_assoc, Rinv_l by lra. assert (2 ^ 29 * / 2 ^ 27 <= 2 ^ 29 * x) by (apply Rmult_le_compat_l; lra). lra.
  - rewrite <- Rpower_pow by lra. unfold Rpower. rewrite ln_exp. assert (ln 2 <= 1) by (pose proof (ln_le_sub 2); lra). cbn [INR]. lra.
Qed.
(* sn at half the quarter period *)
Lemma sn_half ex k1 v : 0 < k1 < 1 -> / 2 ^ 27 <= k1 -> 1 - k1 * k1 <= 1 - / 2 ^ 53 -> elliptic_k (1 - k1 * k1) = Ok (Some v) ->
  exists y, jacobi_sn (c_functions ex) (v / 2, 0) (1 - k1 * k1) = Ok (y, 0) /\ / (1 + k1) - / 10 ^ 8 <= y * y /\ 0 < y < 1.
Proof.
  intros KK B M V. set (m := 1 - k1 * k1) in *. assert (MM : 0 <= m <= 1 - / 2 ^ 53) by (unfold m in *; split; nra). pose proof (m_lt m MM) as M1. pose proof pow53 as P53.
  assert (VK : Rabs (v - K m) <= / 10 ^ 12 * K m).
  { destruct (Rle_dec m (1 - / 10 ^ 12)) as [A|A].
    - unfold elliptic_k in V. destruct (Reqb_spec m 1) as [X|_]; [lra|]. rewrite Rltb_false in V by lra. destruct (sequence_ok m MM) as (k & ks & S & H). rewrite S in V. cbn [obind] in V. pose proof (K_close m k ks H) as KC. assert (V' : k_from_landen ks = v) by (clear - V; congruence). rewrite V' in KC. pose proof (K_pos m M1). pose proof PI_RGT_0. assert (/ 2 ^ 104 <= / 10 ^ 12) by (apply Rinv_le_contravar; lra). apply Rabs_le. split; nra.
    - pose proof (asymptotic m ltac:(lra)) as AS. cbv zeta in AS. unfold elliptic_k in V. destruct (Reqb_spec m 1) as [X|_]; [lra|]. rewrite Rltb_true in V by lra. rewrite Rltb_false in V by lra. cbv zeta in V. set (x := _ + _) in *. assert (V' : x = v) by (clear - V; congruence). rewrite <- V'. exact AS. }
  assert (KB : K m <= 30). { destruct (K_log m M1) as (_ & U). cbv zeta in U. assert (E : sqrt (1 - m) = k1) by (unfold m; replace (1 - (1 - k1 * k1)) with (k1 * k1) by ring; apply sqrt_square; lra). rewrite E in U. pose proof (ln_29 k1 B). lra. }
  pose proof (K_pos m M1) as KP. pose proof PI_RGT_0 as PP. assert (VK' : - (/ 10 ^ 12 * K m) <= v - K m <= / 10 ^ 12 * K m) by (unfold Rabs in VK; destruct (Rcase_abs (v - K m)); lra).
  destruct (amplitude_close ex m (v / 2) MM) as (phi & E & P & D). { rewrite Rabs_pos_eq by lra. lra. }
  pose proof (K_twice m M1) as KT. cbv zeta in KT. replace (sqrt (1 - m)) with k1 in KT by (unfold m; replace (1 - (1 - k1 * k1)) with (k1 * k1) by ring; symmetry; apply sqrt_square; lra). set (t0 := atan (/ sqrt k1)) in *.
  assert (D' : Rabs (phi - t0) <= / 10 ^ 10).
  { apply Rle_trans with (1 := F_apart m phi t0 M1). replace (F phi m - F t0 m) with ((F phi m - v / 2) + (v / 2 - F t0 m)) by ring. apply Rle_trans with (1 := Rabs_triang _ _). assert (Rabs (v / 2 - F t0 m) <= / 10 ^ 12 * K m) by (apply Rabs_le; lra). assert (/ 2 ^ 102 <= / 10 ^ 12) by (apply Rinv_le_contravar; lra). assert (/ 2 ^ 102 * K m <= / 10 ^ 12 * K m) by (apply Rmult_le_compat_r; lra). lra. }
  pose proof (sin_lip phi t0) as SL. pose proof (sin_t0 k1 ltac:(lra)) as ST. fold t0 in ST. assert (SB : - / 10 ^ 10 <= sin phi - sin t0 <= / 10 ^ 10) by (assert (X : Rabs (sin phi - sin t0) <= / 10 ^ 10) by lra; unfold Rabs in X; destruct (Rcase_abs (sin phi - sin t0)); lra).
  exists (sin phi). split; [unfold jacobi_sn; cbn [f_am c_functions]; rewrite E; cbn [obind]; now rewrite csin_real|]. assert (IB : 1 / 2 <= / (1 + k1)) by (replace (1 / 2) with (/ 2) by lra; apply Rinv_le_contravar; lra).
  assert (T0 : 0 < sin t0). { unfold t0. pose proof (atan_bound (/ sqrt k1)). apply sin_gt_0; [|lra]. rewrite <- atan_0. apply atan_increasing, Rinv_0_lt_compat, sqrt_lt_R0. lra. } pose proof (SIN_bound t0) as S1. set (a := sin t0) in *. set (s := sin phi) in *.
  assert (A7 : 7 / 10 <= a) by nra. split; [nra|]. destruct (real_amplitude ex m v (1 / 2) MM V ltac:(lra)) as (y & E2 & Y & Y0). replace (1 / 2 * v) with (v / 2) in E2 by field. rewrite E in E2. assert (EY : phi = asin y) by (clear - E2; congruence). unfold s. rewrite EY, sin_asin; lra.
Qed.
Lemma degree_two ex k1 : / 2 ^ 53 <= k1 * k1 -> / 2 ^ 27 <= k1 <= 101 / 1000 -> exists k, solve_degree (c_functions ex) 2 k1 = Ok k /\ 0 < k /\ exists kp, 81 / 100 <= kp < 1 /\ k * k = 1 - kp * kp.
Proof.
  intros K2 KB. assert (P27 : 0 < / 2 ^ 27) by (apply Rinv_0_lt_compat; lra). assert (K : 0 < k1 < 1) by lra. unfold solve_degree. rewrite Rleb_true by nra. cbn [oguard]. cbv zeta. set (s := sqrt (1 - k1 * k1)). assert (SS : s * s = 1 - k1 * k1) by (apply sqrt_sqrt; nra). rewrite SS. cbn [f_k c_functions]. destruct (k_finite (1 - k1 * k1) ltac:(nra)) as (v & V & VP). rewrite V. cbn [finite_k obind]. change (pair_indices 2) with [0%nat]. cbn [sn_product].
  replace (argument 2 v 0) with (v / 2) by (unfold argument; cbn [INR]; field). destruct (sn_half ex k1 v K ltac:(lra) ltac:(lra) V) as (y & E & Y & Y1). rewrite E. cbn [obind fst]. change (Z.to_nat 2) with 2%nat. rewrite Rmult_1_l. set (kp := s ^ 2 * y ^ 4). assert (KP : kp = (1 - k1 * k1) * (y * y * (y * y))) by (unfold kp; rewrite <- SS; ring).
  assert (Y2 : 9082 / 10000 <= y * y < 1). { split; [|nra]. assert (90826 / 100000 <= / (1 + k1)); [|lra]. replace (90826 / 100000) with (/ (100000 / 90826)) by lra. apply Rinv_le_contravar; lra. }
  assert (K1 : 0 < k1 * k1 <= 10201 / 1000000) by nra. assert (Y4 : 82482 / 100000 <= y * y * (y * y) < 1) by nra. assert (KR : 81 / 100 <= kp < 1) by (rewrite KP; nra). rewrite Rleb_true by nra. cbn [oguard]. eexists. split; [reflexivity|]. split; [apply sqrt_lt_R0; nra|]. exists kp. split; [exact KR|]. rewrite sqrt_sqrt; [reflexivity|nra].
Qed.

(* ---------- the fourth quadrant ---------- *)
Definition n2 (w : C) : R := fst w * fst w + snd w * snd w.
Definition fourth (w : C) : Prop := 0 < fst w /\ snd w < 0.
Lemma step_fourth ex k (w : C) : 0 <= k -> fourth w -> k * n2 w < 1 ->
  exists q : C, cdiv ex w (cadd (1, 0) (cmul_real (csquare w) k)) = Ok q /\ fourth (cmul_real q (1 + k)) /\ n2 (cmul_real q (1 + k)) * ((1 - k * n2 w) * (1 - k * n2 w)) <= (1 + k) * (1 + k) * n2 w.
Proof.
  intros K (X & Y) N. destruct w as [x y]. cbn [fst snd] in X, Y. unfold n2 in *. cbn [fst snd] in N |- *. set (n := x * x + y * y) in *.
  assert (N0 : 0 < n) by (unfold n; nra). set (a := 1 + k * (x * x - y * y)). set (b := 2 * k * x * y). replace (cadd (1, 0) (cmul_real (csquare (x, y)) k)) with (a, b) by (unfold cadd, cmul_real, csquare, a, b; cbn [fst snd]; f_equal; ring).
  assert (D : a * a + b * b = (1 - k * n) * (1 - k * n) + 4 * k * (x * x)) by (unfold a, b, n; ring). assert (DP : 0 < (1 - k * n) * (1 - k * n)) by nra. assert (XX : 0 <= 4 * k * (x * x)) by nra. assert (D0 : 0 < a * a + b * b) by lra.
  rewrite cdiv_ok. 2:{ intros E. injection E as E1 E2. rewrite E1, E2 in D0. lra. }
  exists (Cdiv (x, y) (a, b)). split; [reflexivity|]. assert (Q1 : fst (Cdiv (x, y) (a, b)) = x * (1 + k * n) / (a * a + b * b)). { unfold Cdiv, Cmult, Cinv. cbn [fst snd]. assert (E : x * (1 + k * n) = x * a + y * b) by (unfold a, b, n; ring). rewrite E. field. nra. }
  assert (Q2 : snd (Cdiv (x, y) (a, b)) = y * (1 - k * n) / (a * a + b * b)). { unfold Cdiv, Cmult, Cinv. cbn [fst snd]. assert (E : y * (1 - k * n) = y * a - x * b) by (unfold a, b, n; ring). rewrite E. field. nra. }
  unfold cmul_real. cbn [fst snd]. rewrite Q1, Q2. set (d := a * a + b * b) in *. assert (KN : 0 <= k * n) by nra. split.
  - split; cbn [fst snd].
    + apply Rmult_lt_0_compat; [|lra]. apply Rdiv_lt_0_compat; [nra|lra].
    + assert (0 < - y * (1 - k * n) / d * (1 + k)). { apply Rmult_lt_0_compat; [|lra]. apply Rdiv_lt_0_compat; [nra|lra]. } replace (- y * (1 - k * n) / d * (1 + k)) with (- (y * (1 - k * n) / d * (1 + k))) in H by (field; lra). lra.
  - assert (E : x * (1 + k * n) * (x * (1 + k * n)) + y * (1 - k * n) * (y * (1 - k * n)) = n * d) by (rewrite D; unfold n; ring).
    replace (x * (1 + k * n) / d * (1 + k) * (x * (1 + k * n) / d * (1 + k)) + y * (1 - k * n) / d * (1 + k) * (y * (1 - k * n) / d * (1 + k))) with ((1 + k) * (1 + k) * (x * (1 + k * n) * (x * (1 + k * n)) + y * (1 - k * n) * (y * (1 - k * n))) / (d * d)) by (field; lra).
    rewrite E. replace ((1 + k) * (1 + k) * (n * d) / (d * d)) with ((1 + k) * (1 + k) * n / d) by (field; lra). replace ((1 + k) * (1 + k) * n / d * ((1 - k * n) * (1 - k * n))) with ((1 + k) * (1 + k) * n * ((1 - k * n) * (1 - k * n) / d)) by (field; lra).
    rewrite <- (Rmult_1_r ((1 + k) * (1 + k) * n)) at 2. apply Rmult_le_compat_l; [nra|]. apply (Rmult_le_reg_r d); [lra|]. unfold Rdiv. rewrite Rmult_assoc, Rinv_l by lra. lra.
Qed.
Lemma landen_small k : 0 <= k <= 11 / 100 -> 0 <= landen_step k <= k / 30.
Proof.
  intros K. unfold landen_step. cbv zeta. assert (S : 99 / 100 <= sqrt (1 - k * k)). { rewrite <- (sqrt_square (99 / 100)) by lra. apply sqrt_le_1_alt. nra. } set (s := sqrt (1 - k * k)) in *. assert (T : 0 <= k / (1 + s) <= k / 199 * 100). { split; [apply Rle_mult_inv_pos; lra|]. apply (Rmult_le_reg_r (1 + s)); [lra|]. unfold Rdiv at 1. rewrite Rmult_assoc, Rinv_l by lra. nra. } nra.
Qed.
Lemma ascend_fourth ex ks : forall k (w : C), 0 <= k <= 11 / 100 -> chain k ks -> fourth w -> n2 w <= 4 -> exists w' : C, ascend ex ks w = Ok w' /\ fourth w' /\ n2 w' <= n2 w * ((1 + k) * (1 + k)).
Proof.
  induction ks as [|k1 r IH]; intros k w K CH W N; cbn [ascend chain] in *; [exists w; split; [reflexivity|]; split; [exact W|]; assert (0 <= n2 w) by (unfold n2; nra); nra|].
  destruct CH as (E & CH). pose proof (landen_small k K) as L. rewrite <- E in L. destruct (IH k1 w ltac:(lra) CH W N) as (w1 & A & W1 & N1). rewrite A. cbn [obind]. assert (P0 : 0 <= n2 w) by (unfold n2; nra). assert (P1 : 0 <= n2 w1) by (unfold n2; nra).
  assert (B1 : (1 + k1) * (1 + k1) <= 101 / 100) by nra. assert (N1' : n2 w1 <= 404 / 100) by nra. destruct (step_fourth ex k1 w1 ltac:(lra) W1 ltac:(nra)) as (q & Q & F & B). rewrite Q. cbn [obind]. eexists. split; [reflexivity|]. split; [exact F|]. set (nn := n2 (cmul_real q (1 + k1))) in *. assert (P2 : 0 <= nn) by (unfold nn, n2; nra).
  set (u := 1 - k1 * n2 w1) in *. assert (U : 1 - 404 / 100 * k1 <= u <= 1) by (unfold u; nra). assert (U0 : 0 < u) by lra. set (c := 1 + k1) in *.
  assert (G : c * c <= (1 + k) * u) by (unfold c; nra). apply (Rmult_le_reg_r (u * u)); [nra|]. apply Rle_trans with (1 := B). apply Rle_trans with (c * c * (n2 w * (c * c))); [apply Rmult_le_compat_l; [nra|exact N1]|].
  replace (c * c * (n2 w * (c * c))) with (n2 w * ((c * c) * (c * c))) by ring. replace (n2 w * ((1 + k) * (1 + k)) * (u * u)) with (n2 w * (((1 + k) * u) * ((1 + k) * u))) by ring. apply Rmult_le_compat_l; [exact P0|]. assert (0 <= c * c) by nra. apply Rmult_le_compat; assumption.
Qed.
