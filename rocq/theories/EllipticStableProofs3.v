(* Stability of the elliptic designs of orders 2 to 10. *)
From Verif Require Import Common ListLemmas RealUtil CInt BiquadModel DesignSpec CascadeSpec PoleZeroModel PoleZeroSpec PoleZeroProofs PoleZeroProofs3 PoleZeroProofs9 ComplexModel ComplexProofs EllipticModel EllipticSpec EllipticProofs2 EllipticProofs3 EllipticProofs4 EllipticProofs5 EllipticProofs6 EllipticAxisProofs EllipticAxisProofs2 ZpkModel ZpkSpec ZpkProofs ZpkProofs2 ZpkProofs5 ZpkProofs7 EllipticDesignModel EllipticDesignSpec EllipticDesignProofs EllipticDesignProofs2 EllipticDesignProofs3 EllipticDesignProofs4 EllipticDesignProofs5 EllipticDesignProofs6 EllipticStableProofs EllipticStableProofs2 DesignProofs3.
From Coquelicot Require Import Coquelicot.
Local Open Scope R_scope.
Local Notation C := Complex.C.

Lemma exp_low x : 0 <= x -> 1 + x + x * x / 2 <= exp x.
Proof. intros X. pose proof (exp_ineq1_le (x / 2)) as E. replace (exp x) with (exp (x / 2) * exp (x / 2)) by (rewrite <- exp_plus; f_equal; field). assert (1 + x / 2 <= exp (x / 2)) by lra. destruct (Req_dec x 0) as [->|NX]; [replace (0 / 2) with 0 by field; rewrite exp_0; lra|].
  assert (D : forall y, 0 <= y -> 1 + y + y * y / 2 <= exp y); [|rewrite <- exp_plus; replace (x / 2 + x / 2) with x by field; now apply D].
  intros y Y. destruct (MVT_gen (fun y => exp y - (1 + y + y * y / 2)) 0 y (fun y => exp y - (1 + y))) as (c & C1 & E1).
  - intros z _. auto_derive; [exact I|]. field.
  - intros z _. apply derivable_continuous_pt. eexists. apply is_derive_Reals. auto_derive; [exact I|reflexivity].
  - rewrite Rmin_left, Rmax_right in C1 by lra. rewrite exp_0 in E1. pose proof (exp_ineq1_le c). nra.
Qed.
Lemma exp_pow_low x n : 0 <= x -> (1 + x + x * x / 2) ^ n <= exp (INR n * x).
Proof. intros X. induction n as [|n IH]; [cbn [INR pow]; rewrite Rmult_0_l, exp_0; lra|]. rewrite S_INR, Rmult_plus_distr_r, Rmult_1_l, exp_plus. cbn [pow]. rewrite (Rmult_comm (exp (INR n * x))). pose proof (exp_low x X). apply Rmult_le_compat; [nra|apply pow_le; nra|assumption|exact IH]. Qed.
Lemma ln_ratio : ln (200 / 47) <= 145 / 100.
Proof. rewrite <- (ln_exp (145 / 100)). apply ln_mono; [lra|]. replace (145 / 100) with (INR 29 * (5 / 100)) by (rewrite INR_IZR_INZ; change (Z.of_nat 29) with 29%Z; lra). apply Rle_trans with (2 := exp_pow_low (5 / 100) 29 ltac:(lra)). lra. Qed.
Lemma arcsinh_ripple y : 0 < y -> y * y <= 5 -> arcsinh y <= 155 / 100.
Proof.
  intros Y Y5. unfold arcsinh. assert (S : sqrt (y ^ 2 + 1) <= 245 / 100). { rewrite <- (sqrt_square (245 / 100)) by lra. apply sqrt_le_1_alt. replace (y ^ 2) with (y * y) by ring. lra. } assert (Y2 : y <= 2237 / 1000) by nra. pose proof (sqrt_pos (y ^ 2 + 1)).
  rewrite <- (ln_exp (155 / 100)). apply ln_mono; [lra|]. replace (155 / 100) with (INR 31 * (5 / 100)) by (rewrite INR_IZR_INZ; change (Z.of_nat 31) with 31%Z; lra). apply Rle_trans with (2 := exp_pow_low (5 / 100) 31 ltac:(lra)). lra.
Qed.
Lemma degree_low ex n k1 : (2 <= n <= 10)%Z -> / 2 ^ 53 <= k1 * k1 -> / 2 ^ 27 <= k1 <= 101 / 1000 ->
  exists k, solve_degree (c_functions ex) n k1 = Ok k /\ 0 < k /\ exists kp, 4 * (47 / 200) ^ Z.to_nat n <= kp < 1 /\ k * k = 1 - kp * kp /\ k1 * k1 <= k * k.
Proof.
  intros N K2 K1. pose proof pow53 as P53. assert (P27 : 0 < / 2 ^ 27) by (apply Rinv_0_lt_compat; lra). unfold solve_degree. rewrite Rleb_true by nra. cbn [oguard]. cbv zeta. set (s := sqrt (1 - k1 * k1)). assert (S0 : 0 < s) by (apply sqrt_lt_R0; nra). assert (SS : s * s = 1 - k1 * k1) by (apply sqrt_sqrt; nra). rewrite SS. cbn [f_k c_functions].
  destruct (k_finite (1 - k1 * k1) ltac:(nra)) as (v & V & VP). rewrite V. cbn [finite_k obind]. destruct (product_low ex n (1 - k1 * k1) v ltac:(nra) V (pair_indices n) 1 (indices_tight n ltac:(lia)) ltac:(lra)) as (r & E & B & LP). rewrite E. cbn [obind]. pose proof (low_bound n N) as LB.
  set (l := low_product n (pair_indices n)) in *. set (kp := s ^ Z.to_nat n * r ^ 4). rewrite Rmult_1_l in B. assert (S1 : 994 / 1000 <= s < 1) by nra.
  assert (L1 : 4 * (47 / 200) ^ Z.to_nat n <= kp). { apply Rle_trans with (1 := LB). unfold kp. apply Rmult_le_compat; [apply pow_le; lra|apply pow_le; lra| |]; apply pow_incr; lra. }
  assert (L0 : 0 < 4 * (47 / 200) ^ Z.to_nat n) by (apply Rmult_lt_0_compat; [lra|apply pow_lt; lra]).
  assert (U : kp < 1). { unfold kp. assert (A : s ^ Z.to_nat n < 1) by (apply pow_lt_1_compat; [lra|lia]). assert (A0 : 0 <= s ^ Z.to_nat n) by (apply pow_le; lra). assert (A8 : 0 <= r ^ 4 <= 1) by (split; [apply pow_le; lra|rewrite <- (pow1 4); apply pow_incr; lra]). nra. }
  assert (KP : 0 < kp) by lra. rewrite Rleb_true by nra. cbn [oguard]. eexists. split; [reflexivity|]. split; [apply sqrt_lt_R0; nra|]. exists kp. split; [lra|]. rewrite sqrt_sqrt by nra. split; [reflexivity|]. assert (KS : kp <= s). { unfold kp. assert (A8 : 0 <= r ^ 4 <= 1) by (split; [apply pow_le; lra|rewrite <- (pow1 4); apply pow_incr; lra]). replace (Z.to_nat n) with (S (Z.to_nat n - 1)) by lia. cbn [pow]. assert (A : 0 <= s ^ (Z.to_nat n - 1) <= 1) by (split; [apply pow_le; lra|rewrite <- (pow1 (Z.to_nat n - 1)); apply pow_incr; lra]). assert (s * s ^ (Z.to_nat n - 1) <= s) by nra. assert (0 <= s * s ^ (Z.to_nat n - 1)) by nra. nra. } nra.
Qed.
(* all roots of the pairs *)
Definition good_pair (k : R) (pr : cplx * cplx) : Prop := (exists z, 1 / 10 <= z < 1 /\ fst pr = (0, 1 / (k * z))) /\ fst (snd pr) < 0 /\ 0 < snd (snd pr) /\ fst (snd pr) * fst (snd pr) <= 100 * (snd (snd pr) * snd (snd pr)) /\ - 200 <= fst (snd pr) /\ / 1000000 <= snd (snd pr) <= 100000.
Lemma pairs_good ex n m k L v0 b : 0 < k -> k * k = m -> 0 <= m <= 1 - / 2 ^ 53 -> elliptic_k m = Ok (Some L) ->
  (forall a, 0 < a < PI / 2 -> exists q : C, jacobi_cd ex (c_functions ex) (a * (2 / PI * L), - (b * (2 / PI * L))) m = Ok q /\ 0 < fst q /\ 0 < snd q /\ cos a * cos a * (snd q * snd q) <= fst q * fst q /\ fst q <= 40001 /\ snd q <= 200 /\ cos a * cos a <= fst q * fst q * (40002 * 40002)) -> - v0 * L = - (b * (2 / PI * L)) ->
  forall l, tight_args n l -> exists ps, root_pairs ex (c_functions ex) n k L v0 l = Ok ps /\ forall p, In p ps -> good_pair k p.
Proof.
  intros K KM M V CD VB. pose proof PI_RGT_0 as PP. induction l as [|i l IH]; intros A; cbn [root_pairs]; [exists []; split; [reflexivity|intros p []]|].
  set (t := (2 * INR i + 1) / IZR n). assert (T : 0 < t <= 9 / 10) by (apply A; now left). destruct (IH (fun j Hj => A j (or_intror Hj))) as (ps & E & G). unfold root_pair. cbv zeta. rewrite KM. replace (argument n L i) with (t * L) by (unfold argument, t, Rdiv; ring). destruct (cd_low ex m L t M V ltac:(lra)) as (z & EZ & Z). rewrite EZ. cbn [obind fst]. destruct (Reqb_spec (k * z) 0) as [X|_]; [assert (0 < k * z) by nra; lra|]. cbn [negb oguard].
  rewrite VB. replace (t * L) with (PI / 2 * t * (2 / PI * L)) by (field; lra). destruct (CD (PI / 2 * t) ltac:(nra)) as (q & Q & Q1 & Q2 & Q3 & Q4 & Q5 & Q6). rewrite Q. cbn [obind]. rewrite E. cbn [obind]. eexists. split; [reflexivity|]. intros p [<-|Hp]; [|now apply G]. split; cbn [fst snd]; [exists z; split; [exact Z|reflexivity]|]. unfold cmul. cbn [fst snd]. split; [lra|]. split; [lra|].
  pose proof (cos_low t ltac:(lra)) as CT. set (cc := cos (PI / 2 * t)) in *. assert (CC : 1 / 100 <= cc * cc) by nra. assert (0 <= snd q * snd q) by nra. split; [nra|]. split; [lra|]. split; [|lra]. destruct (Rle_dec (/ 1000000) (0 * snd q + 1 * fst q)) as [X|X]; [exact X|exfalso]. assert (fst q * fst q < / 1000000 * / 1000000) by (apply Rmult_le_0_lt_compat; lra). lra.
Qed.
Lemma tan_cap y : atan y <= PI / 2 - / 200 -> y <= 200.
Proof.
  intros A. destruct (Rle_dec y 200) as [X|X]; [exact X|exfalso]. assert (Y : 0 < y) by lra. assert (B : atan (/ y) = PI / 2 - atan y) by now apply atan_inv. pose proof (Rinv_0_lt_compat y Y) as I. assert (AI : 0 < atan (/ y)) by (rewrite <- atan_0; now apply atan_increasing). assert (/ y < / 200) by (apply Rinv_lt_contravar; lra). pose proof (atan_bound (/ y)). pose proof (DesignProofs3.tan_gt (atan (/ y)) ltac:(lra)) as G. rewrite tan_atan in G. lra.
Qed.
(* everything the roots are made of *)
Lemma stable_parts ex n ep es : (2 <= n <= 10)%Z -> 0 < es -> 0 < ep <= 500 -> 1 / 5 <= ep * ep -> / 2 ^ 53 <= ep / es * (ep / es) -> / 2 ^ 27 <= ep / es <= 101 / 1000 ->
  exists k rs ps, (0 < k < 1 /\ ep / es <= k /\ elliptic_roots ex (c_functions ex) n ep es = Ok (rs, ps) /\ (forall r, In r rs -> r < 0) /\ (forall p, In p ps -> good_pair k p)) /\
    exists ks b u L1 v0, solve_degree (c_functions ex) n (ep / es) = Ok k /\ k * k <= 1 - / 10 ^ 12 /\ landen_sequence (k * k) = Ok (k, ks) /\ moduli (k * k) k ks /\ ks <> [] /\ 0 < b <= 2 /\ 101 / 100 * b * product ks < K (1 - k * k) /\
      elliptic_k (ep / es * (ep / es)) = Ok (Some L1) /\ inverse_sn ex (c_functions ex) (0, 1 / ep) (ep / es * (ep / es)) = Ok (0, u) /\ 0 < L1 /\ v0 = u / (IZR n * L1) /\ v0 * k_from_landen ks = b * product ks /\
      real_poles (c_functions ex) n k (k_from_landen ks) v0 = Ok rs /\ root_pairs ex (c_functions ex) n k (k_from_landen ks) v0 (pair_indices n) = Ok ps.
Proof.
  intros N ES EP E5 K2 K1. unfold elliptic_roots. destruct (Reqb_spec es 0) as [X|_]; [lra|]. cbn [negb oguard]. cbv zeta. set (k1 := ep / es) in *. assert (P27 : 0 < / 2 ^ 27) by (apply Rinv_0_lt_compat; lra). destruct (degree_low ex n k1 N K2 K1) as (k & D & KP & kp & KR & KK & KG). rewrite D. cbn [obind f_k c_functions].
  assert (P12 : / 10 ^ 12 <= / 100) by (apply Rinv_le_contravar; lra). assert (KL : 4 * (47 / 200) ^ 10 <= 4 * (47 / 200) ^ Z.to_nat n <= 23 / 100). { assert (NN : (2 <= Z.to_nat n <= 10)%nat) by lia. split; [apply Rmult_le_compat_l; [lra|]; replace 10%nat with ((10 - Z.to_nat n) + Z.to_nat n)%nat by lia; rewrite pow_add; rewrite <- (Rmult_1_l ((47 / 200) ^ Z.to_nat n)) at 2; apply Rmult_le_compat_r; [apply pow_le; lra|]; rewrite <- (pow1 (10 - Z.to_nat n)); apply pow_incr; lra|].
    replace (Z.to_nat n) with (2 + (Z.to_nat n - 2))%nat by lia. rewrite pow_add. assert ((47 / 200) ^ (Z.to_nat n - 2) <= 1) by (rewrite <- (pow1 (Z.to_nat n - 2)); apply pow_incr; lra). assert (0 <= (47 / 200) ^ (Z.to_nat n - 2)) by (apply pow_le; lra). nra. }
  set (pm := 4 * (47 / 200) ^ Z.to_nat n) in *. assert (PM : 2 / 10 ^ 6 <= pm) by lra. assert (KQ : / 10 ^ 12 <= kp * kp) by nra. assert (K01 : 0 < k < 1) by nra. pose proof pow53 as P53.
  destruct (k_small (k * k) ltac:(nra)) as (S & V). destruct (k_small (k1 * k1) ltac:(nra)) as (S1 & V1). rewrite sqrt_square in S, V by lra. rewrite sqrt_square in S1, V1 by lra. rewrite V, V1. cbn [finite_k obind]. destruct (Reqb_spec ep 0) as [X|_]; [lra|]. cbn [negb oguard].
  destruct (inverse_sn_imag ex (1 / ep) (k1 * k1) ltac:(nra)) as (u & y' & IS & Y & U & U0 & _). { replace (/ 500) with (1 / 500) by lra. unfold Rdiv. rewrite !Rmult_1_l. apply Rinv_le_contravar; lra. } rewrite sqrt_square in U by lra. rewrite IS. cbn [obind snd].
  pose proof (kf_pos (k1 * k1) _ _ S1 ltac:(lra) (loop_chain 9 k1)) as L1. pose proof PerceptualProofs3.pi_range as PP.
  assert (M5 : 0 <= k * k <= 1 - / 2 ^ 53) by nra. destruct (sequence_full (k * k) M5) as (S' & MO). rewrite sqrt_square in S', MO by lra.
  assert (NE : landen_loop 9 k <> []). { rewrite <- (sqrt_square k) by lra. apply loop_nonempty. assert (/ 2 ^ 104 < / 2 ^ 53) by (apply Rinv_lt_contravar; lra). lra. }
  set (ks := landen_loop 9 k) in *. pose proof (K_close (k * k) k ks MO) as KC. destruct (kf_is (k * k) k ks MO) as (KF & PR). set (L := k_from_landen ks) in *. set (L' := k_from_landen (landen_loop 9 k1)) in *. clearbody L'.
  assert (NR : 2 <= IZR n <= 10) by (split; apply IZR_le; lia).
  (* the quarter period *)
  assert (LB : L <= 1565 / 1000 * IZR n).
  { pose proof (K_log (k * k) ltac:(nra)) as KLG. replace (1 - k * k) with (kp * kp) in KLG by lra. rewrite sqrt_square in KLG by lra. assert (QP : 0 < pm) by lra. assert (A : ln (4 / kp) = ln (4 / pm) + ln (pm / kp)). { rewrite <- ln_mult; [f_equal; field; lra| |]; apply Rdiv_lt_0_compat; lra. } pose proof (ln_le_sub (pm / kp) ltac:(apply Rdiv_lt_0_compat; lra)) as B.
    assert (Q : pm / kp - 1 + kp <= pm). { apply (Rmult_le_reg_r kp); [lra|]. replace ((pm / kp - 1 + kp) * kp) with (pm - kp + kp * kp) by (field; lra). nra. }
    assert (G : ln (4 / pm) = INR (Z.to_nat n) * ln (200 / 47)). { rewrite <- ln_pow by lra. f_equal. unfold pm. assert (0 < (47 / 200) ^ Z.to_nat n) by (apply pow_lt; lra). replace (200 / 47) with (/ (47 / 200)) by lra. rewrite pow_inv. field. lra. }
    rewrite INR_IZR_INZ, Z2Nat.id in G by lia. pose proof ln_ratio. assert (IZR n * ln (200 / 47) <= IZR n * (145 / 100)) by (apply Rmult_le_compat_l; lra). lra. }
  assert (YV : arcsinh y' <= 155 / 100). { apply arcsinh_ripple; [lra|]. assert (y' * ep <= 1). { apply Rle_trans with (1 / ep * ep); [apply Rmult_le_compat_r; lra|]. right. field. lra. } assert ((y' * ep) * (y' * ep) <= 1) by (assert (0 <= y' * ep) by nra; nra). assert ((y' * y') * (ep * ep) <= 1) by lra. assert (0 <= y' * y') by nra. nra. }
  pose proof (arcsinh_pos y' ltac:(lra)) as AP. set (b := arcsinh y' / IZR n). assert (BE : b * IZR n = arcsinh y') by (unfold b; field; lra). assert (B0 : 0 < b <= 2) by (split; [apply Rdiv_lt_0_compat; lra|nra]).
  assert (PE : 2 / PI * L = product ks) by (rewrite KF; field; lra). pose proof (K_pos (1 - k * k) ltac:(nra)) as KPI.
  assert (BL : 101 / 100 * b * product ks < K (1 - k * k)). { apply Rlt_le_trans with (PI / 2); [|lra]. apply (Rmult_lt_reg_r (PI / 2)); [lra|]. replace (101 / 100 * b * product ks * (PI / 2)) with (101 / 100 * (b * L)) by (rewrite KF; ring). assert (b * L <= 1565 / 1000 * (b * IZR n)) by nra. rewrite BE in H. nra. }
  destruct (Reqb_spec (IZR n * L') 0) as [X|_]; [exfalso; nra|]. cbn [negb oguard].
  assert (VB : u / (IZR n * L') * L = b * product ks) by (rewrite U, KF; unfold b; field; lra).
  assert (RP : exists rs, real_poles (c_functions ex) n k L (u / (IZR n * L')) = Ok rs /\ forall r, In r rs -> r < 0).
  { unfold real_poles. destruct (even_order n); [exists []; split; [reflexivity|intros r []]|]. rewrite VB. destruct (sn_axis (k * k) k ks MO NE ltac:(nra) ex b S' ltac:(lra)) as (y & YP & E). { assert (0 < b * product ks) by nra. lra. } rewrite E. cbn [obind snd]. eexists. split; [reflexivity|]. intros r [<-|[]]. lra. }
  destruct RP as (rs & RE & RN). rewrite RE. cbn [obind].
  destruct (pairs_good ex n (k * k) k L (u / (IZR n * L')) b KP eq_refl M5 V) with (l := pair_indices n) as (ps & E & G).
  - intros a A. rewrite PE. destruct (cd_stable (k * k) k ks MO NE ltac:(nra) ex a b S' A B0 BL) as (q & Q & Q1 & Q2 & Q3 & y & Y1 & Y2 & Y3 & Y4 & Y5). exists q. split; [exact Q|]. split; [exact Q1|]. split; [exact Q2|]. split; [exact Q3|].
    assert (YB : y <= 200). { apply (tan_cap y). apply Rle_trans with (1 := Y2). apply (Rmult_le_reg_r (PI / 2)); [lra|]. replace (101 / 100 * b * product ks * (PI / 2)) with (101 / 100 * (b * L)) by (rewrite KF; ring). assert (b * L <= 1565 / 1000 * (b * IZR n)) by nra. rewrite BE in H. nra. }
    assert (YY : 0 <= y * y <= 40000) by nra. split; [lra|]. split; [lra|]. apply Rle_trans with (1 := Y5). apply Rmult_le_compat_l; nra.
  - rewrite PE. lra.
  - apply indices_tight. lia.
  - rewrite E. cbn [obind]. exists k, rs, ps. split; [split; [exact K01|]; split; [nra|]; split; [reflexivity|]; split; [exact RN|exact G]|].
    exists ks, b, u, L', (u / (IZR n * L')). fold L. split; [first [exact D|reflexivity]|]. split; [nra|]. split; [exact S'|]. split; [exact MO|]. split; [exact NE|]. split; [exact B0|]. split; [exact BL|]. split; [first [exact V1|reflexivity]|]. split; [first [exact IS|reflexivity]|]. split; [exact L1|]. split; [reflexivity|]. split; [exact VB|]. split; [first [exact RE|reflexivity]|first [exact E|reflexivity]].
Qed.
Lemma stable_roots ex n ep es : (2 <= n <= 10)%Z -> 0 < es -> 0 < ep <= 500 -> 1 / 5 <= ep * ep -> / 2 ^ 53 <= ep / es * (ep / es) -> / 2 ^ 27 <= ep / es <= 101 / 1000 ->
  exists k rs ps, 0 < k < 1 /\ ep / es <= k /\ elliptic_roots ex (c_functions ex) n ep es = Ok (rs, ps) /\ (forall r, In r rs -> r < 0) /\ (forall p, In p ps -> good_pair k p).
Proof. intros N ES EP E5 K2 K1. destruct (stable_parts ex n ep es N ES EP E5 K2 K1) as (k & rs & ps & A & _). now exists k, rs, ps. Qed.
