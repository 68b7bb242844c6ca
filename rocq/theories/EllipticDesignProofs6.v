(* The second-order design for moderate ripples. *)
From Verif Require Import Common ListLemmas RealUtil CInt BiquadModel DesignSpec CascadeSpec PoleZeroModel PoleZeroSpec PoleZeroProofs PoleZeroProofs3 PoleZeroProofs9 ComplexModel ComplexProofs EllipticModel EllipticProofs2 EllipticProofs4 EllipticProofs6 ZpkModel ZpkSpec ZpkProofs ZpkProofs2 ZpkProofs5 ZpkProofs7 EllipticDesignModel EllipticDesignSpec EllipticDesignProofs EllipticDesignProofs2 EllipticDesignProofs3 EllipticDesignProofs4 EllipticDesignProofs5.
From Coquelicot Require Import Complex.
Local Open Scope R_scope.
Local Notation C := Complex.C.

(* from sn in the fourth quadrant, cd is in the first *)
Lemma cd_first ex (w phi : C) m : 0 < m < 1 -> fourth w -> csin phi = w -> - (PI / 2) <= fst phi <= PI / 2 ->
  exists q : C, cdiv ex (ccos phi) (csqrt ex (csub (1, 0) (cmul_real (csquare (csin phi)) m))) = Ok q /\ 0 < fst q /\ 0 < snd q.
Proof.
  intros M W S R1. rewrite S. destruct w as [x y], phi as [a b]. destruct W as (X & Y). cbn [fst snd] in *. unfold csin in S. cbn [fst snd] in S. injection S as S1 S2. set (c1 := cos a * cosh b). set (c2 := - (sin a * sinh b)).
  assert (CH : 0 < cosh b) by (unfold cosh; pose proof (exp_pos b); pose proof (exp_pos (- b)); lra). assert (SA : 0 < sin a) by nra. assert (CA : 0 < cos a). { destruct (Rle_lt_or_eq_dec 0 (cos a)) as [L|E]; [apply cos_ge_0; lra|exact L|rewrite <- E in S2; lra]. } assert (SH : sinh b < 0) by nra.
  assert (C1 : 0 < c1) by (unfold c1; nra). assert (C2 : 0 < c2) by (unfold c2; nra). assert (CC : ccos (a, b) = (c1, c2)) by (unfold ccos, c1, c2; cbn [fst snd]; f_equal; ring).
  assert (Q1 : c1 * c1 - c2 * c2 = 1 - (x * x - y * y)). { rewrite <- S1, <- S2. unfold c1, c2. pose proof (sin2_cos2 a) as T. unfold Rsqr in T. assert (H : cosh b * cosh b = 1 + sinh b * sinh b) by (unfold cosh, sinh; pose proof (exp_plus b (- b)) as E; rewrite Rplus_opp_r, exp_0 in E; nra). assert (T2 : cos a * cos a = 1 - sin a * sin a) by lra. transitivity (cos a * cos a * (cosh b * cosh b) - sin a * sin a * (sinh b * sinh b)); [ring|]. transitivity (1 - (sin a * sin a * (cosh b * cosh b) - cos a * cos a * (sinh b * sinh b))); [rewrite H, T2; ring|ring]. }
  assert (Q2 : c1 * c2 = - (x * y)) by (rewrite <- S1, <- S2; unfold c1, c2; ring). rewrite CC. set (D := csub (1, 0) (cmul_real (csquare (x, y)) m)). assert (DE : D = (1 - m * (x * x - y * y), - (2 * m * (x * y)))) by (unfold D, csub, cmul_real, csquare; cbn [fst snd]; f_equal; ring).
  destruct (csqrt_spec ex D) as (SQ & P1 & _). destruct (csqrt ex D) as [s1 s2]. rewrite DE in SQ. unfold cmul in SQ. cbn [fst snd] in SQ, P1. injection SQ as B1 B2. assert (XY : 0 < - (x * y)) by nra. assert (SS : s1 * s2 = m * - (x * y)) by lra. assert (SP : 0 < s1 * s2) by (rewrite SS; nra). assert (U1 : 0 < s1) by (destruct P1 as [L|E]; [exact L|rewrite <- E in SP; lra]). assert (U2 : 0 < s2) by nra.
  rewrite cdiv_ok by (intros E; injection E; lra). eexists. split; [reflexivity|]. assert (N : 0 < s1 * s1 + s2 * s2) by nra. assert (E1 : fst (Cdiv (c1, c2) (s1, s2)) = (c1 * s1 + c2 * s2) / (s1 * s1 + s2 * s2)) by (unfold Cdiv, Cmult, Cinv; cbn [fst snd]; field; nra). assert (E2 : snd (Cdiv (c1, c2) (s1, s2)) = (c2 * s1 - c1 * s2) / (s1 * s1 + s2 * s2)) by (unfold Cdiv, Cmult, Cinv; cbn [fst snd]; field; nra). rewrite E1, E2.
  assert (G : 0 < c1 * s1 + c2 * s2) by nra. split; [apply Rdiv_lt_0_compat; assumption|]. apply Rdiv_lt_0_compat; [|exact N]. assert (I : (c2 * s1 - c1 * s2) * (c1 * s1 + c2 * s2) = (1 - m) * - (x * y)). { transitivity (c1 * c2 * (s1 * s1 - s2 * s2) - s1 * s2 * (c1 * c1 - c2 * c2)); [ring|]. rewrite B1, Q1, SS, Q2. ring. }
  assert (0 < (c2 * s1 - c1 * s2) * (c1 * s1 + c2 * s2)) by (rewrite I; nra). destruct (Rlt_dec 0 (c2 * s1 - c1 * s2)) as [L|L]; [exact L|exfalso]. nra.
Qed.
Lemma cosh_square b : cosh b * cosh b = 1 + sinh b * sinh b.
Proof. unfold cosh, sinh. pose proof (exp_plus b (- b)) as E. rewrite Rplus_opp_r, exp_0 in E. nra. Qed.
Lemma cosh_double b : cosh b * cosh b + sinh b * sinh b = cosh (2 * b).
Proof. unfold cosh, sinh. replace (exp (2 * b)) with (exp b * exp b) by (rewrite <- exp_plus; f_equal; ring). replace (exp (- (2 * b))) with (exp (- b) * exp (- b)) by (rewrite <- exp_plus; f_equal; ring). field. Qed.
Lemma k_small m : 0 <= m <= 1 - / 10 ^ 12 -> landen_sequence m = Ok (sqrt m, landen_loop 9 (sqrt m)) /\ elliptic_k m = Ok (Some (k_from_landen (landen_loop 9 (sqrt m)))).
Proof.
  intros M. assert (/ 10 ^ 12 > 0) by (apply Rinv_0_lt_compat; lra). assert (S : landen_sequence m = Ok (sqrt m, landen_loop 9 (sqrt m))) by (unfold landen_sequence; rewrite !Rltb_false by lra; reflexivity). split; [exact S|]. unfold elliptic_k. destruct (Reqb_spec m 1) as [X|_]; [lra|]. rewrite Rltb_false by lra. rewrite S. reflexivity.
Qed.
(* cd at half the quarter period and a little below *)
Lemma cd_half ex k kp b : 0 < k -> k * k = 1 - kp * kp -> 81 / 100 <= kp < 1 -> 0 < b -> cosh (2 * b) <= 8 ->
  let L := k_from_landen (landen_loop 9 k) in
  exists q : C, jacobi_cd ex (c_functions ex) (L / 2, - (b * (2 / PI * L))) (k * k) = Ok q /\ 0 < fst q /\ 0 < snd q.
Proof.
  intros K KK KP B CB L. assert (K1 : 0 < k * k < 1) by nra. assert (KR : 0 <= k < 1) by nra. unfold jacobi_cd. cbn [f_am c_functions]. unfold jacobi_amplitude. assert (S : landen_sequence (k * k) = Ok (k, landen_loop 9 k)) by (unfold landen_sequence; rewrite !Rltb_false by lra; rewrite sqrt_square by lra; reflexivity). rewrite S. cbn [obind]. pose proof (loop_chain 9 k) as CH. pose proof (kf_pos (k * k) _ _ S KR CH) as LP. fold L in LP |- *. pose proof PI_RGT_0 as PP.
  replace (cmul_real (L / 2, - (b * (2 / PI * L))) (PI / 2 / L)) with ((PI / 4, - b) : cplx) by (unfold cmul_real; cbn [fst snd]; f_equal; field; lra). clearbody L. clear S. 
  assert (SH : 0 < sinh b) by (rewrite <- sinh_0'; apply sinh_lt; exact B). assert (CO : 0 < cosh b) by (unfold cosh; pose proof (exp_pos b); pose proof (exp_pos (- b)); lra). set (h := 1 / sqrt 2). assert (H2 : h * h = 1 / 2) by (unfold h; assert (Q : sqrt 2 * sqrt 2 = 2) by (apply sqrt_sqrt; lra); assert (0 < sqrt 2) by (apply sqrt_lt_R0; lra); replace (1 / sqrt 2 * (1 / sqrt 2)) with (1 / (sqrt 2 * sqrt 2)) by (field; lra); rewrite Q; reflexivity). assert (HP : 0 < h) by (unfold h; apply Rdiv_lt_0_compat; [lra|apply sqrt_lt_R0; lra]).
  assert (W0 : csin (PI / 4, - b) = (h * cosh b, - (h * sinh b))). { unfold csin. cbn [fst snd]. rewrite sin_PI4, cos_PI4. fold h. unfold cosh, sinh. rewrite Ropp_involutive. f_equal; field. }
  rewrite W0. set (w0 := (h * cosh b, - (h * sinh b)) : C). assert (F0 : fourth w0) by (unfold fourth, w0; cbn [fst snd]; split; nra). assert (N0 : n2 w0 <= 4) by (unfold n2, w0; cbn [fst snd]; rewrite <- cosh_double in CB; nra).
  assert (A : exists w : C, ascend ex (landen_loop 9 k) w0 = Ok w /\ fourth w).
  { destruct (landen_loop 9 k) as [|k1 r]; [exists w0; now split|]. cbn [chain] in CH. destruct CH as (E & CH). assert (E' : k1 * (1 + kp) = 1 - kp). { rewrite E. unfold landen_step. cbv zeta. replace (1 - k * k) with (kp * kp) by lra. rewrite sqrt_square by lra. replace (k / (1 + kp) * (k / (1 + kp)) * (1 + kp)) with (k * k / (1 + kp)) by (field; lra). rewrite KK. field. lra. }
    assert (B1 : 0 <= k1 <= 105 / 1000) by (split; nra). destruct (ascend_fourth ex r k1 w0 ltac:(lra) CH F0 N0) as (w1 & A1 & F1 & N1). cbn [ascend]. rewrite A1. cbn [obind]. assert (P0 : 0 <= n2 w0) by (unfold n2; nra). assert (N1' : n2 w1 <= 489 / 100). { apply Rle_trans with (1 := N1). assert ((1 + k1) * (1 + k1) <= 1222 / 1000) by nra. nra. }
    destruct (step_fourth ex k1 w1 ltac:(lra) F1) as (q & Q & FQ & _). { assert (0 <= n2 w1) by (unfold n2; nra). nra. } rewrite Q. cbn [obind]. eexists. split; [reflexivity|exact FQ]. }
  destruct A as (w & -> & FW). cbn [obind]. destruct (casin_ok ex w) as (phi & -> & E & R1). cbn [obind]. exact (cd_first ex w phi (k * k) K1 FW E R1).
Qed.
Lemma second_roots ex ep es : 0 < es -> 0 < ep <= 500 -> 1 / 63 <= ep * ep -> / 2 ^ 53 <= ep / es * (ep / es) -> / 2 ^ 27 <= ep / es <= 101 / 1000 ->
  exists y (q : C), elliptic_roots ex (c_functions ex) 2 ep es = Ok ([], [((0, y), cmul (0, 1) q)]) /\ 0 < fst q /\ 0 < snd q.
Proof.
  intros ES EP E2 K2 K1. unfold elliptic_roots. destruct (Reqb_spec es 0) as [X|_]; [lra|]. cbn [negb oguard]. cbv zeta. set (k1 := ep / es) in *. assert (P27 : 0 < / 2 ^ 27) by (apply Rinv_0_lt_compat; lra). destruct (degree_two ex k1 K2 K1) as (k & D & KP & kp & KR & KK). rewrite D. cbn [obind f_k c_functions].
  assert (P12 : / 10 ^ 12 <= / 100) by (apply Rinv_le_contravar; lra). destruct (k_small (k * k) ltac:(nra)) as (S & V). destruct (k_small (k1 * k1) ltac:(nra)) as (S1 & V1). rewrite sqrt_square in S, V by lra. rewrite sqrt_square in S1, V1 by lra. rewrite V, V1. cbn [finite_k obind]. destruct (Reqb_spec ep 0) as [X|_]; [lra|]. cbn [negb oguard].
  destruct (inverse_sn_imag ex (1 / ep) (k1 * k1) ltac:(nra)) as (u & y' & IS & Y & U & U0 & _). { replace (/ 500) with (1 / 500) by lra. unfold Rdiv. rewrite !Rmult_1_l. apply Rinv_le_contravar; lra. } rewrite sqrt_square in U by lra. rewrite IS. cbn [obind snd].
  pose proof (kf_pos (k1 * k1) _ _ S1 ltac:(lra) (loop_chain 9 k1)) as L1. pose proof (kf_pos (k * k) _ _ S ltac:(nra) (loop_chain 9 k)) as L0. pose proof PI_RGT_0 as PP.
  pose proof (fun b => cd_half ex k kp b KP KK KR) as CD. cbv zeta in CD. assert (K5 : 0 <= k * k <= 1 - / 2 ^ 53) by (assert (/ 2 ^ 53 <= / 100) by (apply Rinv_le_contravar; lra); nra). destruct (cd_real ex (k * k) (k_from_landen (landen_loop 9 k)) (1 / 2) K5 V ltac:(lra)) as (zeta & EZ & Z).
  set (L := k_from_landen (landen_loop 9 k)) in *. set (L' := k_from_landen (landen_loop 9 k1)) in *. clearbody L L'. destruct (Reqb_spec (2 * L') 0) as [X|_]; [lra|]. cbn [negb oguard]. unfold real_poles. change (even_order 2) with true. cbv iota. cbn [obind]. change (pair_indices 2) with [0%nat]. cbn [root_pairs]. unfold root_pair. cbv zeta. replace (argument 2 L 0) with (1 / 2 * L) by (unfold argument; cbn [INR]; field). rewrite EZ. cbn [obind fst].
  destruct (Reqb_spec (k * zeta) 0) as [X|_]; [assert (0 < k * zeta) by nra; lra|]. cbn [negb oguard]. replace (- (u / (2 * L')) * L) with (- (arcsinh y' / 2 * (2 / PI * L))) by (rewrite U; field; lra). replace (1 / 2 * L) with (L / 2) by field.
  destruct (CD (arcsinh y' / 2)) as (q & Q & QP).
  - pose proof (arcsinh_pos y' ltac:(lra)). lra.
  - replace (2 * (arcsinh y' / 2)) with (arcsinh y') by field. pose proof (cosh_square (arcsinh y')) as H. rewrite sinh_arcsinh in H. assert (Y2 : y' * y' <= 63). { assert (y' * ep <= 1). { apply Rle_trans with (1 / ep * ep); [apply Rmult_le_compat_r; lra|]. right. field. lra. } assert ((y' * ep) * (y' * ep) <= 1) by (assert (0 <= y' * ep) by nra; nra). assert ((y' * y') * (ep * ep) <= 1) by lra. assert (0 <= y' * y') by nra. nra. } assert (0 < cosh (arcsinh y')) by (unfold cosh; pose proof (exp_pos (arcsinh y')); pose proof (exp_pos (- arcsinh y')); lra). nra.
  - rewrite Q. cbn [obind]. exists (1 / (k * zeta)), q. split; [reflexivity|exact QP].
Qed.
Lemma ln10_two : 2 <= ln 10.
Proof.
  rewrite <- (ln_exp 2). apply EllipticProofs3.ln_mono; [apply exp_pos|]. replace 2 with (1 + 1) by lra. rewrite exp_plus. pose proof exp_le_3. pose proof (exp_pos 1). nra.
Qed.
(* the ripples of the theorem, as amplitudes *)
Lemma moderate_ripples rp rs : 1 / 10 <= rp <= 3 -> 20 <= rs <= 100 -> let ep := ripple rp in let es := ripple rs in
  0 < es /\ 0 < ep <= 500 /\ 1 / 63 <= ep * ep /\ / 2 ^ 53 <= ep / es * (ep / es) /\ / 2 ^ 27 <= ep / es <= 101 / 1000.
Proof.
  intros P S ep es. destruct (ripple_pos rp ltac:(lra)) as (P1 & Q1). destruct (ripple_pos rs ltac:(lra)) as (P2 & Q2). fold ep in P1, Q1. fold es in P2, Q2.
  assert (A1 : 1 + 2 / 100 <= Rpower 10 (rp / 10)). { apply Rle_trans with (Rpower 10 (/ 100)); [|apply Rle_Rpower; lra]. unfold Rpower. pose proof (exp_ineq1_le (/ 100 * ln 10)). pose proof ln10_two. lra. }
  assert (A2 : Rpower 10 (rp / 10) <= 2). { apply Rle_trans with (Rpower 10 (3 / 10)); [apply Rle_Rpower; lra|]. assert (E : Rpower 10 (3 / 10) ^ 10 = 1000). { rewrite <- (Rpower_pow 10 (Rpower 10 (3 / 10))) by apply exp_pos. rewrite Rpower_mult. replace (3 / 10 * INR 10) with (INR 3) by (cbn [INR]; lra). rewrite Rpower_pow by lra. lra. } destruct (Rle_dec (Rpower 10 (3 / 10)) 2) as [L|L]; [exact L|exfalso]. assert (2 ^ 10 <= Rpower 10 (3 / 10) ^ 10) by (apply pow_incr; lra). lra. }
  assert (A3 : 100 <= Rpower 10 (rs / 10)). { replace 100 with (Rpower 10 2) by (replace 2 with (INR 2) at 1 by (cbn; lra); rewrite Rpower_pow by lra; lra). apply Rle_Rpower; lra. }
  assert (A4 : Rpower 10 (rs / 10) <= 10 ^ 10). { rewrite <- Rpower_pow by lra. apply Rle_Rpower; [lra|]. cbn [INR]. lra. }
  assert (E : ep / es * (ep / es) = (ep * ep) / (es * es)) by (field; lra). rewrite E. rewrite Q1 in *. rewrite Q2 in *. set (x := Rpower 10 (rp / 10) - 1) in *. set (y := Rpower 10 (rs / 10) - 1) in *. assert (X : 2 / 100 <= x <= 1) by (unfold x; lra). assert (Y : 99 <= y <= 10 ^ 10) by (unfold y; lra).
  assert (XY : / 2 ^ 53 <= x / y /\ / 10 ^ 12 <= x / y <= 1 / 99). { split; [|split]; apply (Rmult_le_reg_r y); try lra; unfold Rdiv; rewrite ?(Rmult_assoc x), ?Rinv_l by lra. - apply Rle_trans with (/ 2 ^ 53 * 10 ^ 10); [apply Rmult_le_compat_l; [left; apply Rinv_0_lt_compat|]; lra|]. lra. - apply Rle_trans with (/ 10 ^ 12 * 10 ^ 10); [apply Rmult_le_compat_l; [left; apply Rinv_0_lt_compat|]; lra|]. lra. - lra. }
  assert (K0 : 0 < ep / es) by (apply Rdiv_lt_0_compat; lra). set (k := ep / es) in *. assert (P27 : / 2 ^ 27 * / 2 ^ 27 <= / 10 ^ 12) by lra. assert (P27' : 0 < / 2 ^ 27) by (apply Rinv_0_lt_compat; lra).
  split; [exact P2|]. split; [nra|]. split; [lra|]. split; [lra|]. split; [|nra]. destruct (Rle_dec (/ 2 ^ 27) k) as [L|L]; [exact L|exfalso]. assert (k * k < / 2 ^ 27 * / 2 ^ 27) by (apply Rmult_le_0_lt_compat; lra). lra.
Qed.
Lemma moderate_apart rp rs : 1 / 10 <= rp <= 3 -> 20 <= rs <= 100 -> ripples_apart rp rs.
Proof.
  intros P S. pose proof (moderate_ripples rp rs P S) as M. cbv zeta in M. destruct M as (E0 & E1 & _ & M & B). destruct (ripple_pos rp ltac:(lra)) as (P1 & Q1). destruct (ripple_pos rs ltac:(lra)) as (P2 & Q2). unfold ripples_apart. rewrite <- Q1, <- Q2. set (ep := ripple rp) in *. set (es := ripple rs) in *. set (k := ep / es) in *. assert (E : ep = k * es) by (unfold k; field; lra). assert (P27' : 0 < / 2 ^ 27) by (apply Rinv_0_lt_compat; lra). split; [lra|]. rewrite E. assert (0 < es * es) by nra. replace (k * es * (k * es)) with (k * k * (es * es)) by ring. set (v := es * es) in *. split.
  - assert (k * k <= 1 / 4) by nra. nra.
  - assert (2 ^ 53 * / 2 ^ 53 <= 2 ^ 53 * (k * k)) by (apply Rmult_le_compat_l; lra). assert (1 <= 2 ^ 53 * (k * k)) by lra. nra.
Qed.
Theorem second_order ex rp rs : 1 / 10 <= rp <= 3 -> 20 <= rs <= 100 ->
  exists f, elliptic_zpk ex 2 rp rs = Ok (Some f) /\ (forall p, In p (z_poles f) -> fst p < 0 /\ snd p <> 0) /\ (forall z, In z (z_zeros f) -> fst z = 0 /\ 1 < Cmod z).
Proof.
  intros P S. pose proof (moderate_ripples rp rs P S) as M. cbv zeta in M. destruct M as (E0 & E1 & E2 & M & B). destruct (second_roots ex _ _ E0 E1 E2 M B) as (y & q & R1 & Q1 & Q2). assert (A1 : ripple_epsilon rp = Ok (ripple rp)) by (apply epsilon_ok; lra). assert (A2 : ripple_epsilon rs = Ok (ripple rs)) by (apply epsilon_ok; lra).
  set (pl := (cmul (0, 1) q) : C) in *. assert (PE : pl = (- snd q, fst q)) by (unfold pl, cmul; cbn [fst snd]; f_equal; ring). assert (PM : 0 < pole_modulus (RtoC 0) (raw [] [((0, y), pl)] 1)). { apply modulus_pos. intros r Hr ->. unfold poles, roots in Hr. cbn [raw lone_poles paired_poles map app snd In] in Hr. destruct Hr as [Hr|[Hr|[]]]; rewrite PE in Hr; apply (f_equal fst) in Hr; cbn in Hr; lra. }
  pose proof (zpk_in ex 2 rp rs _ _ _ _ ltac:(lia) A1 A2 R1 PM) as H. eexists. split; [exact H|]. split.
  - intros p Hp. cbn [raw_zpk z_poles map flat_map app snd] in Hp. unfold conj_pair in Hp. cbn [In app] in Hp. rewrite PE in Hp. destruct Hp as [<-|[<-|[]]]; cbn [fst snd cconj]; split; cbn; lra.
  - intros z Hz. split; [exact (proj1 (proj1 (proj2 (proj2 (proj2 (structure _ _ _ _ _ H)))) z Hz))|]. exact (zeros_beyond ex 2 rp rs _ (moderate_apart rp rs P S) ltac:(lia) H z Hz).
Qed.
