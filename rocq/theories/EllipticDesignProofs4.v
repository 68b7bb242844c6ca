(* The imaginary axis, the first-order design and the failures. *)
From Verif Require Import Common ListLemmas RealUtil CInt BiquadModel DesignSpec CascadeSpec PoleZeroModel PoleZeroSpec PoleZeroProofs PoleZeroProofs3 PoleZeroProofs9 ComplexModel ComplexProofs EllipticModel EllipticProofs2 EllipticProofs4 EllipticProofs6 ZpkModel ZpkSpec ZpkProofs ZpkProofs2 ZpkProofs5 ZpkProofs7 EllipticDesignModel EllipticDesignSpec EllipticDesignProofs EllipticDesignProofs2 EllipticDesignProofs3.
From Coq Require Import Permutation.
From Coquelicot Require Import Complex.
Local Open Scope R_scope.
Local Notation C := Complex.C.

Lemma csin_imag b : csin (0, b) = (0, sinh b).
Proof. unfold csin. cbn [fst snd]. rewrite sin_0, cos_0. f_equal; ring. Qed.
Lemma casin_imag ex y : casin ex (0, y) = Ok (0, arcsinh y).
Proof. rewrite <- (sinh_arcsinh y) at 1. rewrite <- csin_imag. apply casin_sin. pose proof PI_RGT_0. lra. Qed.
(* a step down the sequence of moduli divides by a number above 1 *)
Lemma descend_imag ex ks : forall k y, 0 <= k < 1 -> chain k ks -> 0 < y -> exists y', descend ex k ks (0, y) = Ok (0, y') /\ 0 < y' <= y.
Proof.
  induction ks as [|k1 r IH]; intros k y K CH Y; cbn [descend chain] in *; [exists y; split; [reflexivity|lra]|]. destruct CH as (E & CH). destruct (landen_range k K) as (L1 & L2). rewrite <- E in L1, L2.
  replace (csub (1, 0) (csquare (cmul_real (0, y) k))) with (1 + y * k * (y * k), 0) by (unfold csub, csquare, cmul_real; cbn [fst snd]; f_equal; ring). assert (P : 1 <= 1 + y * k * (y * k)) by (pose proof (Rle_0_sqr (y * k)) as X; unfold Rsqr in X; lra). rewrite csqrt_real by lra. set (s := sqrt (1 + y * k * (y * k))). assert (S : 1 <= s) by (rewrite <- sqrt_1; apply sqrt_le_1_alt; lra).
  set (d := (1 + s) * (1 / 2 * (1 + k1))). assert (D : 1 <= d) by (unfold d; nra). replace (cmul_real (cadd (1, 0) (s, 0)) (1 / 2 * (1 + k1))) with (d, 0) by (unfold cmul_real, cadd, d; cbn [fst snd]; f_equal; ring).
  rewrite cdiv_ok by (intros X; injection X; lra). cbn [obind]. replace (Cdiv (0, y) (d, 0)) with ((0, y / d) : C) by (unfold Cdiv, Cmult, Cinv; cbn [fst snd]; apply injective_projections; cbn; field; nra).
  assert (Y1 : 0 < y / d <= y) by (split; [apply Rdiv_lt_0_compat; lra|]; apply (Rmult_le_reg_r d); [lra|]; unfold Rdiv; rewrite Rmult_assoc, Rinv_l by lra; nra).
  destruct (IH k1 (y / d) ltac:(lra) CH ltac:(lra)) as (y' & E' & B). exists y'. split; [exact E'|lra].
Qed.
Lemma arcsinh_pos y : 0 < y -> 0 < arcsinh y.
Proof. intros H. rewrite <- arcsinh_0. now apply arcsinh_lt. Qed.
Lemma sinh_thousandth : sinh (/ 1000) <= / 500.
Proof.
  unfold sinh. assert (A : exp (/ 1000) <= 1 + 2 / 1000). { rewrite <- (Ropp_involutive (/ 1000)), exp_Ropp. assert (B : 1 - / 1000 <= exp (- / 1000)) by (pose proof (exp_ineq1_le (- / 1000)); lra). apply Rle_trans with (/ (1 - / 1000)); [apply Rinv_le_contravar; lra|lra]. } pose proof (exp_ineq1_le (- / 1000)). lra.
Qed.
Lemma inverse_sn_imag ex y m : 0 <= m < 1 -> / 500 <= y ->
  exists u y', inverse_sn ex (c_functions ex) (0, y) m = Ok (0, u) /\ 0 < y' <= y /\ u = arcsinh y' * (2 / PI * k_from_landen (landen_loop 9 (sqrt m))) /\ 0 < u /\ jacobi_sn (c_functions ex) (0, u) m = Ok (0, y).
Proof.
  intros M Y. unfold inverse_sn, jacobi_sn. rewrite casin_imag. cbn [obind f_f f_am c_functions]. pose proof PI_RGT_0 as PP.
  assert (B : / 1000 <= arcsinh y). { rewrite <- (arcsinh_sinh (/ 1000)). destruct (Rle_lt_or_eq_dec (sinh (/ 1000)) y) as [L| ->]; [pose proof sinh_thousandth; lra|left; now apply arcsinh_lt|right; reflexivity]. }
  assert (C2 : / 10 ^ 6 <= cabs2 (0, arcsinh y)) by (unfold cabs2; cbn [fst snd]; nra).
  destruct (inverse_gen ex (0, arcsinh y) m M C2) as (u & E & A). { rewrite csin_imag, sinh_arcsinh. apply casin_imag. }
  assert (S : landen_sequence m = Ok (sqrt m, landen_loop 9 (sqrt m))) by (unfold landen_sequence; rewrite !Rltb_false by lra; reflexivity). assert (K : 0 <= sqrt m < 1). { assert (Q : sqrt m * sqrt m = m) by (apply sqrt_sqrt; lra). pose proof (sqrt_pos m). nra. } pose proof (loop_chain 9 (sqrt m)) as CH. pose proof (kf_pos m _ _ S K CH) as KP.
  destruct (descend_imag ex (landen_loop 9 (sqrt m)) (sqrt m) y K CH ltac:(lra)) as (y' & D & Y'). pose proof E as E0. unfold elliptic_f in E0. rewrite Rltb_false in E0 by lra. rewrite S in E0. cbn [obind] in E0. rewrite csin_imag, sinh_arcsinh, D in E0. cbn [obind] in E0. rewrite casin_imag in E0. cbn [obind] in E0. set (L := k_from_landen _) in *.
  assert (U : u = (0, arcsinh y' * (2 / PI * L))) by (apply (f_equal (fun o => match o with Ok v => v | _ => u end)) in E0; cbv beta iota in E0; rewrite <- E0; unfold cmul_real; cbn [fst snd]; f_equal; ring). rewrite U in *. exists (arcsinh y' * (2 / PI * L)), y'. split; [exact E|]. split; [exact Y'|]. split; [reflexivity|]. split.
  - apply Rmult_lt_0_compat; [apply arcsinh_pos; lra|]. apply Rmult_lt_0_compat; [apply Rdiv_lt_0_compat; lra|exact KP].
  - rewrite A. cbn [obind]. rewrite csin_imag, sinh_arcsinh. reflexivity.
Qed.
(* ---------- first order ---------- *)
Lemma first_roots ex ep es : 0 < ep < es -> ep <= 500 -> elliptic_roots ex (c_functions ex) 1 ep es = Ok ([- (1 / ep)], []).
Proof.
  intros E EB. unfold elliptic_roots. destruct (Reqb_spec es 0) as [X|_]; [lra|]. cbn [negb oguard]. cbv zeta. assert (K1 : 0 < ep / es < 1) by (split; [apply Rdiv_lt_0_compat; lra|apply (Rmult_lt_reg_r es); [lra|]; unfold Rdiv; rewrite Rmult_assoc, Rinv_l by lra; lra]).
  set (k1 := ep / es) in *. assert (M1 : 0 <= k1 * k1 < 1) by nra. assert (D : solve_degree (c_functions ex) 1 k1 = Ok k1).
  { unfold solve_degree. rewrite Rleb_true by lra. cbn [oguard]. cbv zeta. rewrite sqrt_sqrt by lra. cbn [f_k c_functions]. destruct (k_finite (1 - k1 * k1) ltac:(nra)) as (v & V & _). rewrite V. change (pair_indices 1) with (@nil nat). cbn [finite_k obind sn_product]. change (Z.to_nat 1) with 1%nat. rewrite !pow_1, pow1, Rmult_1_r, sqrt_sqrt by lra. replace (1 - (1 - k1 * k1)) with (k1 * k1) by ring. rewrite Rleb_true by lra. cbn [oguard]. rewrite sqrt_square by lra. reflexivity. }
  rewrite D. cbn [obind f_k c_functions]. destruct (k_finite (k1 * k1) M1) as (K & V & KP). rewrite V. cbn [finite_k obind]. destruct (Reqb_spec ep 0) as [X|_]; [lra|]. cbn [negb oguard].
  destruct (inverse_sn_imag ex (1 / ep) (k1 * k1) M1) as (u & y' & IS & _ & _ & _ & SN). { replace (/ 500) with (1 / 500) by lra. unfold Rdiv. rewrite !Rmult_1_l. apply Rinv_le_contravar; lra. } rewrite IS. cbn [obind snd]. destruct (Reqb_spec (1 * K) 0) as [X|_]; [lra|]. cbn [negb oguard].
  replace (u / (1 * K) * K) with u by (field; lra). unfold real_poles. change (even_order 1) with false. cbv iota. replace (u / (1 * K) * K) with u by (field; lra). rewrite SN. cbn [obind snd]. change (pair_indices 1) with (@nil nat). reflexivity.
Qed.
Theorem first_order ex rp rs : 0 < rp < rs -> rp <= 50 -> elliptic_zpk ex 1 rp rs = chebyshev1_zpk ex 1 rp.
Proof.
  intros O B. pose proof (ripple_order rp rs O) as RO. unfold elliptic_zpk, chebyshev1_zpk. f_equal. rewrite !epsilon_ok by lra. cbn [obind].
  assert (EB : ripple rp <= 500). { unfold ripple. rewrite <- (sqrt_square 500) by lra. apply sqrt_le_1_alt. assert (Rpower 10 (rp / 10) <= Rpower 10 5) by (apply Rle_Rpower; lra). assert (Rpower 10 5 = 10 ^ 5) by (rewrite <- Rpower_pow by lra; f_equal; cbn; lra). lra. }
  rewrite first_roots by (exact RO || exact EB). cbn [obind]. destruct (Reqb_spec (ripple rp) 0) as [X|_]; [lra|]. cbn [negb oguard]. cbv zeta. change (design_thetas 1) with (@nil R). change (even_order 1) with false. cbv iota. cbn [flat_map map app].
  replace (ln ((1 + sqrt (1 + ripple rp * ripple rp)) / ripple rp) / 1) with (arcsinh (1 / ripple rp)); [rewrite sinh_arcsinh; reflexivity|]. pose proof (mu1_is (ripple rp) 1 ltac:(lra)) as M. cbn [INR] in M. rewrite M. field.
Qed.
Theorem first_order_cc ex rp rs : 0 < rp < rs -> rp <= 50 -> elliptic_prototype ex 1 rp rs = chebyshev1_prototype 1 rp.
Proof.
  intros O B. pose proof (ripple_order rp rs O) as RO. unfold elliptic_prototype, chebyshev1_prototype. rewrite !Rltb_true by lra. change (1 <=? 1)%Z with true. cbn [ocheck]. cbv zeta. fold (ripple rp). fold (ripple rs).
  assert (EB : ripple rp <= 500). { unfold ripple. rewrite <- (sqrt_square 500) by lra. apply sqrt_le_1_alt. assert (Rpower 10 (rp / 10) <= Rpower 10 5) by (apply Rle_Rpower; lra). assert (Rpower 10 5 = 10 ^ 5) by (rewrite <- Rpower_pow by lra; f_equal; cbn; lra). lra. }
  rewrite cc_roots, first_roots by (exact RO || exact EB). cbn [obind fold_left]. change (chebyshev_indices 1) with [0%Z]. cbn [fold_left]. change (0 <? 0)%Z with false. cbv iota. change (even_order 1) with false. change (Z.rem 1 2 =? 0)%Z with false. cbv iota.
  replace (fst (Copp (complex_sinh (arcsinh (1 / ripple rp) / 1, - chebyshev_theta 1 0)))) with (- (1 / ripple rp)); [reflexivity|]. unfold complex_sinh, chebyshev_theta. cbn [fst snd Copp]. replace (- (PI * 0 / (2 * 1))) with 0 by field. rewrite cos_0. replace (arcsinh (1 / ripple rp) / 1) with (arcsinh (1 / ripple rp)) by field. rewrite sinh_arcsinh. ring.
Qed.
(* ---------- failures ---------- *)
Lemma roots_fail ex lib order ep es : lib = c_functions ex \/ lib = cc_functions ex -> (1 <= order)%Z -> 0 < es <= ep -> forall x, elliptic_roots ex lib order ep es <> Ok x.
Proof.
  intros HL O E x H. unfold elliptic_roots in H. cbv zeta in H. apply oguard_ok in H as (_ & H). apply obind_ok in H as (k & D & H). apply obind_ok in H as (K & FK & _). assert (K1 : 1 <= ep / es) by (apply (Rmult_le_reg_r es); [lra|]; unfold Rdiv; rewrite Rmult_assoc, Rinv_l by lra; lra). set (k1 := ep / es) in *.
  unfold solve_degree in D. cbv zeta in D. apply oguard_ok in D as (G & D). assert (G' : 0 <= 1 - k1 * k1) by (destruct (Rleb_spec 0 (1 - k1 * k1)); [assumption|discriminate G]). assert (KO : k1 = 1) by nra. assert (Z0 : 1 - k1 * k1 = 0) by (rewrite KO; ring). rewrite Z0, sqrt_0 in D.
  apply obind_ok in D as (v & _ & D). apply obind_ok in D as (p & _ & D). apply oguard_ok in D as (_ & D). rewrite pow_i in D by lia. replace (1 - 0 * p ^ 4 * (0 * p ^ 4)) with 1 in D by ring. rewrite sqrt_1 in D. injection D as <-. rewrite Rmult_1_r in FK.
  destruct HL as [-> | ->]; cbn [f_k c_functions cc_functions] in FK; rewrite ?cc_k_is in FK by lra; rewrite k_one in FK; discriminate FK.
Qed.
Theorem never_ok ex order rp rs : (1 <= order <= 30)%Z -> ~ (0 < rp < rs) -> forall x, elliptic_zpk ex order rp rs <> Ok x.
Proof.
  intros O N x H. unfold elliptic_zpk, with_order in H. replace (order <? 1)%Z with false in H by lia. apply oguard_ok in H as (_ & H). unfold omap in H. apply obind_ok in H as (f & H & _). apply obind_ok in H as (ep & E1 & H). apply obind_ok in H as (es & E2 & H). apply obind_ok in H as ((lr, ps) & E3 & _).
  apply epsilon_only in E1 as (-> & P1). apply epsilon_only in E2 as (-> & P2). destruct (roots_out _ _ _ _ _ _ _ E3) as (_ & _ & _ & N1 & N2). assert (Q : forall x, 0 <= x -> sqrt x <> 0 -> 0 < x) by (intros y Y NY; destruct Y as [Y| <-]; [exact Y|rewrite sqrt_0 in NY; lra]). pose proof (Q _ P1 N1) as Q1. pose proof (Q _ P2 N2) as Q2.
  assert (M : forall a b, a <= b -> Rpower 10 (a / 10) <= Rpower 10 (b / 10)) by (intros; apply Rle_Rpower; lra). assert (R0 : Rpower 10 (0 / 10) = 1) by (unfold Rdiv; rewrite Rmult_0_l; apply Rpower_O; lra).
  assert (0 < rp) by (destruct (Rlt_dec 0 rp) as [L|L]; [exact L|exfalso; pose proof (M rp 0 ltac:(lra)); lra]). assert (rs <= rp) by lra. refine (roots_fail ex (c_functions ex) order _ _ (or_introl eq_refl) ltac:(lia) _ _ E3). split; [apply sqrt_lt_R0; lra|]. apply sqrt_le_1_alt. pose proof (M rs rp ltac:(lra)). lra.
Qed.
Theorem never_ok_cc ex order rp rs : ~ (0 < rp < rs) -> forall x, elliptic_prototype ex order rp rs <> Ok x.
Proof.
  intros N x H. unfold elliptic_prototype in H. destruct (Z.leb_spec 1 order) as [O|O]; cbn [ocheck] in H; [|discriminate H]. destruct (Rltb_spec 0 rp) as [A|A]; cbn [ocheck] in H; [|discriminate H]. destruct (Rltb_spec 0 rs) as [B|B]; cbn [ocheck] in H; [|discriminate H]. cbv zeta in H. apply obind_ok in H as ((lr, ps) & E3 & _).
  refine (roots_fail ex (cc_functions ex) order _ _ (or_intror eq_refl) O _ _ E3). pose proof (Rpower_gt_1 (rs / 10) ltac:(lra)). split; [apply sqrt_lt_R0; lra|]. apply sqrt_le_1_alt. assert (Rpower 10 (rs / 10) <= Rpower 10 (rp / 10)) by (apply Rle_Rpower; lra). lra.
Qed.
