(* The imaginary axis: Jacobi's transformation, JacobiAmplitude and tiny parameters. *)
From Coq Require Import ZArith Reals Lra Lia List Bool.
From Coquelicot Require Import Coquelicot.
From Verif Require Import Common RealUtil CInt ComplexModel ComplexProofs EllipticModel EllipticSpec EllipticAxisSpec EllipticProofs EllipticProofs2 EllipticProofs4 EllipticProofs5 EllipticProofs6 EllipticAxisProofs EllipticAxisProofs2.
Import ListNotations.
Local Open Scope R_scope.

Lemma jacobi_derive m y : 0 < m <= 1 -> is_derive (fun y => F_i y m - F (atan (sinh y)) (1 - m)) y 0.
Proof.
  intros M. assert (CP : 0 < cosh y) by (unfold cosh; pose proof (exp_pos y); pose proof (exp_pos (- y)); lra). assert (SC : cosh y * cosh y = 1 + sinh y * sinh y) by (unfold cosh, sinh; pose proof (exp_neg y); nra). pose proof (sq_pos (sinh y)) as Q.
  assert (P : 0 < sqrt (1 + m * (sinh y * sinh y))) by (apply sqrt_lt_R0; nra).
  assert (I : integrand (1 - m) (atan (sinh y)) = cosh y * integrand_i m y).
  { unfold integrand, integrand_i. rewrite sin_atan. unfold Rsqr. rewrite <- SC, sqrt_square by lra. transitivity (/ (/ cosh y * sqrt (1 + m * (sinh y * sinh y)))); [|rewrite Rinv_mult, Rinv_inv; reflexivity]. f_equal. apply sqrt_lem_1.
    - replace (1 - (1 - m) * (sinh y / cosh y * (sinh y / cosh y))) with ((cosh y * cosh y - (1 - m) * (sinh y * sinh y)) / (cosh y * cosh y)) by (field; lra). rewrite SC. apply Rle_mult_inv_pos; nra.
    - apply Rmult_le_pos; [apply Rlt_le, Rinv_0_lt_compat; lra|lra].
    - replace (/ cosh y * sqrt (1 + m * (sinh y * sinh y)) * (/ cosh y * sqrt (1 + m * (sinh y * sinh y)))) with (sqrt (1 + m * (sinh y * sinh y)) * sqrt (1 + m * (sinh y * sinh y)) / (cosh y * cosh y)) by (field; lra). rewrite sqrt_sqrt by nra. replace (1 + m * (sinh y * sinh y)) with (cosh y * cosh y - (1 - m) * (sinh y * sinh y)) by (rewrite SC; ring). field. lra. }
  evar_last.
  - apply (is_derive_minus (K := R_AbsRing) (V := R_NormedModule)); [apply F_i_derive; lra|].
    apply (is_derive_comp (K := R_AbsRing) (V := R_NormedModule) (fun q => F q (1 - m)) (fun y => atan (sinh y))); [apply F_derive; lra|].
    apply (is_derive_comp (K := R_AbsRing) (V := R_NormedModule) atan sinh); [|apply sinh_derive]. apply is_derive_Reals, derivable_pt_lim_atan.
  - rewrite I. unfold minus, plus, opp, scal. cbn. unfold mult. cbn. unfold Rsqr. rewrite ?Rmult_1_r. rewrite <- SC. field. lra.
Qed.
Lemma jacobi_imaginary m y : 0 < m <= 1 -> F_i y m = F (atan (sinh y)) (1 - m).
Proof.
  intros M. assert (Q : forall y, 0 < y -> F_i y m = F (atan (sinh y)) (1 - m)).
  { clear y. intros y Y. pose proof (eq_is_derive (V := R_NormedModule) (fun y => F_i y m - F (atan (sinh y)) (1 - m)) 0 y) as H. cbv beta in H. specialize (H ltac:(intros; now apply jacobi_derive) Y). rewrite sinh_0, atan_0, F_i_0, F_0 in H. lra. }
  destruct (Rlt_dec 0 y) as [Y|Y]; [now apply Q|]. destruct (Req_dec y 0) as [-> |N]; [now rewrite sinh_0, atan_0, F_i_0, F_0|].
  specialize (Q (- y) ltac:(lra)). rewrite F_i_odd, sinh_neg, atan_opp, F_odd in Q by lra. lra.
Qed.
Lemma F_i_below m u : 0 < m < 1 -> 0 <= u < K (1 - m) -> exists Y, 0 <= Y /\ u <= F_i Y m.
Proof.
  intros M U. assert (SM : 0 < sqrt m) by (apply sqrt_lt_R0; lra). set (d := Rmin ((K (1 - m) - u) * sqrt m) (PI / 4)). pose proof PI_RGT_0 as PP.
  assert (D : 0 < d <= PI / 4 /\ d <= (K (1 - m) - u) * sqrt m). { unfold d. split; [split|]; [apply Rmin_glb_lt; nra|apply Rmin_r|apply Rmin_l]. }
  set (th := PI / 2 - d). assert (T : 0 <= th < PI / 2) by (unfold th; lra). assert (TP : 0 <= tan th). { destruct (proj1 T) as [L| <-]; [left; apply tan_gt_0; lra|rewrite tan_0; lra]. }
  exists (arcsinh (tan th)). split; [rewrite <- arcsinh_0; now apply arcsinh_le|]. rewrite jacobi_imaginary by lra. rewrite sinh_arcsinh, atan_tan by lra.
  pose proof (F_step (1 - m) th (PI / 2) ltac:(lra) ltac:(lra)) as (_ & B). replace (1 - (1 - m)) with m in B by ring. fold (K (1 - m)) in B. assert (X : (PI / 2 - th) / sqrt m <= K (1 - m) - u). { apply (Rmult_le_reg_r (sqrt m)); [exact SM|]. unfold Rdiv. rewrite Rmult_assoc, Rinv_l by lra. unfold th. lra. } lra.
Qed.
Lemma descend_i_continuous ks : forall k, 0 <= k < 1 -> chain k ks -> continuity (descend_i_all k ks).
Proof.
  induction ks as [|k1 r IH]; intros k H CH; cbn [descend_i_all chain] in *; [apply derivable_continuous, derivable_id|]. destruct CH as (E & CH). destruct (landen_range k H) as (R1 & R2). rewrite <- E in R1, R2.
  intros x. apply (continuity_pt_comp (descend_i k k1) (descend_i_all k1 r)); [|apply (IH k1); [lra|exact CH]].
  apply continuity_pt_filterlim. apply (ex_derive_continuous (K := R_AbsRing) (V := R_NormedModule)). unfold descend_i. pose proof (sq_pos (x * k)) as Q. pose proof (sqrt_pos (1 + x * k * (x * k))) as SP. auto_derive. split; [lra|]. split; [|exact I]. apply Rgt_not_eq. nra.
Qed.
Lemma sinh_continuous : continuity sinh.
Proof. apply derivable_continuous, derivable_sinh. Qed.
Lemma arcsinh_continuous : continuity arcsinh.
Proof. intros x. apply derivable_continuous_pt. eexists. apply derivable_pt_lim_arcsinh. Qed.
Lemma amplitude_axis ex m k ks y : 0 <= k < 1 -> chain k ks -> landen_sequence m = Ok (k, ks) -> jacobi_amplitude ex (0, arcsinh (descend_i_all k ks (sinh y)) * product ks) m = Ok (0, y).
Proof.
  intros K0 CH S. unfold jacobi_amplitude. rewrite S. cbn [obind]. rewrite k_from_landen_eq. pose proof (product_pos ks k K0 CH) as P. pose proof PI_RGT_0 as PP. set (a := arcsinh (descend_i_all k ks (sinh y))).
  replace (cmul_real (0, a * product ks) (PI / 2 / (PI / 2 * product ks))) with (0, a) by (unfold cmul_real; cbn [fst snd]; f_equal; field; lra). rewrite csin_axis. unfold a. rewrite sinh_arcsinh.
  destruct (descend_inverse ex ks k (0, sinh y) K0 CH) as (w' & D & U). rewrite descend_is_imag in D by assumption. injection D as <-. rewrite U. cbn [obind]. rewrite casin_axis, arcsinh_sinh. reflexivity.
Qed.
Theorem imaginary_amplitude ex u m : / 2 ^ 104 < m <= 1 - / 2 ^ 53 -> Rabs u < K (1 - m) ->
  exists y, jacobi_amplitude ex (0, u) m = Ok (0, y) /\ Rabs (F_i y m - u) <= / 2 ^ 53 * Rabs u.
Proof.
  intros M U. assert (M0 : 0 < / 2 ^ 104) by (apply Rinv_0_lt_compat; lra). assert (M1 : 0 <= m <= 1 - / 2 ^ 53) by lra. pose proof (m_lt m M1) as M2. destruct (sequence_full m M1) as (S & H). pose proof (loop_nonempty m (proj1 M)) as NE. set (k := sqrt m) in *. set (ks := landen_loop 9 k) in *. clearbody k ks.
  pose proof H as [_ R1 CH _]. destruct (F_i_below m (Rabs u) ltac:(lra) (conj (Rabs_pos u) U)) as (Y & Y0 & B). destruct (close_pos m k ks Y H Y0 (or_introl NE)) as (V0 & _ & V).
  set (v := fun y => arcsinh (descend_i_all k ks (sinh y)) * product ks). fold (v Y) in V0, V. assert (OD : v (- Y) = - v Y) by (unfold v; rewrite sinh_neg, descend_i_odd, arcsinh_neg; ring).
  assert (BU : - v Y <= u <= v Y). { assert (Rabs u <= v Y) by lra. unfold Rabs in H0. destruct (Rcase_abs u); lra. }
  destruct (IVT_cor (fun y => v y - u) (- Y) Y) as (y & _ & E).
  - apply continuity_minus; [|apply continuity_const; intros ? ?; reflexivity]. unfold v. apply continuity_mult; [|apply continuity_const; intros ? ?; reflexivity].
    apply (continuity_comp (fun y => descend_i_all k ks (sinh y)) arcsinh); [|exact arcsinh_continuous]. apply (continuity_comp sinh (descend_i_all k ks)); [exact sinh_continuous|]. now apply descend_i_continuous.
  - lra.
  - rewrite OD. assert (0 <= (v Y + u) * (v Y - u)) by (apply Rmult_le_pos; lra). nra.
  - exists y. assert (VU : v y = u) by lra. split; [rewrite <- VU; now apply amplitude_axis|]. destruct (close_abs m k ks y H (or_introl NE)) as (_ & C2). fold (v y) in C2. rewrite VU in C2. rewrite Rabs_minus_sym. exact C2.
Qed.
(* no modulus follows a first one of at most 2^-52 *)
Theorem tiny_parameter ex m : 0 < m <= / 2 ^ 104 -> forall B, exists y, elliptic_f ex (0, y) m = Ok (0, y) /\ F_i y m + B <= y.
Proof.
  intros M B. assert (SM : 0 < sqrt m) by (apply sqrt_lt_R0; lra). assert (SS : sqrt m * sqrt m = m) by (apply sqrt_sqrt; lra). assert (SL : sqrt m <= dbl_epsilon).
  { unfold dbl_epsilon. rewrite <- (sqrt_square (/ 2 ^ 52)) by lra. apply sqrt_le_1_alt. lra. }
  set (a := arcsinh (2 / sqrt m)). set (b := Rmax B 1). assert (BB : B <= b) by apply Rmax_l. assert (B1 : 1 <= b) by apply Rmax_r. assert (A : 0 <= a) by (unfold a; rewrite <- arcsinh_0; apply arcsinh_le; apply Rle_mult_inv_pos; lra). exists (a + 2 * b). split.
  - assert (S : landen_sequence m = Ok (sqrt m, [])). { unfold landen_sequence. rewrite !Rltb_false by lra. cbn [orb landen_loop]. rewrite Rltb_false by lra. reflexivity. }
    rewrite (elliptic_f_large_i ex m (sqrt m) [] (a + 2 * b)); [|unfold dbl_epsilon in SL; lra|exact I|exact S|rewrite Rabs_pos_eq by lra; lra]. cbn [descend_i_all product]. rewrite arcsinh_sinh. f_equal. f_equal. ring.
  - assert (FA : F_i a m <= a). { destruct (MVT_gen (fun q => F_i q m) 0 a (integrand_i m)) as (c & _ & E); [intros; apply F_i_derive; lra|intros; apply F_i_cont; lra|]. rewrite F_i_0, !Rminus_0_r in E. rewrite E. pose proof (integrand_i_pos m c ltac:(lra)). nra. }
    destruct (MVT_gen (fun q => F_i q m) a (a + 2 * b) (integrand_i m)) as (c & CB & E); [intros; apply F_i_derive; lra|intros; apply F_i_cont; lra|]. rewrite Rmin_left, Rmax_right in CB by lra.
    assert (I : integrand_i m c <= 1 / 2).
    { pose proof (sinh_le a c ltac:(lra)) as SL2. unfold a in SL2. rewrite sinh_arcsinh in SL2. assert (P2 : 0 < 2 / sqrt m) by (apply Rdiv_lt_0_compat; lra). assert (Q : 2 / sqrt m * (2 / sqrt m) <= sinh c * sinh c) by nra.
      assert (Q4 : 4 <= m * (sinh c * sinh c)). { replace 4 with (m * (2 / sqrt m * (2 / sqrt m))); [apply Rmult_le_compat_l; lra|]. rewrite <- SS at 1. field. lra. }
      unfold integrand_i. replace (1 / 2) with (/ sqrt 4) by (replace 4 with (2 * 2) by ring; rewrite sqrt_square by lra; lra). apply Rinv_le_contravar; [apply sqrt_lt_R0; lra|]. apply sqrt_le_1_alt. lra. }
    replace (a + 2 * b - a) with (2 * b) in E by ring. nra.
Qed.
