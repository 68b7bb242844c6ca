(* Accuracy of FastTanh. *)
From Coq Require Import ZArith Reals List Lia Lra.
From Flocq Require Import Core Relative.
From Coquelicot Require Rcomplements.
From Verif Require Import RealUtil FastFunModel FastFunSpec FastFunProofs FastFunProofs2 FastFunProofs3 FastFunProofs4.
Import ListNotations.
Local Open Scope R_scope.

Lemma tanh_exp x : tanh x = (exp (2 * x) - 1) / (exp (2 * x) + 1).
Proof.
  unfold tanh, sinh, cosh. replace (2 * x) with (x + x) by ring. rewrite exp_plus, exp_Ropp.
  pose proof (exp_pos x). assert (0 < exp x * exp x) by (apply Rmult_lt_0_compat; lra). field. lra.
Qed.

(* Rounding error of one float operation, for results of moderate size. *)
Lemma rnd32_rel x : Rabs (rnd32 x - x) <= / 16777216 * Rabs x + / 16777216 / 1048576.
Proof.
  unfold rnd32.
  destruct (error_N_FLT radix2 (-149) 24 ltac:(lia) (fun n => negb (Z.even n)) x) as (eps & eta & H1 & H2 & _ & E).
  rewrite E.
  replace (x * (1 + eps) + eta - x) with (eps * x + eta) by ring.
  eapply Rle_trans; [apply Rabs_triang|]. rewrite Rabs_mult.
  assert (A : / 2 * bpow radix2 (- (24) + 1) = / 16777216) by (cbn; lra). rewrite A in H1.
  assert (B : / 2 * bpow radix2 (-149) <= / 16777216 / 1048576).
  { assert (bpow radix2 (-149) <= bpow radix2 (-44)) by (apply bpow_le; lia).
    assert (C : bpow radix2 (-44) = / 17592186044416) by (cbn; lra). rewrite C in H. lra. }
  apply Rplus_le_compat; [|lra]. apply Rmult_le_compat_r; [apply Rabs_pos|lra].
Qed.

Lemma float_quotient E : 0 < E ->
  Rabs (rnd32 (rnd32 (E - 1) / rnd32 (E + 1)) - (E - 1) / (E + 1)) <= 1 / 1000000.
Proof.
  intros HE. pose proof (rnd32_rel (E - 1)) as R1. pose proof (rnd32_rel (E + 1)) as R2.
  rewrite (Rabs_pos_eq (E + 1)) in R2 by lra.
  assert (AB : Rabs (E - 1) <= E + 1) by (apply Rabs_le; lra).
  set (N := rnd32 (E - 1)) in *. set (D := rnd32 (E + 1)) in *. clearbody N D.
  apply Rcomplements.Rabs_le_between in R2.
  assert (PD : 0 < D) by lra.
  assert (Q : Rabs (N / D - (E - 1) / (E + 1)) <= 3 / 10000000).
  { replace (N / D - (E - 1) / (E + 1)) with ((N - (E - 1)) / D + (E - 1) / (E + 1) * ((E + 1 - D) / D)) by (field; lra).
    eapply Rle_trans; [apply Rabs_triang|].
    assert (ID : (E + 1) / D <= 11 / 10).
    { apply Rmult_le_reg_r with D; [lra|]. unfold Rdiv at 1. rewrite Rmult_assoc, Rinv_l by lra. lra. }
    assert (PI : 0 < / D) by (apply Rinv_0_lt_compat; lra).
    assert (T1 : Rabs ((N - (E - 1)) / D) <= 1 / 10000000).
    { unfold Rdiv. rewrite Rabs_mult, (Rabs_pos_eq (/ D)) by lra.
      apply Rle_trans with (2 * / 16777216 * 7 / 10 * (E + 1) * / D).
      - apply Rmult_le_compat_r; [lra|]. lra.
      - replace (2 * / 16777216 * 7 / 10 * (E + 1) * / D) with (2 * / 16777216 * 7 / 10 * ((E + 1) / D)) by (unfold Rdiv; ring). lra. }
    assert (T2 : Rabs ((E - 1) / (E + 1) * ((E + 1 - D) / D)) <= 1 / 10000000).
    { rewrite Rabs_mult.
      assert (S1 : Rabs ((E - 1) / (E + 1)) <= 1).
      { unfold Rdiv. rewrite Rabs_mult, (Rabs_pos_eq (/ (E + 1))) by (left; apply Rinv_0_lt_compat; lra).
        apply Rmult_le_reg_r with (E + 1); [lra|]. rewrite Rmult_assoc, Rinv_l by lra. lra. }
      assert (S2 : Rabs ((E + 1 - D) / D) <= 1 / 10000000).
      { unfold Rdiv. rewrite Rabs_mult, (Rabs_pos_eq (/ D)) by lra.
        apply Rle_trans with (2 * / 16777216 * 7 / 10 * (E + 1) * / D).
        - apply Rmult_le_compat_r; [lra|]. apply Rabs_le. lra.
        - replace (2 * / 16777216 * 7 / 10 * (E + 1) * / D) with (2 * / 16777216 * 7 / 10 * ((E + 1) / D)) by (unfold Rdiv; ring). lra. }
      pose proof (Rabs_pos ((E + 1 - D) / D)). pose proof (Rabs_pos ((E - 1) / (E + 1))).
      apply Rle_trans with (1 * (1 / 10000000)); [|lra]. apply Rmult_le_compat; lra. }
    lra. }
  assert (S1 : Rabs ((E - 1) / (E + 1)) <= 1).
  { unfold Rdiv. rewrite Rabs_mult, (Rabs_pos_eq (/ (E + 1))) by (left; apply Rinv_0_lt_compat; lra).
    apply Rmult_le_reg_r with (E + 1); [lra|]. rewrite Rmult_assoc, Rinv_l by lra. lra. }
  pose proof (rnd32_rel (N / D)) as R3. set (q := N / D) in *. set (w := (E - 1) / (E + 1)) in *. clearbody q w.
  apply Rcomplements.Rabs_le_between in S1. apply Rcomplements.Rabs_le_between in Q.
  assert (Rabs q <= 2) by (apply Rabs_le; lra).
  apply Rcomplements.Rabs_le_between in R3. apply Rabs_le. lra.
Qed.

Lemma ratio_shift e E d : 0 < e -> 0 <= d < 1 / 2 -> Rabs (E - e) <= d * e ->
  0 < E /\ Rabs ((E - 1) / (E + 1) - (e - 1) / (e + 1)) <= d / 2 / (1 - d).
Proof.
  intros He Hd H. pose proof H as H0. apply Rcomplements.Rabs_le_between in H0.
  assert (d * e <= 1 / 2 * e) by (apply Rmult_le_compat_r; lra).
  assert (PE : 0 < E) by lra. split; [exact PE|].
  replace ((E - 1) / (E + 1) - (e - 1) / (e + 1)) with (2 * (E - e) * (/ ((E + 1) * (e + 1)))) by (field; lra).
  assert (G : (1 - d) * ((e + 1) * (e + 1)) <= (E + 1) * (e + 1)).
  { rewrite <- Rmult_assoc. apply Rmult_le_compat_r; lra. }
  assert (G2 : 4 * e <= (e + 1) * (e + 1)).
  { pose proof (Rle_0_sqr (e - 1)). unfold Rsqr in *. lra. }
  assert (P : 0 < (e + 1) * (e + 1)) by (apply Rmult_lt_0_compat; lra).
  assert (P1 : 0 < (1 - d) * ((e + 1) * (e + 1))) by (apply Rmult_lt_0_compat; lra).
  assert (IL : / ((E + 1) * (e + 1)) <= / ((1 - d) * ((e + 1) * (e + 1)))) by (apply Rinv_le_contravar; lra).
  assert (IP : 0 < / ((E + 1) * (e + 1))) by (apply Rinv_0_lt_compat; lra).
  rewrite !Rabs_mult, (Rabs_pos_eq 2), (Rabs_pos_eq (/ _)) by lra.
  apply Rle_trans with (2 * (d * e) * / ((1 - d) * ((e + 1) * (e + 1)))).
  { pose proof (Rabs_pos (E - e)). apply Rmult_le_compat; lra. }
  rewrite Rinv_mult.
  assert (K : e * / ((e + 1) * (e + 1)) <= / 4).
  { apply Rmult_le_reg_r with ((e + 1) * (e + 1)); [lra|]. rewrite Rmult_assoc, Rinv_l by lra. lra. }
  replace (2 * (d * e) * (/ (1 - d) * / ((e + 1) * (e + 1)))) with (2 * d * / (1 - d) * (e * / ((e + 1) * (e + 1)))) by ring.
  replace (d / 2 / (1 - d)) with (2 * d * / (1 - d) * / 4) by (field; lra).
  apply Rmult_le_compat_l; [|exact K]. apply Rmult_le_pos; [lra|]. left. apply Rinv_0_lt_compat. lra.
Qed.

Lemma tanh_limit_bounds : 901 / 100 <= tanh_limit <= 902 / 100.
Proof.
  unfold tanh_limit. pose proof (rnd32_rel (9011 / 1000)) as R. rewrite (Rabs_pos_eq (9011 / 1000)) in R by lra.
  apply Rcomplements.Rabs_le_between in R. lra.
Qed.

Lemma tanh_far x : 9 <= x -> 1 - 1 / 10000 <= tanh x <= 1.
Proof.
  intros H. rewrite tanh_exp. set (e := exp (2 * x)).
  assert (He : 19999 <= e).
  { unfold e. apply Rle_trans with (exp 18).
    - replace 18 with (INR 18 * 1) by (cbn; ring). rewrite Rmult_comm. 
      replace (exp (1 * INR 18)) with (pow (exp 1) 18).
      + apply Rle_trans with (pow 2 18); [lra|]. apply pow_incr. pose proof (exp_ineq1 1 ltac:(lra)). lra.
      + rewrite <- (Rpower_pow 18 (exp 1)) by apply exp_pos. unfold Rpower. rewrite ln_exp. f_equal. ring.
    - destruct (Req_dec 18 (2 * x)) as [<-|N]; [lra|]. left. apply exp_increasing. lra. }
  clearbody e. replace ((e - 1) / (e + 1)) with (1 - 2 / (e + 1)) by (field; lra).
  assert (0 < / (e + 1)) by (apply Rinv_0_lt_compat; lra).
  assert (/ (e + 1) <= / 20000) by (apply Rinv_le_contravar; lra). unfold Rdiv. lra.
Qed.

Lemma tanh_neg x : tanh (- x) = - tanh x.
Proof.
  unfold tanh, sinh, cosh. rewrite Ropp_involutive. pose proof (exp_pos x). pose proof (exp_pos (- x)). field. lra.
Qed.

Lemma fast_tanh_err x : abs_error_le (8 / 10000) (fast_tanh x) (tanh x).
Proof.
  unfold abs_error_le, fast_tanh. pose proof tanh_limit_bounds as TL.
  destruct (Rleb_spec tanh_limit x) as [H|H].
  { pose proof (tanh_far x ltac:(lra)). apply Rabs_le. lra. }
  destruct (Rleb_spec x (- tanh_limit)) as [H'|H'].
  { pose proof (tanh_far (- x) ltac:(lra)) as T. rewrite tanh_neg in T. apply Rabs_le. lra. }
  assert (Hx : -902 / 100 <= x <= 902 / 100) by lra.
  pose proof ln2_num as L.
  assert (C : Rabs (two_over_ln2 * x * ln 2 - 2 * x) <= 4 / 100000).
  { replace (two_over_ln2 * x * ln 2 - 2 * x) with ((two_over_ln2 * ln 2 - 2) * x) by ring.
    rewrite Rabs_mult.
    assert (A : Rabs (two_over_ln2 * ln 2 - 2) <= 4 / 1000000).
    { unfold two_over_ln2. change (IZR (2 ^ 22)) with 4194304.
      assert (12102203 / 4194304 * (6931460 / 10 ^ 7) <= 12102203 / 4194304 * ln 2) by (apply Rmult_le_compat_l; lra).
      assert (12102203 / 4194304 * ln 2 <= 12102203 / 4194304 * (6931473 / 10 ^ 7)) by (apply Rmult_le_compat_l; lra).
      apply Rabs_le. lra. }
    assert (B : Rabs x <= 10) by (apply Rabs_le; lra).
    apply Rle_trans with (4 / 1000000 * 10); [|lra]. apply Rmult_le_compat; try apply Rabs_pos; assumption. }
  assert (T0 : 288 / 100 <= two_over_ln2 <= 289 / 100).
  { unfold two_over_ln2. change (IZR (2 ^ 22)) with 4194304. lra. }
  assert (AX : Rabs (two_over_ln2 * x) <= 30).
  { rewrite Rabs_mult, (Rabs_pos_eq two_over_ln2) by lra.
    assert (Rabs x <= 10) by (apply Rabs_le; lra). pose proof (Rabs_pos x).
    apply Rle_trans with (289 / 100 * 10); [|lra]. apply Rmult_le_compat; lra. }
  pose proof (rnd32_rel (two_over_ln2 * x)) as R.
  set (u := two_over_ln2 * x) in *. set (w := rnd32 u) in *. clearbody u w.
  pose proof AX as AX0. apply Rcomplements.Rabs_le_between in R. apply Rcomplements.Rabs_le_between in AX.
  apply Rcomplements.Rabs_le_between in C.
  destruct (fast_exp2_log w ltac:(lra)) as (P & G). apply Rcomplements.Rabs_le_between in G.
  assert (W : Rabs ((w - u) * ln 2) <= 2 / 1000000).
  { rewrite Rabs_mult, (Rabs_pos_eq (ln 2)) by lra.
    assert (Rabs (w - u) <= 2 / 1000000) by (apply Rabs_le; lra). pose proof (Rabs_pos (w - u)).
    apply Rle_trans with (2 / 1000000 * 1); [|lra]. apply Rmult_le_compat; lra. }
  apply Rcomplements.Rabs_le_between in W.
  assert (D : Rabs (fast_exp2 w - exp (2 * x)) <= 142 / 100000 * exp (2 * x)).
  { apply (log_to_rel _ _ (1410 / 1000000)); try lra; [apply exp_pos|]. rewrite ln_exp. apply Rabs_le. lra. }
  set (E := fast_exp2 w) in *. clearbody E.
  destruct (ratio_shift (exp (2 * x)) E (142 / 100000) (exp_pos _) ltac:(lra) D) as (PE & S).
  pose proof (float_quotient E PE) as FQ. rewrite tanh_exp.
  apply Rcomplements.Rabs_le_between in S. apply Rcomplements.Rabs_le_between in FQ. apply Rabs_le. lra.
Qed.
