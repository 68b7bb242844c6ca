(* Error analysis of FastLog2 and FastExp2. *)
From Coq Require Import ZArith Reals List Lia Lra QArith Qreals.
From Flocq Require Import Core.
From Verif Require Import RealUtil FastFunModel FastFunSpec FastFunProofs.
Import ListNotations.
Local Open Scope R_scope.

#[export] Instance valid32 : Valid_exp (FLT_exp (-149) 24).
Proof. apply FLT_exp_valid. reflexivity. Qed.

Lemma rnd32_err x e : Rabs x < bpow radix2 e -> (-125 <= e)%Z ->
  Rabs (rnd32 x - x) <= bpow radix2 (e - 25).
Proof.
  intros H He. unfold rnd32.
  eapply Rle_trans; [apply error_le_half_ulp; typeclasses eauto|].
  assert (U : ulp radix2 (FLT_exp (-149) 24) x <= bpow radix2 (e - 24)).
  { destruct (Req_dec x 0) as [->|N].
    - eapply Rle_trans; [apply (ulp_le radix2 (FLT_exp (-149) 24) 0 (bpow radix2 (e - 1)))|].
      + rewrite Rabs_R0. apply Rabs_pos.
      + rewrite ulp_bpow. apply bpow_le. unfold FLT_exp. lia.
    - rewrite ulp_neq_0 by exact N. apply bpow_le. unfold cexp, FLT_exp.
      pose proof (mag_le_bpow radix2 x e N H). lia. }
  replace (e - 25)%Z with (-1 + (e - 24))%Z by ring. rewrite bpow_plus.
  change (bpow radix2 (-1)) with (/ 2). apply Rmult_le_compat_l; [lra|exact U].
Qed.


Lemma ln_table s t : (0 <= s < 256)%Z -> IZR s / 256 <= t <= IZR (s + 1) / 256 ->
  Rabs (IZR (nth (Z.to_nat s) log2_table 0%Z) / IZR (10 ^ 11) - log2 (1 + t)) <= 282 / 100000.
Proof.
  intros Hs Ht.
  pose proof (proj1 (forallb_forall log_check indices) log_checks s (in_indices s Hs)) as C.
  unfold log_check in C. apply andb_prop in C. destruct C as (C1 & C2).
  set (T := IZR (nth (Z.to_nat s) log2_table 0%Z) / IZR (10 ^ 11)).
  assert (ET : Q2R (entryQ s) = T) by reflexivity.
  pose proof ln2_num as (L1 & L2).
  assert (Q1 : Q2R ln2lo = 6931460 / 10 ^ 7) by (unfold ln2lo; rewrite q2r_frac; field).
  assert (Q2' : Q2R ln2hi = 6931473 / 10 ^ 7) by (unfold ln2hi; rewrite q2r_frac; field).
  assert (Q3 : Q2R etol = 282 / 100000) by (unfold etol; rewrite q2r_frac; field).
  assert (Is : 0 <= IZR s <= 255) by (split; apply IZR_le; lia).
  assert (Z1 : (0 < s)%Z -> Q2R (s # (512 + Z.to_pos s)) = IZR s / (512 + IZR s)).
  { intros P. rewrite q2r_frac. rewrite Pos2Z.inj_add, Z2Pos.id by lia. rewrite (plus_IZR 512). reflexivity. }
  assert (Z2' : Q2R ((s + 1) # (512 + Z.to_pos (s + 1))) = IZR (s + 1) / (512 + IZR (s + 1))).
  { rewrite q2r_frac. rewrite Pos2Z.inj_add, Z2Pos.id by lia. rewrite (plus_IZR 512). reflexivity. }
  assert (B : forall u, 0 <= u <= 256 -> lnlo (u / (512 + u)) <= ln (1 + u / 256) <= lnhi (u / (512 + u))).
  { intros u Hu. replace (1 + u / 256) with ((1 + u / (512 + u)) / (1 - u / (512 + u))) by (field; lra).
    apply ln_bounds. split.
    - apply Rmult_le_pos; [lra|]. left. apply Rinv_0_lt_compat. lra.
    - apply Rmult_le_reg_r with (512 + u); [lra|]. unfold Rdiv at 1. rewrite Rmult_assoc, Rinv_l by lra. lra. }
  assert (Lo : (T - 282 / 100000) * ln 2 <= ln (1 + t)).
  { apply Bool.orb_prop in C1. destruct C1 as [C1|C1].
    - apply Qle_bool_iff, Qle_Rle in C1. rewrite Q2R_mult, Q2R_minus, qlnlo_R, ET, Q2', Q3 in C1.
      assert (M : ln (1 + IZR s / 256) <= ln (1 + t)).
      { destruct (Req_dec (IZR s / 256) t) as [->|N]; [lra|]. left. apply ln_increasing; lra. }
      assert (G : 0 <= ln (1 + IZR s / 256)).
      { rewrite <- ln_1. destruct (Req_dec (IZR s) 0) as [->|N].
        - right. f_equal. field.
        - left. apply ln_increasing; lra. }
      destruct (Rle_or_lt 0 (T - 282 / 100000)) as [P|P].
      + apply Rle_trans with (ln (1 + IZR s / 256)); [|exact M].
        eapply Rle_trans; [apply Rmult_le_compat_l; [exact P|exact L2]|].
        eapply Rle_trans; [exact C1|].
        destruct (Z.eq_dec s 0) as [->|NZ].
        * rewrite q2r_frac. unfold Rdiv. rewrite !Rmult_0_l. unfold lnlo.
          rewrite Rplus_0_r, ln_1. lra.
        * rewrite Z1 by lia. apply B. lra.
      + apply Rle_trans with 0; [|lra].
        assert (0 <= - (T - 282 / 100000) * ln 2) by (apply Rmult_le_pos; lra). lra.
    - apply andb_prop in C1. destruct C1 as (_ & C1).
      apply Qle_bool_iff, Qle_Rle in C1. rewrite Q2R_minus, ET, Q3 in C1.
      replace (Q2R 0) with 0 in C1 by (unfold Q2R; cbn; field).
      assert (G : 0 <= ln (1 + t)).
      { rewrite <- ln_1. destruct (Req_dec t 0) as [->|N].
        - right. f_equal. field.
        - left. apply ln_increasing; lra. }
      assert (0 <= - (T - 282 / 100000) * ln 2) by (apply Rmult_le_pos; lra). lra. }
  assert (Hi : ln (1 + t) <= (T + 282 / 100000) * ln 2).
  { apply Qle_bool_iff, Qle_Rle in C2. rewrite Q2R_mult, Q2R_plus, qlnhi_R, ET, Q1, Q3, Z2' in C2.
    assert (IZR (s + 1) <= 256) by (apply IZR_le; lia).
    assert (0 <= IZR (s + 1)) by (apply IZR_le; lia).
    assert (M : ln (1 + t) <= ln (1 + IZR (s + 1) / 256)).
    { destruct (Req_dec (IZR (s + 1) / 256) t) as [<-|N]; [lra|]. left. apply ln_increasing; lra. }
    pose proof (B (IZR (s + 1)) ltac:(lra)) as (_ & B2).
    assert (0 <= ln (1 + t)).
      { rewrite <- ln_1. destruct (Req_dec t 0) as [->|N].
        - right. f_equal. field.
        - left. apply ln_increasing; lra. }
    assert (P : 0 <= T + 282 / 100000).
    { destruct (Rle_or_lt 0 (T + 282 / 100000)) as [P|P]; [exact P|].
      assert (0 < - (T + 282 / 100000) * (6931460 / 10 ^ 7)) by (apply Rmult_lt_0_compat; lra). lra. }
    assert ((T + 282 / 100000) * (6931460 / 10 ^ 7) <= (T + 282 / 100000) * ln 2)
      by (apply Rmult_le_compat_l; lra).
    lra. }
  unfold log2. apply Rabs_le.
  assert (E : ln (1 + t) / ln 2 * ln 2 = ln (1 + t)) by (field; lra).
  split.
  - apply Rmult_le_reg_r with (ln 2); [lra|]. lra.
  - apply Rmult_le_reg_r with (ln 2); [lra|]. lra.
Qed.
