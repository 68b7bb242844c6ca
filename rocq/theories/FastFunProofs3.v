(* Error of FastLog2 and FastExp2. *)
From Coq Require Import ZArith Reals List Lia Lra QArith Qreals.
From Flocq Require Import Core.
From Coquelicot Require Rcomplements.
From Verif Require SerializeProofs.
From Verif Require Import RealUtil FastFunModel FastFunSpec FastFunProofs FastFunProofs2.
Import ListNotations.
Local Open Scope R_scope.

Lemma land_low a k : (0 <= k)%Z -> Z.land a (2 ^ k - 1) = (a mod 2 ^ k)%Z.
Proof. intros H. rewrite <- Z.land_ones by exact H. f_equal. rewrite Z.ones_equiv. lia. Qed.

Lemma ln2_pos : 0 < ln 2.
Proof. pose proof ln2_num. lra. Qed.

Lemma ln_bpow e : ln (bpow radix2 e) = IZR e * ln 2.
Proof.
  rewrite bpow_powerRZ. change (IZR radix2) with 2. rewrite powerRZ_Rpower by lra.
  unfold Rpower. now rewrite ln_exp.
Qed.

(* The significand index of a float. *)
Lemma significand_index b : (2 ^ 23 <= b < 255 * 2 ^ 23)%Z ->
  let m := (b mod 2 ^ 23)%Z in
  let s := (m / 2 ^ 15)%Z in
  Z.land (Z.shiftr b (23 - 8)) (Z.shiftl 1 8 - 1) = s /\ (0 <= s < 256)%Z /\
  Z.land (Z.shiftr b 23) 255 = (b / 2 ^ 23)%Z /\ (1 <= b / 2 ^ 23 <= 254)%Z /\
  IZR s / 256 <= IZR m / IZR (2 ^ 23) <= IZR (s + 1) / 256.
Proof.
  intros H m s. change (23 - 8)%Z with 15%Z. change (Z.shiftl 1 8 - 1)%Z with (2 ^ 8 - 1)%Z.
  change 255%Z with (2 ^ 8 - 1)%Z at 1.
  rewrite !land_low by lia. rewrite !Z.shiftr_div_pow2 by lia.
  assert (Hm : (0 <= m < 2 ^ 23)%Z) by (apply Z.mod_pos_bound; lia).
  assert (E : (b / 2 ^ 15 mod 2 ^ 8 = s)%Z).
  { unfold s, m. change (2 ^ 23)%Z with (2 ^ 15 * 2 ^ 8)%Z. 
    rewrite Z.rem_mul_r by lia. rewrite Z.mul_comm, Z.div_add by lia.
    rewrite (Z.div_small (b mod 2 ^ 15)) by (apply Z.mod_pos_bound; lia). lia. }
  assert (Hs : (s * 2 ^ 15 <= m < (s + 1) * 2 ^ 15)%Z).
  { unfold s. pose proof (Z.div_mod m (2 ^ 15) ltac:(lia)).
    pose proof (Z.mod_pos_bound m (2 ^ 15) ltac:(lia)). lia. }
  assert (Hq : (1 <= b / 2 ^ 23 <= 254)%Z).
  { split; [apply Z.div_le_lower_bound; lia|]. apply Zlt_succ_le. apply Z.div_lt_upper_bound; lia. }
  split; [exact E|]. split; [lia|]. split; [apply Z.mod_small; lia|]. split; [exact Hq|]. split.
  - assert (A : IZR s * 32768 <= IZR m) by (change 32768 with (IZR (2 ^ 15)); rewrite <- mult_IZR; apply IZR_le; lia).
    change (IZR (2 ^ 23)) with 8388608. lra.
  - assert (A : IZR m <= IZR (s + 1) * 32768) by (change 32768 with (IZR (2 ^ 15)); rewrite <- mult_IZR; apply IZR_le; lia).
    change (IZR (2 ^ 23)) with 8388608. lra.
Qed.

Lemma log2_value b : (2 ^ 23 <= b)%Z ->
  log2 (float_of_bits b) = IZR (b / 2 ^ 23 - 127) + log2 (1 + IZR (b mod 2 ^ 23) / IZR (2 ^ 23)).
Proof.
  intros H. unfold log2, float_of_bits. pose proof ln2_pos as L.
  assert (Hm : (0 <= b mod 2 ^ 23 < 2 ^ 23)%Z) by (apply Z.mod_pos_bound; lia).
  set (m := (b mod 2 ^ 23)%Z) in *. 
  assert (0 <= IZR m) by (apply IZR_le; lia).
  replace (IZR (2 ^ 23 + m) * bpow radix2 (b / 2 ^ 23 - 127 - 23))
    with ((1 + IZR m / IZR (2 ^ 23)) * bpow radix2 (b / 2 ^ 23 - 127)).
  - rewrite ln_mult; [|change (IZR (2 ^ 23)) with 8388608; lra|apply bpow_gt_0].
    rewrite ln_bpow. field. lra.
  - replace (b / 2 ^ 23 - 127)%Z with (23 + (b / 2 ^ 23 - 127 - 23))%Z at 1 by ring.
    rewrite bpow_plus. rewrite <- Rmult_assoc. f_equal.
    change (bpow radix2 23) with (IZR (2 ^ 23)). rewrite plus_IZR. field. apply IZR_neq. lia.
Qed.

Definition entry_check (s : Z) : bool :=
  let t := nth (Z.to_nat s) log2_table 0%Z in (0 <=? t)%Z && (t <? 10 ^ 11)%Z.
Lemma entry_checks : forallb entry_check indices = true.
Proof. vm_compute. reflexivity. Qed.

Lemma table_entry_bounds s : (0 <= s < 256)%Z ->
  0 <= IZR (nth (Z.to_nat s) log2_table 0%Z) / IZR (10 ^ 11) < 1.
Proof.
  intros Hs. pose proof (proj1 (forallb_forall entry_check indices) entry_checks s (in_indices s Hs)) as C.
  unfold entry_check in C. apply andb_prop in C. destruct C as (C1 & C2).
  apply Z.leb_le, IZR_le in C1. apply Z.ltb_lt, IZR_lt in C2.
  generalize dependent (IZR (nth (Z.to_nat s) log2_table 0%Z)). intros u C1 C2.
  change (IZR (10 ^ 11)) with 100000000000 in *. lra.
Qed.

Lemma fast_log2_err b : (2 ^ 23 <= b < 255 * 2 ^ 23)%Z ->
  Rabs (fast_log2 b - log2 (float_of_bits b)) <= 283 / 100000.
Proof.
  intros H. destruct (significand_index b H) as (E1 & Hs & E2 & Hq & Ht).
  unfold fast_log2. rewrite E1, E2. rewrite log2_value by lia.
  set (s := (b mod 2 ^ 23 / 2 ^ 15)%Z) in *. set (t := IZR (b mod 2 ^ 23) / IZR (2 ^ 23)) in *.
  set (q := (b / 2 ^ 23)%Z) in *.
  pose proof (ln_table s t Hs Ht) as LT. unfold log2_entry.
  pose proof (table_entry_bounds s Hs) as TB.
  set (T := IZR (nth (Z.to_nat s) log2_table 0%Z) / IZR (10 ^ 11)) in *.
  assert (R1 : Rabs (rnd32 T - T) <= bpow radix2 (1 - 25)).
  { apply rnd32_err; [|lia]. rewrite Rabs_pos_eq by lra. change (bpow radix2 1) with 2. lra. }
  assert (B24 : bpow radix2 (1 - 25) = / 16777216) by (cbn; lra). rewrite B24 in R1.
  assert (R2 : Rabs (rnd32 (IZR (q - 127) + rnd32 T) - (IZR (q - 127) + rnd32 T)) <= bpow radix2 (8 - 25)).
  { apply rnd32_err; [|lia]. change (bpow radix2 8) with 256.
    assert (-126 <= IZR (q - 127) <= 127) by (split; apply IZR_le; lia).
    apply Rcomplements.Rabs_le_between in R1. apply Rabs_def1; lra. }
  assert (B17 : bpow radix2 (8 - 25) = / 131072) by (cbn; lra). rewrite B17 in R2.
  apply Rcomplements.Rabs_le_between in R1. apply Rcomplements.Rabs_le_between in R2.
  apply Rcomplements.Rabs_le_between in LT. apply Rabs_le. lra.
Qed.

(* --- FastExp2 --- *)
Lemma exp_table k : (0 <= k < 256)%Z ->
  let t := nth (Z.to_nat k) exp2_table 0%Z in
  (0 <= t < 2 ^ 23)%Z /\ Rabs (ln (1 + IZR t / IZR (2 ^ 23)) - IZR k / 256 * ln 2) <= 1 / 100000.
Proof.
  intros Hk t.
  pose proof (proj1 (forallb_forall exp_check indices) exp_checks k (in_indices k Hk)) as C.
  unfold exp_check in C. fold t in C. clearbody t. apply andb_prop in C. destruct C as (C & C3).
  apply andb_prop in C. destruct C as (C1 & C2). apply Z.leb_le in C1. apply Z.ltb_lt in C2.
  split; [lia|]. apply Bool.orb_prop in C3. destruct C3 as [C3|C3].
  { apply andb_prop in C3. destruct C3 as (E1 & E2). apply Z.eqb_eq in E1. apply Z.eqb_eq in E2. subst.
    unfold Rdiv. rewrite !Rmult_0_l, Rplus_0_r, ln_1, Rminus_0_r, Rabs_R0. lra. }
  cbv zeta in C3. apply andb_prop in C3. destruct C3 as (C3 & C5). apply andb_prop in C3. destruct C3 as (C3 & C4).
  apply Z.ltb_lt in C3. apply Qle_bool_iff, Qle_Rle in C4. apply Qle_bool_iff, Qle_Rle in C5.
  rewrite Q2R_minus, qlnlo_R in C4. rewrite Q2R_plus, qlnhi_R in C5.
  rewrite !Q2R_mult in C4, C5.
  assert (Q1 : Q2R ln2lo = 6931460 / 10 ^ 7) by (unfold ln2lo; rewrite q2r_frac; field).
  assert (Q2' : Q2R ln2hi = 6931473 / 10 ^ 7) by (unfold ln2hi; rewrite q2r_frac; field).
  assert (Z1 : Q2R (t # (2 ^ 24 + Z.to_pos t)) = IZR t / (16777216 + IZR t)).
  { rewrite q2r_frac. rewrite Pos2Z.inj_add, Z2Pos.id by lia. rewrite (plus_IZR (Z.pos (2 ^ 24))). reflexivity. }
  rewrite Z1, Q2', (q2r_frac k 256), (q2r_frac 1 100000) in C4.
  rewrite Z1, Q1, (q2r_frac k 256), (q2r_frac 1 100000) in C5.
  assert (It : 0 < IZR t < 8388608) by (split; apply IZR_lt; lia).
  change (IZR (2 ^ 23)) with 8388608.
  assert (B : lnlo (IZR t / (16777216 + IZR t)) <= ln (1 + IZR t / 8388608) <= lnhi (IZR t / (16777216 + IZR t))).
  { set (u := IZR t) in *. clearbody u.
    replace (1 + u / 8388608) with ((1 + u / (16777216 + u)) / (1 - u / (16777216 + u))) by (field; lra).
    apply ln_bounds. split.
    - apply Rmult_le_pos; [lra|]. left. apply Rinv_0_lt_compat. lra.
    - apply Rmult_le_reg_r with (16777216 + u); [lra|]. unfold Rdiv at 1. rewrite Rmult_assoc, Rinv_l by lra. lra. }
  pose proof ln2_num as (L1 & L2).
  assert (Ik : 0 <= IZR k) by (apply IZR_le; lia).
  assert (IZR k / 256 * (6931460 / 10 ^ 7) <= IZR k / 256 * ln 2) by (apply Rmult_le_compat_l; lra).
  assert (IZR k / 256 * ln 2 <= IZR k / 256 * (6931473 / 10 ^ 7)) by (apply Rmult_le_compat_l; lra).
  apply Rabs_le. lra.
Qed.

(* The rounding step of FastExp2. *)
Lemma exp2_round x : -126 <= x <= 126 ->
  let M := (ZnearestE ((x + 32895) * 256) - 2 ^ 23)%Z in
  (256 <= M <= 64768)%Z /\ bits_of_float (rnd32 (x + IZR (127 + Z.shiftl 1 (23 - 8)))) = (142 * 2 ^ 23 + M)%Z.
Proof.
  intros Hx M. change (127 + Z.shiftl 1 (23 - 8))%Z with 32895%Z.
  assert (VR : Valid_rnd ZnearestE) by typeclasses eauto.
  assert (HM : (256 <= M <= 64768)%Z).
  { unfold M. split.
    - assert (8388864 <= ZnearestE ((x + 32895) * 256))%Z; [|lia].
      rewrite <- (@Zrnd_IZR ZnearestE VR 8388864). apply (@Zrnd_le ZnearestE VR). lra.
    - assert (ZnearestE ((x + 32895) * 256) <= 8453376)%Z; [|lia].
      rewrite <- (@Zrnd_IZR ZnearestE VR 8453376). apply (@Zrnd_le ZnearestE VR). lra. }
  split; [exact HM|].
  assert (MG : mag radix2 (x + 32895) = 16%Z :> Z).
  { apply mag_unique. change (16 - 1)%Z with 15%Z. change (bpow radix2 15) with 32768. change (bpow radix2 16) with 65536.
    rewrite Rabs_pos_eq; lra. }
  assert (EN : ZnearestE ((x + 32895) * 256) = (2 ^ 23 + M)%Z) by (unfold M; lia).
  assert (Y : rnd32 (x + 32895) = IZR (2 ^ 23 + M) * bpow radix2 (-8)).
  { unfold rnd32, round, scaled_mantissa, cexp, F2R. rewrite MG. cbn [Fnum Fexp].
    change (FLT_exp (-149) 24 16) with (-8)%Z. change (bpow radix2 (- -8)) with 256. now rewrite EN. }
  rewrite Y. unfold bits_of_float.
  assert (Hn : 8388864 <= IZR (2 ^ 23 + M) <= 8453376) by (split; apply IZR_le; lia).
  assert (MG2 : mag radix2 (IZR (2 ^ 23 + M) * bpow radix2 (-8)) = 16%Z :> Z).
  { apply mag_unique. change (16 - 1)%Z with 15%Z. change (bpow radix2 15) with 32768. change (bpow radix2 16) with 65536.
    change (bpow radix2 (-8)) with (/ 256). rewrite Rabs_pos_eq; lra. }
  rewrite MG2. change (16 - 1)%Z with 15%Z. change (23 - 15)%Z with 8%Z.
  rewrite Rmult_assoc, <- bpow_plus. change (bpow radix2 (-8 + 8)) with 1. rewrite Rmult_1_r, Ztrunc_IZR. lia.
Qed.

Lemma land_mid a : Z.land a (Z.shiftl 255 8) = Z.shiftl (Z.land (Z.shiftr a 8) 255) 8.
Proof.
  apply Z.bits_inj'. intros n Hn. rewrite Z.land_spec.
  destruct (Z.lt_ge_cases n 8) as [L|G].
  - rewrite !Z.shiftl_spec_low by lia. apply Bool.andb_false_r.
  - rewrite !Z.shiftl_spec by lia. rewrite Z.land_spec, Z.shiftr_spec by lia.
    replace (n - 8 + 8)%Z with n by ring. reflexivity.
Qed.

Lemma exp2_bits M t : (0 <= M < 65536)%Z -> (0 <= t < 2 ^ 23)%Z ->
  Z.lor (Z.shiftl (Z.land (142 * 2 ^ 23 + M) (Z.shiftl 255 8)) (23 - 8)) t = (M / 256 * 2 ^ 23 + t)%Z.
Proof.
  intros HM Ht. rewrite land_mid, Z.shiftl_shiftl by lia. change (8 + (23 - 8))%Z with 23%Z.
  rewrite SerializeProofs.lor_shift_l by lia. change 255%Z with (2 ^ 8 - 1)%Z. rewrite land_low by lia.
  rewrite Z.shiftr_div_pow2 by lia.
  replace ((142 * 2 ^ 23 + M) / 2 ^ 8)%Z with (M / 256 + 142 * 2 ^ 7 * 2 ^ 8)%Z.
  - rewrite Z.mod_add by lia. rewrite Z.mod_small; [lia|]. split; [apply Z.div_pos; lia|].
    apply Z.div_lt_upper_bound; lia.
  - replace (142 * 2 ^ 23 + M)%Z with (M + 142 * 2 ^ 15 * 2 ^ 8)%Z by lia.
    rewrite Z.div_add by lia. change (2 ^ 8)%Z with 256%Z. lia.
Qed.

Lemma exp2_form x : -126 <= x <= 126 ->
  exists q r t, (1 <= q <= 253)%Z /\ (0 <= r < 256)%Z /\ t = nth (Z.to_nat r) exp2_table 0%Z /\
    (256 * q + r)%Z = (ZnearestE ((x + 32895) * 256) - 2 ^ 23)%Z /\
    fast_exp2 x = (1 + IZR t / IZR (2 ^ 23)) * bpow radix2 (q - 127).
Proof.
  intros Hx. destruct (exp2_round x Hx) as (HM & EB).
  set (M := (ZnearestE ((x + 32895) * 256) - 2 ^ 23)%Z) in *.
  unfold fast_exp2. rewrite EB.
  assert (ER : Z.land (142 * 2 ^ 23 + M) 255 = (M mod 256)%Z).
  { change 255%Z with (2 ^ 8 - 1)%Z. rewrite land_low by lia. 
    replace (142 * 2 ^ 23 + M)%Z with (M + 142 * 2 ^ 15 * 2 ^ 8)%Z by lia. rewrite Z.mod_add by lia. reflexivity. }
  rewrite ER. assert (Hr : (0 <= M mod 256 < 256)%Z) by (apply Z.mod_pos_bound; lia).
  destruct (exp_table (M mod 256) Hr) as (Ht & _).
  rewrite exp2_bits by lia. exists (M / 256)%Z, (M mod 256)%Z, (nth (Z.to_nat (M mod 256)) exp2_table 0%Z).
  assert (Hq : (1 <= M / 256 <= 253)%Z).
  { split; [apply Z.div_le_lower_bound; lia|]. apply Z.div_le_upper_bound; lia. }
  split; [exact Hq|]. split; [exact Hr|]. split; [reflexivity|].
  split; [pose proof (Z.div_mod M 256 ltac:(lia)); lia|].
  set (t := nth _ _ _) in *. clearbody t. set (q := (M / 256)%Z) in *. clearbody q.
  assert (Em : ((q * 2 ^ 23 + t) mod 2 ^ 23 = t)%Z)
    by (rewrite Z.add_comm, Z.mod_add by lia; apply Z.mod_small; lia).
  assert (Ed : ((q * 2 ^ 23 + t) / 2 ^ 23 = q)%Z)
    by (rewrite Z.div_add_l by lia; rewrite Z.div_small by lia; lia).
  unfold float_of_bits. rewrite Em, Ed.
  replace (q - 127)%Z with (23 + (q - 127 - 23))%Z at 2 by ring.
  rewrite bpow_plus. rewrite <- Rmult_assoc. f_equal.
  change (bpow radix2 23) with (IZR (2 ^ 23)). rewrite plus_IZR. field. apply IZR_neq. lia.
Qed.

Lemma fast_exp2_log x : -126 <= x <= 126 ->
  0 < fast_exp2 x /\ Rabs (ln (fast_exp2 x) - x * ln 2) <= 1364 / 1000000.
Proof.
  intros Hx. destruct (exp2_form x Hx) as (q & r & t & Hq & Hr & -> & EM & ->).
  destruct (exp_table r Hr) as (Ht & LT). set (t := nth _ _ _) in *. clearbody t.
  assert (It : 0 <= IZR t) by (apply IZR_le; lia).
  assert (P1 : 0 < 1 + IZR t / IZR (2 ^ 23)) by (change (IZR (2 ^ 23)) with 8388608; lra).
  pose proof (bpow_gt_0 radix2 (q - 127)) as P2.
  split; [apply Rmult_lt_0_compat; assumption|].
  rewrite ln_mult by assumption. rewrite ln_bpow.
  pose proof (Znearest_half (fun n => negb (Z.even n)) ((x + 32895) * 256)) as NH.
  pose proof ln2_num as L.
  replace (ZnearestE ((x + 32895) * 256)) with (256 * q + r + 2 ^ 23)%Z in NH by lia.
  rewrite !plus_IZR, mult_IZR in NH. change (IZR (2 ^ 23)) with 8388608 in *. rewrite minus_IZR.
  set (A := ln (1 + IZR t / 8388608)) in *. clearbody A.
  assert (D : Rabs ((IZR q + IZR r / 256 - 127 - x) * ln 2) <= 1 / 512 * ln 2).
  { rewrite Rabs_mult, (Rabs_pos_eq (ln 2)) by lra. apply Rmult_le_compat_r; [lra|].
    apply Rcomplements.Rabs_le_between in NH. apply Rabs_le. lra. }
  apply Rcomplements.Rabs_le_between in D. apply Rcomplements.Rabs_le_between in LT. apply Rabs_le. lra.
Qed.

(* A logarithmic error is a relative error. *)
Lemma log_to_rel a b d e : 0 < a -> 0 < b -> 0 <= d < 1 -> d / (1 - d) <= e ->
  Rabs (ln a - ln b) <= d -> Rabs (a - b) <= e * b.
Proof.
  intros Ha Hb Hd He H. apply Rcomplements.Rabs_le_between in H.
  assert (E : a = b * exp (ln a - ln b)).
  { unfold Rminus. rewrite exp_plus, exp_Ropp, !exp_ln by assumption. field. lra. }
  assert (X : forall u, - d <= u <= d -> - e <= exp u - 1 <= e).
  { intros u Hu. assert (LB : forall v, 1 + v <= exp v).
    { intros v. destruct (Req_dec v 0) as [->|N]; [rewrite exp_0; lra|]. left. now apply exp_ineq1. }
    assert (d <= d / (1 - d)).
    { apply Rmult_le_reg_r with (1 - d); [lra|]. unfold Rdiv. rewrite Rmult_assoc, Rinv_l by lra.
      assert (0 <= d * d) by (apply Rmult_le_pos; lra). lra. }
    split; [pose proof (LB u); lra|].
    pose proof (LB (- u)) as L2. rewrite exp_Ropp in L2. pose proof (exp_pos u) as P.
    assert (exp u <= / (1 - d)).
    { apply Rmult_le_reg_r with (1 - d); [lra|]. rewrite Rinv_l by lra.
      apply Rle_trans with (exp u * / exp u); [|rewrite Rinv_r by lra; lra].
      apply Rmult_le_compat_l; lra. }
    replace (d / (1 - d)) with (/ (1 - d) - 1) in He by (field; lra). lra. }
  specialize (X (ln a - ln b) H).
  replace (a - b) with (b * (exp (ln a - ln b) - 1)) by (rewrite Rmult_minus_distr_l, <- E; ring).
  rewrite Rabs_mult, (Rabs_pos_eq b) by lra. rewrite Rmult_comm. apply Rmult_le_compat_r; [lra|].
  apply Rabs_le. lra.
Qed.

Lemma fast_exp2_err x : -126 <= x <= 126 -> rel_error_le (14 / 10000) (fast_exp2 x) (exp2 x).
Proof.
  intros Hx. destruct (fast_exp2_log x Hx) as (P & H). unfold rel_error_le, exp2.
  split; [apply exp_pos|]. apply (log_to_rel _ _ (1364 / 1000000)); try lra.
  - apply exp_pos.
  - rewrite ln_exp. exact H.
Qed.

(* --- FastPow --- *)
Lemma fast_pow_log b y : (2 ^ 23 <= b < 255 * 2 ^ 23)%Z -> Rabs y <= 1000 ->
  Rabs (y * log2 (float_of_bits b)) <= 123 ->
  0 < fast_pow b y /\
  Rabs (ln (fast_pow b y) - y * ln (float_of_bits b)) <= 197 / 100000 * Rabs y + 137 / 100000.
Proof.
  intros Hb Hy H. pose proof (fast_log2_err b Hb) as L. unfold fast_pow.
  set (l := log2 (float_of_bits b)) in *. set (f := fast_log2 b) in *.
  assert (E : ln (float_of_bits b) = l * ln 2) by (unfold l, log2; field; pose proof ln2_pos; lra).
  rewrite E.
  assert (D : Rabs (f * y - y * l) <= 283 / 100000 * Rabs y).
  { replace (f * y - y * l) with ((f - l) * y) by ring. rewrite Rabs_mult.
    apply Rmult_le_compat_r; [apply Rabs_pos|exact L]. }
  pose proof (Rabs_pos y) as Py.
  apply Rcomplements.Rabs_le_between in D. apply Rcomplements.Rabs_le_between in H.
  assert (R1 : Rabs (rnd32 (f * y) - f * y) <= bpow radix2 (7 - 25)).
  { apply rnd32_err; [|lia]. change (bpow radix2 7) with 128. apply Rabs_def1; lra. }
  assert (B18 : bpow radix2 (7 - 25) = / 262144) by (cbn; lra). rewrite B18 in R1.
  apply Rcomplements.Rabs_le_between in R1.
  destruct (fast_exp2_log (rnd32 (f * y)) ltac:(lra)) as (P & G). split; [exact P|].
  set (w := rnd32 (f * y)) in *. clearbody w.
  pose proof ln2_num as L2.
  assert (D2 : Rabs ((w - y * l) * ln 2) <= (283 / 100000 * Rabs y + / 262144) * ln 2).
  { rewrite Rabs_mult, (Rabs_pos_eq (ln 2)) by lra. apply Rmult_le_compat_r; [lra|]. apply Rabs_le. lra. }
  assert (D3 : (283 / 100000 * Rabs y + / 262144) * ln 2 <= 197 / 100000 * Rabs y + 6 / 1000000).
  { apply Rle_trans with ((283 / 100000 * Rabs y + / 262144) * (6931473 / 10 ^ 7)); [apply Rmult_le_compat_l; lra|]. lra. }
  apply Rcomplements.Rabs_le_between in D2. apply Rcomplements.Rabs_le_between in G. apply Rabs_le. lra.
Qed.
