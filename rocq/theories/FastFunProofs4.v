(* Monotonicity of FastLog2 and FastExp2, accuracy of FastPow and FastTanh. *)
From Coq Require Import ZArith Reals List Lia Lra.
From Flocq Require Import Core Relative.
From Coquelicot Require Rcomplements.
From Verif Require Import RealUtil FastFunModel FastFunSpec FastFunProofs FastFunProofs2 FastFunProofs3.
Import ListNotations.
Local Open Scope R_scope.

Fixpoint sortedb (l : list Z) : bool :=
  match l with a :: (b :: _) as r => (a <=? b)%Z && sortedb r | _ => true end.

Lemma sortedb_nth l : sortedb l = true -> forall i j d, (i <= j < length l)%nat ->
  (nth i l d <= nth j l d)%Z.
Proof.
  induction l as [|a l IH]; intros S i j d H; [cbn in H; lia|].
  assert (S' : sortedb l = true /\ forall x, hd_error l = Some x -> (a <= x)%Z).
  { destruct l as [|b r]; [split; [reflexivity|discriminate]|].
    cbn in S. apply andb_prop in S. destruct S as (S1 & S2). apply Z.leb_le in S1.
    split; [exact S2|]. intros x [= <-]. exact S1. }
  destruct S' as (S1 & S2). destruct j as [|j].
  - replace i with 0%nat by lia. lia.
  - destruct i as [|i].
    + cbn. destruct l as [|b r]; [cbn in H; lia|]. specialize (S2 b eq_refl).
      pose proof (IH S1 0%nat j d ltac:(cbn in *; lia)) as G. change (nth 0 (b :: r) d) with b in G. lia.
    + cbn. apply IH; [exact S1|]. cbn in H. lia.
Qed.

Lemma log2_sorted : sortedb log2_table = true /\ length log2_table = 256%nat.
Proof. vm_compute. split; reflexivity. Qed.
Lemma exp2_sorted : sortedb exp2_table = true /\ length exp2_table = 256%nat.
Proof. vm_compute. split; reflexivity. Qed.

Lemma log2_table_mono s s' : (0 <= s <= s')%Z -> (s' < 256)%Z ->
  (nth (Z.to_nat s) log2_table 0%Z <= nth (Z.to_nat s') log2_table 0%Z)%Z.
Proof. intros H H'. destruct log2_sorted as (S & L). apply sortedb_nth; [exact S|]. rewrite L. lia. Qed.
Lemma exp2_table_mono s s' : (0 <= s <= s')%Z -> (s' < 256)%Z ->
  (nth (Z.to_nat s) exp2_table 0%Z <= nth (Z.to_nat s') exp2_table 0%Z)%Z.
Proof. intros H H'. destruct exp2_sorted as (S & L). apply sortedb_nth; [exact S|]. rewrite L. lia. Qed.

Lemma rnd32_mono x y : x <= y -> rnd32 x <= rnd32 y.
Proof. intros H. unfold rnd32. apply round_le; [typeclasses eauto|typeclasses eauto|exact H]. Qed.
Lemma rnd32_0 : rnd32 0 = 0.
Proof. unfold rnd32. apply round_0. typeclasses eauto. Qed.
Lemma rnd32_1 : rnd32 1 = 1.
Proof.
  unfold rnd32. apply round_generic; [typeclasses eauto|]. change 1 with (bpow radix2 0).
  apply generic_format_bpow. vm_compute. discriminate.
Qed.

Lemma fast_log2_mono b b' : (2 ^ 23 <= b <= b')%Z -> (b' < 255 * 2 ^ 23)%Z -> fast_log2 b <= fast_log2 b'.
Proof.
  intros H H'. destruct (significand_index b ltac:(lia)) as (E1 & Hs & E2 & Hq & _).
  destruct (significand_index b' ltac:(lia)) as (E1' & Hs' & E2' & Hq' & _).
  unfold fast_log2. rewrite E1, E2, E1', E2'.
  pose proof (Z.div_le_mono b b' (2 ^ 23) ltac:(lia) ltac:(lia)) as Q.
  assert (EB : forall s, (0 <= s < 256)%Z -> 0 <= log2_entry s <= 1).
  { intros s h. unfold log2_entry. pose proof (table_entry_bounds s h). split.
    - rewrite <- rnd32_0. apply rnd32_mono. lra.
    - rewrite <- rnd32_1. apply rnd32_mono. lra. }
  apply rnd32_mono. destruct (Z.eq_dec (b / 2 ^ 23) (b' / 2 ^ 23)) as [E|N].
  - rewrite <- E. apply Rplus_le_compat_l. unfold log2_entry. apply rnd32_mono.
    assert (S : (b mod 2 ^ 23 / 2 ^ 15 <= b' mod 2 ^ 23 / 2 ^ 15)%Z).
    { apply Z.div_le_mono; [lia|]. pose proof (Z.div_mod b (2 ^ 23) ltac:(lia)).
      pose proof (Z.div_mod b' (2 ^ 23) ltac:(lia)). rewrite E in *. lia. }
    assert (T := log2_table_mono _ _ (conj (proj1 Hs) S) (proj2 Hs')). apply IZR_le in T.
    unfold Rdiv. apply Rmult_le_compat_r; [left; apply Rinv_0_lt_compat, IZR_lt; lia|exact T].
  - pose proof (EB _ Hs). pose proof (EB _ Hs').
    assert (IZR (b / 2 ^ 23 - 127) + 1 <= IZR (b' / 2 ^ 23 - 127)) by (rewrite <- plus_IZR; apply IZR_le; lia).
    lra.
Qed.

Lemma fast_exp2_mono x y : -126 <= x <= y -> y <= 126 -> fast_exp2 x <= fast_exp2 y.
Proof.
  intros H H'. destruct (exp2_form x ltac:(lra)) as (q & r & t & Hq & Hr & Et & EM & ->).
  destruct (exp2_form y ltac:(lra)) as (q' & r' & t' & Hq' & Hr' & Et' & EM' & ->).
  assert (ML : (256 * q + r <= 256 * q' + r')%Z).
  { rewrite EM, EM'. assert (VR : Valid_rnd ZnearestE) by typeclasses eauto.
    assert (ZnearestE ((x + 32895) * 256) <= ZnearestE ((y + 32895) * 256))%Z; [|lia].
    apply (@Zrnd_le ZnearestE VR). lra. }
  destruct (exp_table r Hr) as (Ht & _). rewrite <- Et in Ht.
  destruct (exp_table r' Hr') as (Ht' & _). rewrite <- Et' in Ht'.
  assert (It : 0 <= IZR t <= 8388608) by (split; apply IZR_le; lia).
  assert (It' : 0 <= IZR t' <= 8388608) by (split; apply IZR_le; lia).
  change (IZR (2 ^ 23)) with 8388608.
  pose proof (bpow_gt_0 radix2 (q - 127)) as P. pose proof (bpow_gt_0 radix2 (q' - 127)) as P'.
  destruct (Z.eq_dec q q') as [<-|N].
  - apply Rmult_le_compat_r; [lra|].
    assert (t <= t')%Z. { subst. apply exp2_table_mono; lia. }
    apply IZR_le in H0. lra.
  - apply Rle_trans with (2 * bpow radix2 (q - 127)); [apply Rmult_le_compat_r; lra|].
    apply Rle_trans with (1 * bpow radix2 (q' - 127)); [|apply Rmult_le_compat_r; lra].
    rewrite Rmult_1_l. change 2 with (bpow radix2 1). rewrite <- bpow_plus. apply bpow_le. lia.
Qed.

Lemma fast_exp2_int n : (-126 <= n <= 126)%Z -> fast_exp2 (IZR n) = bpow radix2 n.
Proof.
  intros Hn. assert (Hx : -126 <= IZR n <= 126) by (split; apply IZR_le; lia).
  destruct (exp2_form (IZR n) Hx) as (q & r & t & Hq & Hr & Et & EM & ->).
  assert (VR : Valid_rnd ZnearestE) by typeclasses eauto.
  replace ((IZR n + 32895) * 256) with (IZR ((n + 32895) * 256)) in EM by (rewrite mult_IZR, plus_IZR; reflexivity).
  rewrite (@Zrnd_IZR ZnearestE VR) in EM.
  assert (r = 0)%Z by lia. assert (q = n + 127)%Z by lia. subst q r.
  replace t with 0%Z by (rewrite Et; vm_compute; reflexivity).
  replace (n + 127 - 127)%Z with n by ring. unfold Rdiv. ring.
Qed.

(* --- FastPow --- *)
Lemma ln_pow10_37 : ln (10 ^ 37) <= 123 * ln 2.
Proof.
  change (10 ^ 37) with (pow 10 37).
  replace (123 * ln 2) with (IZR 123 * ln 2) by reflexivity. rewrite <- ln_bpow.
  assert (P : 0 < pow 10 37) by (apply pow_lt; lra).
  assert (pow 10 37 < bpow radix2 123).
  { replace (pow 10 37) with (IZR (10 ^ 37)).
    - replace (bpow radix2 123) with (IZR (2 ^ 123)) by reflexivity. apply IZR_lt. vm_compute. reflexivity.
    - change 37%Z with (Z.of_nat 37). rewrite <- pow_IZR. reflexivity. }
  left. now apply ln_increasing.
Qed.

Lemma float_of_bits_pos b : 0 < float_of_bits b.
Proof.
  unfold float_of_bits. apply Rmult_lt_0_compat; [|apply bpow_gt_0]. apply IZR_lt.
  pose proof (Z.mod_pos_bound b (2 ^ 23) ltac:(lia)). lia.
Qed.

Lemma power_range v y : / 10 ^ 37 <= power v y <= 10 ^ 37 -> Rabs (y * log2 v) <= 123.
Proof.
  intros (H1 & H2). unfold power in *. assert (P : 0 < 10 ^ 37) by (apply pow_lt; lra).
  pose proof ln_pow10_37 as L. pose proof ln2_pos as L2.
  assert (A : y * ln v <= ln (10 ^ 37)).
  { rewrite <- (ln_exp (y * ln v)). destruct (Req_dec (exp (y * ln v)) (10 ^ 37)) as [->|N]; [lra|].
    left. apply ln_increasing; [apply exp_pos|lra]. }
  assert (B : - ln (10 ^ 37) <= y * ln v).
  { rewrite <- ln_Rinv by exact P. rewrite <- (ln_exp (y * ln v)).
    destruct (Req_dec (exp (y * ln v)) (/ 10 ^ 37)) as [->|N]; [lra|].
    left. apply ln_increasing; [apply Rinv_0_lt_compat; exact P|lra]. }
  unfold log2. replace (y * (ln v / ln 2)) with (y * ln v / ln 2) by (unfold Rdiv; ring).
  assert (E : y * ln v / ln 2 * ln 2 = y * ln v) by (field; lra).
  apply Rabs_le. split; apply Rmult_le_reg_r with (ln 2); lra.
Qed.

Lemma fast_pow_err b y : (2 ^ 23 <= b < 255 * 2 ^ 23)%Z -> Rabs y <= 9 / 5 ->
  / 10 ^ 37 <= power (float_of_bits b) y <= 10 ^ 37 ->
  rel_error_le (5 / 1000) (fast_pow b y) (power (float_of_bits b) y).
Proof.
  intros Hb Hy H. apply power_range in H.
  destruct (fast_pow_log b y Hb ltac:(lra) H) as (P & G).
  split; [apply exp_pos|]. apply (log_to_rel _ _ (4916 / 1000000)); try lra.
  - apply exp_pos.
  - unfold power. rewrite ln_exp. lra.
Qed.

Lemma fast_pow_bad : 11 / 10 <= fast_pow (127 * 2 ^ 23) 64.
Proof.
  unfold fast_pow.
  assert (F : Rabs (fast_log2 (127 * 2 ^ 23) - 281 / 100000) <= 1 / 100000).
  { unfold fast_log2.
    replace (Z.land (Z.shiftr (127 * 2 ^ 23) (23 - 8)) (Z.shiftl 1 8 - 1)) with 0%Z by reflexivity.
    replace (Z.land (Z.shiftr (127 * 2 ^ 23) 23) 255 - 127)%Z with 0%Z by reflexivity.
    rewrite Rplus_0_l. unfold log2_entry.
    set (T := IZR (nth (Z.to_nat 0) log2_table 0%Z) / IZR (10 ^ 11)).
    assert (HT : 2810 / 1000000 <= T <= 2814 / 1000000) by (unfold T; cbn [nth Z.to_nat log2_table]; change (IZR (10 ^ 11)) with 100000000000; lra).
    clearbody T.
    assert (R1 : Rabs (rnd32 T - T) <= bpow radix2 (1 - 25)).
    { apply rnd32_err; [|lia]. rewrite Rabs_pos_eq by lra. change (bpow radix2 1) with 2. lra. }
    assert (B24 : bpow radix2 (1 - 25) = / 16777216) by (cbn; lra). rewrite B24 in R1.
    apply Rcomplements.Rabs_le_between in R1.
    assert (R2 : Rabs (rnd32 (rnd32 T) - rnd32 T) <= bpow radix2 (1 - 25)).
    { apply rnd32_err; [|lia]. rewrite Rabs_pos_eq by lra. change (bpow radix2 1) with 2. lra. }
    rewrite B24 in R2. apply Rcomplements.Rabs_le_between in R2. apply Rabs_le. lra. }
  apply Rcomplements.Rabs_le_between in F. set (f := fast_log2 (127 * 2 ^ 23)) in *. clearbody f.
  assert (R1 : Rabs (rnd32 (f * 64) - f * 64) <= bpow radix2 (1 - 25)).
  { apply rnd32_err; [|lia]. rewrite Rabs_pos_eq by lra. change (bpow radix2 1) with 2. lra. }
  assert (B24 : bpow radix2 (1 - 25) = / 16777216) by (cbn; lra). rewrite B24 in R1.
  apply Rcomplements.Rabs_le_between in R1.
  destruct (fast_exp2_log (rnd32 (f * 64)) ltac:(lra)) as (P & G).
  apply Rcomplements.Rabs_le_between in G. pose proof ln2_num as L.
  set (w := rnd32 (f * 64)) in *. clearbody w.
  assert (W : 179 / 1000 * (6931460 / 10 ^ 7) <= w * ln 2) by (apply Rmult_le_compat; lra).
  rewrite <- (exp_ln (fast_exp2 w)) by exact P.
  assert (1 + ln (fast_exp2 w) <= exp (ln (fast_exp2 w))).
  { destruct (Req_dec (ln (fast_exp2 w)) 0) as [->|N]; [rewrite exp_0; lra|]. left. now apply exp_ineq1. }
  lra.
Qed.

Lemma fast_pow_refuted : exists b y, (2 ^ 23 <= b < 255 * 2 ^ 23)%Z /\
  / 10 ^ 37 <= power (float_of_bits b) y <= 10 ^ 37 /\
  ~ rel_error_le (5 / 1000) (fast_pow b y) (power (float_of_bits b) y).
Proof.
  exists (127 * 2 ^ 23)%Z, 64.
  assert (E : power (float_of_bits (127 * 2 ^ 23)) 64 = 1).
  { unfold power. replace (float_of_bits (127 * 2 ^ 23)) with 1.
    - rewrite ln_1, Rmult_0_r. apply exp_0.
    - unfold float_of_bits. change (127 * 2 ^ 23 / 2 ^ 23 - 127 - 23)%Z with (-23)%Z.
      change (2 ^ 23 + (127 * 2 ^ 23) mod 2 ^ 23)%Z with 8388608%Z.
      change (bpow radix2 (-23)) with (/ 8388608). field. }
  rewrite E. split; [lia|]. split.
  - split; [|apply pow_R1_Rle; lra]. rewrite <- Rinv_1. apply Rinv_le_contravar; [lra|]. apply pow_R1_Rle; lra.
  - intros (_ & H). apply Rcomplements.Rabs_le_between in H. pose proof fast_pow_bad. lra.
Qed.
