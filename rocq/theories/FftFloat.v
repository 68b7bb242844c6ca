(* Single-precision values of the band edges for 26 samples at 8000 Hz. *)
From Coq Require Import ZArith Reals Lia Lra.
From Flocq Require Import Core.
From Verif Require Import FastFunModel FastFunProofs2 FastFunProofs4 AgcProofs.
Local Open Scope R_scope.

Lemma rnd32_compute x e n : bpow radix2 (e - 1) <= x < bpow radix2 e -> (-125 <= e)%Z ->
  Rabs (x * bpow radix2 (24 - e) - IZR n) < / 2 -> rnd32 x = IZR n * bpow radix2 (e - 24).
Proof.
  intros B He A. unfold rnd32, round, F2R, scaled_mantissa. cbn [Fnum Fexp].
  assert (M : mag radix2 x = e :> Z).
  { apply mag_unique. rewrite Rabs_pos_eq; [exact B|]. pose proof (bpow_gt_0 radix2 (e - 1)). lra. }
  assert (CE : cexp radix2 (FLT_exp (-149) 24) x = (e - 24)%Z).
  { unfold cexp. rewrite M. unfold FLT_exp. lia. }
  rewrite CE. replace (- (e - 24))%Z with (24 - e)%Z by ring.
  now rewrite (Znearest_imp _ _ n A).
Qed.

Lemma fmt_int n : (Z.abs n < 2 ^ 24)%Z -> rnd32 (IZR n) = IZR n.
Proof.
  intros H. apply rnd_fmt. apply generic_format_FLT. exists (Float radix2 n 0); cbn [Fnum Fexp].
  - unfold F2R. cbn [Fnum Fexp bpow]. ring.
  - exact H.
  - lia.
Qed.

(* sample_rate / 26 *)
Definition bw26 : R := 10082462 * bpow radix2 (-15).
Lemma bw26_rnd : rnd32 (8000 / 26) = bw26.
Proof.
  unfold bw26. apply (rnd32_compute _ 9 10082462).
  - cbn. lra.
  - lia.
  - cbn. unfold Rabs. destruct (Rcase_abs _); lra.
Qed.
Lemma bw26_val : bw26 = 10082462 / 32768.
Proof. unfold bw26. cbn. lra. Qed.
Lemma edge26_rnd : rnd32 (4000 / bw26) = 13631487 * bpow radix2 (-20).
Proof.
  rewrite bw26_val. apply (rnd32_compute _ 4 13631487).
  - cbn. lra.
  - lia.
  - cbn. unfold Rabs. destruct (Rcase_abs _); lra.
Qed.
Lemma edge26_below : rnd32 (4000 / bw26) < 13.
Proof. rewrite edge26_rnd. cbn. lra. Qed.
Lemma edge26_above : 12 <= rnd32 (4000 / bw26).
Proof. rewrite edge26_rnd. cbn. lra. Qed.

Lemma rnd32_33_64 : rnd32 (33 / 64) = 33 / 64.
Proof.
  apply rnd_fmt. apply generic_format_FLT. exists (Float radix2 33 (-6)); cbn [Fnum Fexp].
  - unfold F2R. cbn. lra.
  - cbn. lia.
  - lia.
Qed.
Lemma rnd32_1_64 : rnd32 (1 / 64) = 1 / 64.
Proof.
  apply rnd_fmt. apply generic_format_FLT. exists (Float radix2 1 (-6)); cbn [Fnum Fexp].
  - unfold F2R. cbn. lra.
  - cbn. lia.
  - lia.
Qed.

Lemma limit26 : 4000 < rnd32 (8000 * rnd32 (1 / 2 + rnd32 (1 / 2 / rnd32 26))).
Proof.
  rewrite (fmt_int 26) by (cbn; lia).
  assert (A : 1 / 64 <= rnd32 (1 / 2 / 26)) by (rewrite <- rnd32_1_64; apply rnd32_mono; lra).
  assert (B : 33 / 64 <= rnd32 (1 / 2 + rnd32 (1 / 2 / 26))) by (rewrite <- rnd32_33_64; apply rnd32_mono; lra).
  apply Rlt_le_trans with (IZR 4125); [lra|]. rewrite <- (fmt_int 4125) by (cbn; lia). apply rnd32_mono. lra.
Qed.
Lemma size26 : 4000 <= rnd32 (bw26 * rnd32 14).
Proof.
  rewrite (fmt_int 14) by (cbn; lia). rewrite <- (fmt_int 4000) at 1 by (cbn; lia). apply rnd32_mono. rewrite bw26_val. lra.
Qed.
