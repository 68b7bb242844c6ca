(* C43: the mel filterbank.  C44: the DCT and the MFCC pipeline. *)
From Verif Require Import Common CInt RealUtil ListLemmas NthLemmas MfccModel MfccSpec
  MfccProofs MfccProofs2 MfccProofs3.
From Coq Require Import Rtrigo1 R_Ifp.
Local Open Scope R_scope.

(* Parameters accepted by Initialize. *)
Definition mel_params (fft : Z) (rate : R) (num : Z) (low up : R) : Prop :=
  (1 <= num)%Z /\ 0 < rate /\ (2 <= fft)%Z /\ 0 <= low /\ low < up.


(* For every accepted parameter set with an upper limit up to Nyquist:
   Initialize succeeds from any earlier state, and Compute of every frame of at
   least the declared length gives, in channel c, the sum of the magnitudes
   weighted by triangle c on the mel scale. *)
Theorem C43_compute : forall s0 fft rate num low up,
  mel_params fft rate num low up -> (fft < INT_MAX)%Z -> up <= rate / 2 ->
  exists s, mel_initialize s0 fft rate num low up = Ok (s, true) /\
    forall x, (forall v, In v x -> 0 <= v) -> (fft <= Z.of_nat (length x))%Z ->
      mel_compute s x =
        Ok (Some (map (mel_channel fft rate num low up x) (seq 0 (Z.to_nat num)))).
Proof.
  intros s0 fft rate num low up (H1 & H2 & H3 & H4 & H5) H6 H7.
  destruct (fits fft rate low up) as [F1 F2]; try assumption; [lia|].
  destruct (initialize_ok fft rate num low up H1 H2 H3 H4 H5 s0 F1 F2) as (s & E & Hg).
  exists s. split; [exact E|]. intros x Hx Hl.
  destruct (compute_ok fft rate num low up H1 H2 H3 H4 H5 s x Hg Hx (or_introl H7)) as (e & Ee & ->).
  pose proof (end_nyquist fft rate low up H2 H3 H4 H5 e H7 Ee) as He.
  destruct (Z.leb_spec (Z.of_nat (length x)) e); [lia|reflexivity].
Qed.
Print Assumptions C43_compute.

(* The weights of one bin: between 0 and 1, in at most two neighbouring
   channels, and adding up to one between the first and the last center. *)
Theorem C43_weights : forall fft rate num low up, mel_params fft rate num low up ->
  (forall c i, 0 <= mel_weight fft rate num low up c i <= 1) /\
  (forall c d i, (c + 2 <= d)%nat -> mel_weight fft rate num low up c i = 0 \/
                                 mel_weight fft rate num low up d i = 0) /\
  (forall i, bin_used fft rate low up i = true ->
     mel_scale low + mel_width num low up <= mel_scale (INR i * bin_hz fft rate)
       <= mel_scale low + IZR num * mel_width num low up ->
     rsum (map (fun c => mel_weight fft rate num low up c i) (seq 0 (Z.to_nat num))) = 1) /\
  (forall i, bin_used fft rate low up i = true ->
     rsum (map (fun c => mel_weight fft rate num low up c i) (seq 0 (Z.to_nat num))) <= 1) /\
  mel_weight fft rate num low up 0 0 = 0.
Proof.
  intros fft rate num low up (H1 & H2 & H3 & H4 & H5).
  assert (forall i, bin_used fft rate low up i = true ->
    (-1 <= bchan fft rate num low up i < num)%Z /\ 0 <= bwt fft rate num low up i < 1) as Hb.
  { intros i Hu. split; [now apply chan_range|now apply wt_range]. }
  assert (forall c i, bin_used fft rate low up i = true -> mel_weight fft rate num low up c i =
     (if (Z.of_nat c =? bchan fft rate num low up i)%Z then bwt fft rate num low up i else 0) +
     (if (Z.of_nat c =? bchan fft rate num low up i + 1)%Z then 1 - bwt fft rate num low up i else 0)) as Hw.
  { intros c i Hu. unfold mel_weight. rewrite Hu. now apply triangle_split. }
  split; [|split; [|split; [|split]]].
  - intros c i. destruct (bin_used fft rate low up i) eqn:Hu; [|unfold mel_weight; rewrite Hu; lra].
    rewrite Hw by exact Hu. destruct (Hb i Hu) as [_ B].
    destruct (Z.eqb_spec (Z.of_nat c) (bchan fft rate num low up i));
      destruct (Z.eqb_spec (Z.of_nat c) (bchan fft rate num low up i + 1)); try lia; lra.
  - intros c d i Hcd. destruct (bin_used fft rate low up i) eqn:Hu; [|left; unfold mel_weight; now rewrite Hu].
    rewrite !Hw by exact Hu. set (b := bchan fft rate num low up i).
    destruct (Z.eqb_spec (Z.of_nat c) b); destruct (Z.eqb_spec (Z.of_nat c) (b + 1));
      destruct (Z.eqb_spec (Z.of_nat d) b); destruct (Z.eqb_spec (Z.of_nat d) (b + 1)); try lia;
      (left; lra) || (right; lra).
  - intros i Hu [C1 C2]. rewrite weight_cover by assumption.
    destruct (chan_range fft rate num low up H1 H2 H3 H4 H5 i Hu) as [A [B1 B2]].
    pose proof (width_pos num low up H1 H4 H5) as Hwp.
    assert (0 <= bpos fft rate num low up i <= IZR num - 1) as [P1 P2].
    { unfold bpos. set (m := mel_scale (INR i * bin_hz fft rate)) in *. set (w := mel_width num low up) in *.
      replace ((m - mel_scale low) / w - 1) with ((m - (mel_scale low + w)) / w) by (field; lra).
      split; [apply Rmult_le_pos; [lra|left; now apply Rinv_0_lt_compat]|].
      apply (Rmult_le_reg_r w); [exact Hwp|]. unfold Rdiv. rewrite Rmult_assoc, Rinv_l by lra. lra. }
    assert (bchan fft rate num low up i < num - 1)%Z by (apply lt_IZR; rewrite minus_IZR; lra).
    destruct (Z.ltb_spec (bchan fft rate num low up i + 1) num); [|lia].
    destruct (Z.leb_spec 0 (bchan fft rate num low up i)); [lra|].
    assert (bchan fft rate num low up i = -1)%Z as Em by lia. unfold bwt. rewrite Em in *. lra.
  - intros i Hu. rewrite weight_cover by assumption. destruct (Hb i Hu) as [_ B].
    destruct (0 <=? _)%Z; destruct (_ <? _)%Z; lra.
  - unfold mel_weight. assert (bin_used fft rate low up 0 = false) as ->; [|reflexivity].
    unfold bin_used. rewrite Rltb_false; [reflexivity|]. cbn [INR].
    pose proof (hz_pos fft rate H2 H3) as Hz.
    assert (0 <= low / bin_hz fft rate) by (apply Rmult_le_pos; [lra|left; now apply Rinv_0_lt_compat]). lra.
Qed.
Print Assumptions C43_weights.

(* EstimateInverse: every bin is the square of the sum of its channels' values
   divided by the channels' total weights; needs non-empty channels. *)
Theorem C43_estimate_inverse : forall s0 fft rate num low up,
  mel_params fft rate num low up -> (fft < INT_MAX)%Z -> up <= rate / 2 ->
  (forall c, (c < Z.to_nat num)%nat -> mel_total fft rate num low up c <> 0) ->
  exists s, mel_initialize s0 fft rate num low up = Ok (s, true) /\
    forall m, length m = Z.to_nat num ->
      mel_estimate_inverse s m =
        Ok (Some (map (mel_back fft rate num low up m) (seq 0 (Z.to_nat fft)))).
Proof.
  intros s0 fft rate num low up (H1 & H2 & H3 & H4 & H5) H6 H7 Hnz.
  destruct (fits fft rate low up) as [F1 F2]; try assumption; [lia|].
  destruct (initialize_ok fft rate num low up H1 H2 H3 H4 H5 s0 F1 F2) as (s & E & Hg).
  exists s. split; [exact E|]. intros m Lm. now apply inverse_ok.
Qed.
Print Assumptions C43_estimate_inverse.

(* Wrong arguments are rejected. *)
Theorem C43_rejects : forall s fft rate num low up, ~ mel_params fft rate num low up ->
  exists s', mel_initialize s fft rate num low up = Ok (s', false).
Proof.
  intros s fft rate num low up H. unfold mel_initialize.
  destruct (Z.ltb_spec num 1); [eauto|]. destruct (Rleb_spec rate 0); [eauto|].
  destruct (Z.ltb_spec fft 2); [eauto|]. destruct (Rltb_spec low 0); [eauto|].
  destruct (Rleb_spec up low); [eauto|]. exfalso. apply H. unfold mel_params. repeat split; (lia || lra).
Qed.
Print Assumptions C43_rejects.

(* An upper limit more than a bin above Nyquist is accepted; then Compute of
   any frame longer than the last used bin reads past the weights and
   EstimateInverse of anything writes out of bounds. *)
Theorem C43_above_nyquist_refuted : forall s0 fft rate num low up,
  mel_params fft rate num low up ->
  3 / 2 + low / bin_hz fft rate < IZR INT_MAX -> up / bin_hz fft rate < IZR INT_MAX ->
  low / bin_hz fft rate + 1 / 2 < IZR fft -> IZR fft * bin_hz fft rate <= up ->
  exists s, mel_initialize s0 fft rate num low up = Ok (s, true) /\
    (forall x, (forall v, In v x -> 0 <= v) -> up / bin_hz fft rate < INR (length x) ->
       mel_compute s x = Undef) /\
    (forall m, Z.of_nat (length m) = num -> mel_estimate_inverse s m = Undef).
Proof.
  intros s0 fft rate num low up (H1 & H2 & H3 & H4 & H5) F1 F2 B1 B2.
  destruct (initialize_ok fft rate num low up H1 H2 H3 H4 H5 s0 F1 F2) as (s & E & Hg).
  assert (bin_used fft rate low up (Z.to_nat fft) = true) as Hu.
  { unfold bin_used. rewrite INR_IZR_INZ, Z2Nat.id by lia. rewrite Rltb_true, Rleb_true by assumption. reflexivity. }
  exists s. split; [exact E|]. split.
  - intros x Hx Hl. eapply above_compute; try eassumption.
    destruct Hg as (start & end_ & E1 & E2 & _ & _ & _ & _ & -> & _).
    pose proof (hz_pos fft rate H2 H3) as Hz.
    assert (0 <= up / bin_hz fft rate) by (apply Rmult_le_pos; [lra|left; now apply Rinv_0_lt_compat]).
    apply cast_int_inv in E2; [|assumption]. apply lt_IZR. rewrite <- INR_IZR_INZ. lra.
  - intros m Lm. eapply above_inverse; eassumption.
Qed.
Print Assumptions C43_above_nyquist_refuted.

(* A single channel whose only bin lies exactly on the upper limit:
   EstimateInverse divides zero by zero. *)
Theorem C43_inverse_zero_refuted :
  exists s, mel_initialize mel_new 3 4 1 1 2 = Ok (s, true) /\
    forall y, mel_estimate_inverse s [y] = Undef.
Proof.
  destruct cfg_init as (s & E & Hg & S1 & S2). exists s. split; [exact E|]. intros y. now apply cfg_inverse.
Qed.
Print Assumptions C43_inverse_zero_refuted.

(* After a failed second Initialize the object still claims to be initialised,
   with the new channel count and the old tables: Compute writes out of bounds. *)
Theorem C43_failed_reinitialize_refuted :
  exists s s', mel_initialize mel_new 3 4 1 1 2 = Ok (s, true) /\
    mel_initialize s 3 4 0 1 2 = Ok (s', false) /\
    mel_compute s' [1; 1; 1] = Undef.
Proof.
  destruct cfg_init as (s & E & Hg & S1 & S2).
  destruct (cfg_reinit s 1 1 1 Hg S1 S2) as (s' & E' & E2); try lra. exists s, s'. auto.
Qed.
Print Assumptions C43_failed_reinitialize_refuted.

(* The hypotheses of C43_compute hold for an ordinary configuration: 257 bins
   at 16 kHz, 40 channels from 20 Hz to 4 kHz. *)
Example C43_example : forall x, (forall v, In v x -> 0 <= v) -> length x = 257%nat ->
  exists s m, mel_initialize mel_new 257 16000 40 20 4000 = Ok (s, true) /\
    mel_compute s x = Ok (Some m) /\ length m = 40%nat.
Proof.
  intros x Hx Lx. destruct (C43_compute mel_new 257 16000 40 20 4000) as (s & E & H).
  - unfold mel_params. repeat split; (lia || lra).
  - unfold INT_MAX. lia.
  - lra.
  - exists s. eexists. split; [exact E|]. rewrite H by (assumption || lia). split; [reflexivity|].
    now rewrite map_length, seq_length.
Qed.

(* The DCT: for every length, coefficient count and earlier state, Initialize
   accepts exactly 1 <= count <= length, and then Compute gives the documented
   transform of the input truncated or zero-extended to the length. *)
Theorem C44_transform : forall s0 n cnt,
  (snd (dct_initialize s0 n cnt) = true <-> (1 <= cnt <= n)%Z) /\
  ((1 <= cnt <= n)%Z -> forall x,
     dct_compute (fst (dct_initialize s0 n cnt)) x =
       Ok (Some (map (dct_coefficient (Z.to_nat n) x) (seq 0 (Z.to_nat cnt))))).
Proof.
  intros s0 n cnt. destruct (dct_initialize_iff s0 n cnt) as [H1 H2]. split; [exact H1|].
  intros Hc x. apply dct_compute_ok. now apply H2.
Qed.
Print Assumptions C44_transform.

Theorem C44_linear : forall s0 n cnt a b x y, (1 <= cnt <= n)%Z -> length x = length y ->
  let s := fst (dct_initialize s0 n cnt) in
  exists u v, dct_compute s x = Ok (Some u) /\ dct_compute s y = Ok (Some v) /\
    dct_compute s (map (fun p => a * fst p + b * snd p) (combine x y)) =
      Ok (Some (map (fun p => a * fst p + b * snd p) (combine u v))).
Proof.
  intros s0 n cnt a b x y Hc Hl s.
  destruct (C44_transform s0 n cnt) as [_ H]. unfold s.
  do 2 eexists. split; [now apply H|]. split; [now apply H|]. rewrite H by exact Hc. do 2 f_equal.
  generalize (seq 0 (Z.to_nat cnt)) as l. induction l as [|i l IH]; [reflexivity|].
  cbn [map combine fst snd]. f_equal; [|exact IH].
  unfold dct_coefficient. rewrite <- !rsum_mult, <- rsum_plus. apply rsum_ext. intros j _.
  assert (forall (x y : list R) j, length x = length y ->
    nth j (map (fun p => a * fst p + b * snd p) (combine x y)) 0 = a * nth j x 0 + b * nth j y 0) as Hn.
  { clear. induction x as [|p x IH]; intros [|q y] j Hl; try discriminate; destruct j; cbn; try lra.
    apply IH. now injection Hl. }
  rewrite Hn by exact Hl. ring.
Qed.
Print Assumptions C44_linear.

(* The rows of the transform are orthogonal; all but row 0 have norm one. *)
Theorem C44_orthogonal : forall s0 n cnt i k, (1 <= cnt <= n)%Z ->
  (i < Z.to_nat cnt)%nat -> (k < Z.to_nat cnt)%nat ->
  exists u, dct_compute (fst (dct_initialize s0 n cnt))
      (map (fun j => sqrt (2 / INR (Z.to_nat n)) * cos (PI * INR k * (INR j + 1 / 2) / INR (Z.to_nat n)))
           (seq 0 (Z.to_nat n))) = Ok (Some u) /\
    nth i u 0 = if (i =? k)%nat then (if (i =? 0)%nat then 2 else 1) else 0.
Proof.
  intros s0 n cnt i k Hc Hi Hk. destruct (C44_transform s0 n cnt) as [_ H].
  eexists. split; [now apply H|]. rewrite nth_map_seq by exact Hi. cbn [Nat.add].
  rewrite <- (basis_orth (Z.to_nat n) i k) by lia. unfold dct_coefficient. apply rsum_ext.
  intros j Hj. apply in_seq in Hj. rewrite nth_map_seq by lia. reflexivity.
Qed.
Print Assumptions C44_orthogonal.

(* Dct: a failed second Initialize leaves the object usable but inconsistent. *)
Theorem C44_failed_reinitialize_refuted :
  let s1 := dct_initialize dct_new 10 5 in
  let s2 := dct_initialize (fst s1) 10 20 in
  snd s1 = true /\ snd s2 = false /\ forall v, dct_compute (fst s2) [v] = Undef.
Proof.
  cbv zeta. split; [reflexivity|]. split; [reflexivity|]. intros v.
  unfold dct_compute. cbn [dct_initialize fst snd]. 
  change (dct_initialize dct_new 10 5) with (fst (dct_initialize dct_new 10 5), true).
  set (s1 := fst (dct_initialize dct_new 10 5)).
  assert (length (dc_cosines s1) = 5%nat) as L by reflexivity.
  change (dct_initialize (fst (s1, true)) 10 20) with (mkDct true 20 10 (dc_cosines s1), false).
  cbn [fst dc_init negb dc_count dc_length oguard Z.leb Z.compare].
  change (Z.min (Z.of_nat (length [v])) 10) with 1%Z.
  assert (forall l1 l2, omap_list (dct_row (mkDct true 20 10 (dc_cosines s1)) [v] 1) l2 = Undef ->
    omap_list (dct_row (mkDct true 20 10 (dc_cosines s1)) [v] 1) (l1 ++ l2) = Undef) as Happ.
  { induction l1 as [|z l1 IH]; intros l2 H; [exact H|]. cbn [app omap_list].
    assert (no_check (dct_row (mkDct true 20 10 (dc_cosines s1)) [v] 1 z)) as [->|[r ->]].
    { unfold dct_row. apply no_check_fold. intros a j. apply no_check_bind; [apply vget_inv|]. intros row.
      apply no_check_bind; [apply vget_inv|]. intros c. apply no_check_bind; [apply vget_inv|].
      intros y. apply no_check_ok. }
    - reflexivity.
    - cbn [obind]. rewrite (IH l2 H). reflexivity. }
  change (20 - 1)%Z with 19%Z. rewrite (zrange_split 0 5 19) by lia. rewrite Happ; [reflexivity|].
  cbn [omap_list]. unfold dct_row at 1. change (zrange 0 (1 - 1)) with [0%Z]. cbn [ofold dc_cosines].
  rewrite (vget_undef (dc_cosines s1)) by (rewrite L; lia). reflexivity.
Qed.
Print Assumptions C44_failed_reinitialize_refuted.

(* Mfcc: whatever happened before, after Initialize returned true every
   non-negative frame of the declared length gives the DCT of the log of the
   mel channels, floored at 1e-12, or all zeros if the upper limit lies beyond
   the last bin; after it returned false Compute leaves the output alone. *)
Theorem C44_mfcc : forall s0 len rate s ok, mfcc_initialize s0 len rate = Ok (s, ok) ->
  (ok = false -> forall frame, mfcc_compute s frame = Ok None) /\
  (ok = true ->
     mel_params len rate (mf_channels s0) (mf_low s0) (mf_up s0) /\
     (1 <= mf_coeffs s0 <= mf_channels s0)%Z /\
     (forall p, mfcc_set s p = CheckFail) /\
     forall frame, (forall v, In v frame -> 0 <= v) -> Z.of_nat (length frame) = len ->
       mfcc_compute s frame = Ok (Some (map
         (dct_coefficient (Z.to_nat (mf_channels s0))
            (if Rltb (mf_up s0) (IZR len * bin_hz len rate)
             then map (fun c => ln (Rmax (/ 10 ^ 12)
                      (mel_channel len rate (mf_channels s0) (mf_low s0) (mf_up s0) frame c)))
                    (seq 0 (Z.to_nat (mf_channels s0)))
             else []))
         (seq 0 (Z.to_nat (mf_coeffs s0)))))).
Proof.
  intros s0 len rate s ok. unfold mfcc_initialize.
  destruct (mel_initialize (mf_mel s0) len rate (mf_channels s0) (mf_low s0) (mf_up s0)) as [[me b]| |] eqn:Em;
    cbn [obind]; try discriminate.
  destruct (dct_initialize (mf_dct s0) (mf_channels s0) (mf_coeffs s0)) as [dc b2] eqn:Ed. cbn [snd fst].
  intros E. assert (ok = b && b2)%bool as -> by congruence.
  match type of E with Ok (?v, _) = _ => assert (s = v) as -> by congruence end. clear E.
  split.
  - intros Hf frame. unfold mfcc_compute. cbn [mf_init]. rewrite Hf. reflexivity.
  - intros Ht. apply andb_prop in Ht. destruct Ht as [-> ->].
    assert (mel_params len rate (mf_channels s0) (mf_low s0) (mf_up s0)) as Hp.
    { revert Em. unfold mel_initialize, mel_params.
      destruct (Z.ltb_spec (mf_channels s0) 1); [discriminate|]. destruct (Rleb_spec rate 0); [discriminate|].
      destruct (Z.ltb_spec len 2); [discriminate|]. destruct (Rltb_spec (mf_low s0) 0); [discriminate|].
      destruct (Rleb_spec (mf_up s0) (mf_low s0)); [discriminate|]. intros _. repeat split; (lia || lra). }
    assert (1 <= mf_coeffs s0 <= mf_channels s0)%Z as Hc.
    { apply (proj1 (dct_initialize_iff (mf_dct s0) (mf_channels s0) (mf_coeffs s0))). now rewrite Ed. }
    split; [exact Hp|]. split; [exact Hc|]. split; [reflexivity|].
    intros frame Hx Hl. unfold mfcc_compute. cbn [mf_init mf_mel mf_dct andb negb].
    destruct Hp as (H1 & H2 & H3 & H4 & H5).
    assert (good len rate (mf_channels s0) (mf_low s0) (mf_up s0) me) as Hg.
    { destruct (initialize_good len rate (mf_channels s0) (mf_low s0) (mf_up s0) H1 H2 H3 H4 H5 (mf_mel s0))
        as (o & Eo & [Hu|(s' & Hs' & Hg)]); rewrite Em in Eo; [congruence|].
      rewrite <- Eo in Hs'. assert (s' = me) as <- by congruence. exact Hg. }
    destruct (compute_ok len rate (mf_channels s0) (mf_low s0) (mf_up s0) H1 H2 H3 H4 H5 me frame Hg Hx
      (or_intror (Z.eq_le_incl _ _ Hl))) as (e & Ee & ->). cbn [obind].
    assert (dct_good (mf_channels s0) (mf_coeffs s0) dc) as Hd.
    { pose proof (proj2 (dct_initialize_iff (mf_dct s0) (mf_channels s0) (mf_coeffs s0)) Hc) as Hd.
      now rewrite Ed in Hd. }
    rewrite (dct_compute_ok (mf_channels s0) (mf_coeffs s0)) by exact Hd.
    do 2 f_equal. apply map_ext. intros i. f_equal.
    pose proof (hz_pos len rate H2 H3) as Hz.
    assert (0 <= mf_up s0 / bin_hz len rate) by (apply Rmult_le_pos; [lra|left; now apply Rinv_0_lt_compat]).
    apply cast_int_inv in Ee; [|assumption]. destruct Ee as [[A B] _].
    assert (mf_up s0 = mf_up s0 / bin_hz len rate * bin_hz len rate) as Eup by (field; lra).
    rewrite Hl. destruct (Z.leb_spec len e) as [Hle|Hgt].
    + rewrite Rltb_false; [reflexivity|]. rewrite Eup at 1. apply Rmult_le_compat_r; [lra|].
      apply IZR_le in Hle. lra.
    + rewrite Rltb_true.
      2:{ rewrite Eup at 1. apply Rmult_lt_compat_r; [exact Hz|].
          assert (IZR e + 1 <= IZR len) by (rewrite <- plus_IZR; apply IZR_le; lia). lra. }
      rewrite map_map. apply map_ext. intros c. f_equal. unfold kFilterbankFloor.
      destruct (Rltb_spec (mel_channel len rate (mf_channels s0) (mf_low s0) (mf_up s0) frame c) (/ 10 ^ 12)).
      * rewrite Rmax_left by lra. reflexivity.
      * rewrite Rmax_right by lra. reflexivity.
Qed.
Print Assumptions C44_mfcc.

(* A new Mfcc object can be initialised with 257 bins at 16 kHz. *)
Example C44_example : exists s, mfcc_initialize mfcc_new 257 16000 = Ok (s, true) /\
  forall frame, (forall v, In v frame -> 0 <= v) -> length frame = 257%nat ->
  exists out, mfcc_compute s frame = Ok (Some out) /\ length out = 13%nat.
Proof.
  destruct (C43_compute mel_new 257 16000 40 20 4000) as (m & E & H).
  - unfold mel_params. repeat split; (lia || lra).
  - unfold INT_MAX. lia.
  - lra.
  - eexists. assert (forall s, mfcc_initialize mfcc_new 257 16000 = Ok (s, true) ->
      mfcc_initialize mfcc_new 257 16000 = Ok (s, true) /\ forall frame, (forall v, In v frame -> 0 <= v) ->
      length frame = 257%nat -> exists out, mfcc_compute s frame = Ok (Some out) /\ length out = 13%nat) as Hw.
    { intros s Es. split; [exact Es|]. intros frame Hx Lx.
      destruct (proj2 (C44_mfcc mfcc_new 257 16000 s true Es) eq_refl) as (_ & _ & _ & Hm).
      eexists. split; [apply Hm; [exact Hx|lia]|]. now rewrite map_length, seq_length. }
    apply Hw. unfold mfcc_initialize. cbn [mf_mel mf_channels mf_low mf_up mfcc_new]. rewrite E. cbn [obind].
    reflexivity.
Qed.
