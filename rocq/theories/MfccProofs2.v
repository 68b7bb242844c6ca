From Verif Require Import Common CInt RealUtil ListLemmas NthLemmas MfccModel MfccSpec MfccProofs.
From Coq Require Import Rtrigo1 R_Ifp FinFun.
Local Open Scope R_scope.

Section Mel.
Variables (fft : Z) (rate : R) (num : Z) (low up : R).
Hypotheses (Hnum : (1 <= num)%Z) (Hrate : 0 < rate) (Hfft : (2 <= fft)%Z)
           (Hlow : 0 <= low) (Hup : low < up).
Let hz := bin_hz fft rate.
Let good := good fft rate num low up.
Let used := bin_used fft rate low up.
Let wt c i := mel_weight fft rate num low up c i.

Lemma compute_fold s x : good s -> (forall v, In v x -> 0 <= v) ->
  (forall l m, length m = Z.to_nat num ->
  Forall (fun i => (0 <= i < fft /\ i < Z.of_nat (length x))%Z /\ used (Z.to_nat i) = true) l ->
  exists m', ofold (mel_compute_bin s x) m l = Ok m' /\ length m' = Z.to_nat num /\
    forall c, (c < Z.to_nat num)%nat -> nth c m' 0 = nth c m 0 +
      rsum (map (fun z => wt c (Z.to_nat z) * sqrt (nth (Z.to_nat z) x 0)) l)).
Proof.
  intros (start & end_ & E1 & E2 & Gi & Gn & Gf & Gs & Ge & Lw & Lm & Hwm & Ls & Hs) Hx.
  induction l as [|i l IH]; intros m Lm0 HF.
  - exists m. split; [reflexivity|]. split; [exact Lm0|]. intros c Hc. cbn. lra.
  - pose proof (Forall_inv HF) as [[Hi1 Hi2] Hu]. apply Forall_inv_tail in HF.
    destruct (Hwm (Z.to_nat i) ltac:(lia) Hu) as [Ew Em].
    assert (-1 <= bchan fft rate num low up (Z.to_nat i) < num)%Z as Hc
      by (apply (chan_range fft rate num low up); assumption).
    cbn [ofold]. unfold mel_compute_bin at 1.
    rewrite (vget_ok 0) by lia. cbn [obind]. unfold oguard.
    assert (0 <= nth (Z.to_nat i) x 0) as Hxi by (apply Hx, nth_In; lia).
    rewrite Rleb_true by exact Hxi.
    rewrite (vget_ok 0 (me_weights s)), (vget_ok 0%Z (me_mapper s)) by lia. cbn [obind].
    rewrite Ew, Em, Gn. set (b := bchan fft rate num low up (Z.to_nat i)) in *.
    set (w := bwt fft rate num low up (Z.to_nat i)) in *. set (v := sqrt (nth (Z.to_nat i) x 0)) in *.
    destruct (scatter m num b (v * w) (v - v * w) Lm0 Hc) as (m1 & -> & L1 & H1). cbn [obind].
    destruct (IH m1 L1 HF) as (m2 & E & L2 & H2). exists m2. split; [exact E|]. split; [exact L2|].
    intros c Hcc. rewrite H2, H1 by exact Hcc. cbn [map rsum fold_right]. fold v.
    unfold wt at 2, mel_weight. fold used. rewrite Hu. rewrite triangle_split by assumption.
    fold b. fold w. fold (rsum (map (fun z => wt c (Z.to_nat z) * sqrt (nth (Z.to_nat z) x 0)) l)).
    destruct (Z.of_nat c =? b)%Z; destruct (Z.of_nat c =? b + 1)%Z; ring.
Qed.

Lemma end_nyquist end_ : up <= rate / 2 -> cast_int (up / hz) = Ok end_ -> (end_ < fft)%Z.
Proof.
  intros Hn E. pose proof (hz_pos fft rate Hrate Hfft) as Hz. fold hz in Hz.
  assert (0 <= up / hz) by (apply Rmult_le_pos; [lra|left; now apply Rinv_0_lt_compat]).
  apply cast_int_inv in E; [|assumption]. destruct E as [[E _] _].
  assert (up / hz <= IZR fft - 1).
  { apply (Rmult_le_reg_r hz); [exact Hz|]. unfold Rdiv at 1. rewrite Rmult_assoc, Rinv_l by lra.
    rewrite Rmult_1_r. unfold hz, bin_hz. apply IZR_le in Hfft.
    replace ((IZR fft - 1) * (rate / (2 * (IZR fft - 1)))) with (rate / 2) by (field; lra). exact Hn. }
  apply lt_IZR. lra.
Qed.

Lemma range_used start end_ : cast_int (3 / 2 + low / hz) = Ok start -> cast_int (up / hz) = Ok end_ ->
  (0 <= start)%Z /\ (0 <= end_)%Z /\
  forall i, (start <= i <= end_)%Z -> used (Z.to_nat i) = true.
Proof.
  intros E1 E2. pose proof (hz_pos fft rate Hrate Hfft) as Hz. fold hz in Hz.
  assert (0 <= low / hz) by (apply Rmult_le_pos; [lra|left; now apply Rinv_0_lt_compat]).
  assert (0 <= up / hz) by (apply Rmult_le_pos; [lra|left; now apply Rinv_0_lt_compat]).
  pose proof (cast_int_inv (3 / 2 + low / hz) _ ltac:(lra) E1) as [_ Hs].
  pose proof (cast_int_inv (up / hz) _ ltac:(lra) E2) as [_ He].
  split; [lia|]. split; [lia|]. intros i Hi.
  apply (used_iff fft rate num low up Hrate Hfft Hlow Hup start end_); [exact E1|exact E2|lia].
Qed.

(* Compute, either with an upper limit up to Nyquist or with a frame of the
   declared length. *)
Lemma compute_ok s x : good s -> (forall v, In v x -> 0 <= v) ->
  up <= rate / 2 \/ (Z.of_nat (length x) <= fft)%Z ->
  exists end_, cast_int (up / hz) = Ok end_ /\
  mel_compute s x = Ok (if (Z.of_nat (length x) <=? end_)%Z then None
    else Some (map (mel_channel fft rate num low up x) (seq 0 (Z.to_nat num)))).
Proof.
  intros Hg Hx Hcase. pose proof Hg as (start & end_ & E1 & E2 & Gi & Gn & Gf & Gs & Ge & Lw & Lm & Hwm & Ls & Hs).
  exists end_. split; [exact E2|]. unfold mel_compute. rewrite Gi, Ge. cbn [negb].
  destruct (range_used start end_ E1 E2) as (H0s & H0e & Hru).
  destruct (Z.ltb_spec end_ 0); [lia|]. cbn [orb].
  destruct (Z.leb_spec (Z.of_nat (length x)) end_) as [Hl|Hl]; [reflexivity|].
  assert (end_ < fft)%Z as Hef.
  { destruct Hcase as [Hn|Hn]; [now apply end_nyquist|lia]. }
  rewrite Gn, Gs. unfold oguard. destruct (Z.leb_spec 0 num); [|lia].
  destruct (compute_fold s x Hg Hx (zrange start end_) (repeat 0 (Z.to_nat num))) as (m & E & L & H1).
  - apply repeat_length.
  - apply Forall_forall. intros i Hi. apply zrange_in in Hi. split; [lia|]. apply Hru. exact Hi.
  - rewrite E. cbn [omap obind]. do 2 f_equal. apply (nth_ext _ _ 0 0); [now rewrite map_length, seq_length|].
    intros c Hc. rewrite L in Hc. rewrite H1 by exact Hc. rewrite nth_map_seq by exact Hc. cbn [Nat.add].
    rewrite nth_repeat, Rplus_0_l. unfold mel_channel.
    rewrite (rsum_range fft rate num low up Hrate Hfft Hlow Hup start end_ (fun i => wt c i * sqrt (nth i x 0)) E1 E2 Hef).
    apply rsum_ext. intros i _. unfold wt, mel_weight. destruct (bin_used fft rate low up i); ring.
Qed.

Lemma weight_cover i : used i = true ->
  rsum (map (fun c => wt c i) (seq 0 (Z.to_nat num))) =
    (if (0 <=? bchan fft rate num low up i)%Z then bwt fft rate num low up i else 0) +
    (if (bchan fft rate num low up i + 1 <? num)%Z then 1 - bwt fft rate num low up i else 0).
Proof.
  intros Hu. destruct (chan_range fft rate num low up Hnum Hrate Hfft Hlow Hup i Hu) as [Hc _].
  set (b := bchan fft rate num low up i) in *. set (w := bwt fft rate num low up i).
  rewrite (rsum_ext _ (fun c => (if (Z.of_nat c =? b)%Z then w else 0) + (if (Z.of_nat c =? b + 1)%Z then 1 - w else 0))).
  2:{ intros c _. unfold wt, mel_weight. fold used. rewrite Hu. now apply triangle_split. }
  assert (forall z v n, rsum (map (fun c => if (Z.of_nat c =? z)%Z then v else 0) (seq 0 n)) =
    if ((0 <=? z) && (z <? Z.of_nat n))%Z then v else 0) as Hone.
  { intros z v. induction n as [|n IH].
    - cbn. destruct (Z.leb_spec 0 z); [|reflexivity]. cbn [andb]. destruct (Z.ltb_spec z 0); [lia|reflexivity].
    - rewrite seq_S, map_app, rsum_app, IH. cbn [map rsum fold_right Nat.add].
      destruct (Z.leb_spec 0 z); cbn [andb].
      + destruct (Z.ltb_spec z (Z.of_nat n)); destruct (Z.eqb_spec (Z.of_nat n) z);
          destruct (Z.ltb_spec z (Z.of_nat (S n))); try lia; lra.
      + destruct (Z.eqb_spec (Z.of_nat n) z); [lia|lra]. }
  assert (forall f g (l : list nat), rsum (map (fun c => f c + g c) l) = rsum (map f l) + rsum (map g l)) as Hadd.
  { intros f g l. induction l; cbn; [lra|]. unfold rsum in IHl. rewrite IHl. lra. }
  rewrite Hadd, !Hone. rewrite Z2Nat.id by lia. 
  destruct (Z.ltb_spec b num); [|lia]. destruct (Z.leb_spec 0 (b + 1)); [|lia]. rewrite andb_true_r. reflexivity.
Qed.

(* the sum over the channels of the inverse *)
Lemma back_sum m i : used i = true ->
  rsum (map (fun c => wt c i * nth c m 0 / mel_total fft rate num low up c) (seq 0 (Z.to_nat num))) =
    (let b := bchan fft rate num low up i in let w := bwt fft rate num low up i in
     (if (b + 1 <? num)%Z then (1 - w) * nth (Z.to_nat (b + 1)) m 0 / mel_total fft rate num low up (Z.to_nat (b + 1)) else 0) +
     (if (0 <=? b)%Z then w * nth (Z.to_nat b) m 0 / mel_total fft rate num low up (Z.to_nat b) else 0)).
Proof.
  intros Hu. destruct (chan_range fft rate num low up Hnum Hrate Hfft Hlow Hup i Hu) as [Hc _].
  cbv zeta.
  set (b := bchan fft rate num low up i) in *. set (w := bwt fft rate num low up i).
  set (g := fun c => nth c m 0 / mel_total fft rate num low up c).
  rewrite (rsum_ext _ (fun c => (if (Z.of_nat c =? b)%Z then w * g (Z.to_nat b) else 0) +
    (if (Z.of_nat c =? b + 1)%Z then (1 - w) * g (Z.to_nat (b + 1)) else 0))).
  2:{ intros c _. unfold wt, mel_weight. fold used. rewrite Hu. rewrite triangle_split by assumption.
      fold b. fold w. unfold g. destruct (Z.eqb_spec (Z.of_nat c) b) as [E|E].
      - rewrite <- E at 2 3. rewrite !Nat2Z.id. destruct (Z.eqb_spec (Z.of_nat c) (b + 1)); [lia|].
        unfold Rdiv. ring.
      - destruct (Z.eqb_spec (Z.of_nat c) (b + 1)) as [E3|E3]; [|unfold Rdiv; ring].
        rewrite <- E3. rewrite !Nat2Z.id. unfold Rdiv. ring. }
  assert (forall z v n, rsum (map (fun c => if (Z.of_nat c =? z)%Z then v else 0) (seq 0 n)) =
    if ((0 <=? z) && (z <? Z.of_nat n))%Z then v else 0) as Hone.
  { intros z v. induction n as [|n IH].
    - cbn. destruct (Z.leb_spec 0 z); [|reflexivity]. cbn [andb]. destruct (Z.ltb_spec z 0); [lia|reflexivity].
    - rewrite seq_S, map_app, rsum_app, IH. cbn [map rsum fold_right Nat.add].
      destruct (Z.leb_spec 0 z); cbn [andb].
      + destruct (Z.ltb_spec z (Z.of_nat n)); destruct (Z.eqb_spec (Z.of_nat n) z);
          destruct (Z.ltb_spec z (Z.of_nat (S n))); try lia; lra.
      + destruct (Z.eqb_spec (Z.of_nat n) z); [lia|lra]. }
  assert (forall f g (l : list nat), rsum (map (fun c => f c + g c) l) = rsum (map f l) + rsum (map g l)) as Hadd.
  { intros f g' l. induction l; cbn; [lra|]. unfold rsum in IHl. rewrite IHl. lra. }
  rewrite Hadd, !Hone. rewrite Z2Nat.id by lia.
  destruct (Z.ltb_spec b num); [|lia]. destruct (Z.leb_spec 0 (b + 1)); [|lia]. rewrite andb_true_r. cbn [andb].
  unfold g. destruct (b + 1 <? num)%Z; destruct (0 <=? b)%Z; unfold Rdiv; ring.
Qed.

Lemma vadd_nth l c y : (0 <= c < Z.of_nat (length l))%Z ->
  vadd l c y = Ok (splice (Z.to_nat c) [nth (Z.to_nat c) l 0 + y] l).
Proof. intros H. unfold vadd. rewrite (vget_ok 0) by exact H. cbn [obind]. now apply vset_ok. Qed.

Lemma splice_splice {A} p (x y : A) l : (p < length l)%nat -> splice p [y] (splice p [x] l) = splice p [y] l.
Proof.
  intros H. apply nth_error_ext. intros k.
  assert (forall z (l' : list A), (p < length l')%nat -> nth_error (splice p [z] l') k =
    if (k =? p)%nat then Some z else nth_error l' k) as Hs.
  { intros z l' Hl'. assert (length (splice p [z] l') = length l') as L by (apply length_splice; cbn; lia).
    destruct (Nat.eqb_spec k p) as [->|Hk].
    - rewrite (nth_error_nth' _ z) by lia. now rewrite nth_splice_same by lia.
    - destruct (Nat.lt_ge_cases k (length l')) as [Hkl|Hkl].
      + rewrite (nth_error_nth' _ z) by lia. rewrite nth_splice_other by lia. symmetry. apply nth_error_nth'. lia.
      + rewrite !(proj2 (nth_error_None _ _)) by lia. reflexivity. }
  assert (length (splice p [x] l) = length l) as L by (apply length_splice; cbn; lia).
  rewrite !Hs by lia. destruct (k =? p)%nat; reflexivity.
Qed.

Lemma inverse_bin_ok s m out i : good s -> length m = Z.to_nat num -> length out = Z.to_nat fft ->
  (0 <= i < fft)%Z -> used (Z.to_nat i) = true -> nth (Z.to_nat i) out 0 = 0 ->
  (forall c, (c < Z.to_nat num)%nat -> mel_total fft rate num low up c <> 0) ->
  mel_inverse_bin s m out i = Ok (splice (Z.to_nat i) [mel_back fft rate num low up m (Z.to_nat i)] out).
Proof.
  intros (start & end_ & E1 & E2 & Gi & Gn & Gf & Gs & Ge & Lw & Lm & Hwm & Ls & Hs) Lm0 Lo Hi Hu H0 Hnz.
  destruct (Hwm (Z.to_nat i) ltac:(lia) Hu) as [Ew Em].
  destruct (chan_range fft rate num low up Hnum Hrate Hfft Hlow Hup (Z.to_nat i) Hu) as [Hc _].
  unfold mel_inverse_bin. rewrite (vget_ok 0%Z (me_mapper s)) by lia. cbn [obind].
  rewrite Em, Gn. unfold mel_back. fold wt. rewrite back_sum by exact Hu. cbv zeta.
  set (b := bchan fft rate num low up (Z.to_nat i)) in *.
  rewrite (vget_ok 0 (me_weights s)) by lia. rewrite Ew. cbn [obind].
  set (w := bwt fft rate num low up (Z.to_nat i)) in *.
  assert (forall c, (0 <= c < num)%Z -> vget (me_sums s) c = Ok (mel_total fft rate num low up (Z.to_nat c))) as Hsum.
  { intros c Hcc. rewrite (vget_ok 0) by lia. now rewrite Hs by lia. }
  set (l := if (b + 1 <? num)%Z then (1 - w) * nth (Z.to_nat (b + 1)) m 0 / mel_total fft rate num low up (Z.to_nat (b + 1)) else 0).
  set (r := if (0 <=? b)%Z then w * nth (Z.to_nat b) m 0 / mel_total fft rate num low up (Z.to_nat b) else 0).
  assert (exists o1, (if (b + 1 <? num)%Z
     then obind (vget m (b + 1)) (fun y => obind (vget (me_sums s) (b + 1)) (fun d =>
       oguard (negb (Reqb d 0)) (vadd out i ((1 - w) * y / d)))) else Ok out) = Ok o1 /\ length o1 = length out /\
     nth (Z.to_nat i) o1 0 = l /\ forall y, splice (Z.to_nat i) [y] o1 = splice (Z.to_nat i) [y] out) as (o1 & -> & Lo1 & N1 & S1).
  { unfold l. destruct (Z.ltb_spec (b + 1) num) as [Hb|Hb].
    - rewrite (vget_ok 0) by lia. rewrite Hsum by lia. cbn [obind].
      assert (Reqb (mel_total fft rate num low up (Z.to_nat (b + 1))) 0 = false) as ->.
      { destruct (Reqb_spec (mel_total fft rate num low up (Z.to_nat (b + 1))) 0) as [Ee|]; [|reflexivity].
        exfalso. revert Ee. apply Hnz. lia. }
      cbn [negb oguard]. rewrite vadd_nth by lia. eexists. split; [reflexivity|].
      split; [apply length_splice; cbn; lia|]. split; [rewrite nth_splice_same by lia; rewrite H0; lra|].
      intros y. apply splice_splice. lia.
    - exists out. auto. }
  cbn [obind].
  assert (exists o2, (if (0 <=? b)%Z
     then obind (vget m b) (fun y => obind (vget (me_sums s) b) (fun d =>
       oguard (negb (Reqb d 0)) (vadd o1 i (w * y / d)))) else Ok o1) = Ok o2 /\ length o2 = length out /\
     nth (Z.to_nat i) o2 0 = l + r /\ forall y, splice (Z.to_nat i) [y] o2 = splice (Z.to_nat i) [y] out) as (o2 & -> & Lo2 & N2 & S2).
  { unfold r. destruct (Z.leb_spec 0 b) as [Hb|Hb].
    - rewrite (vget_ok 0) by lia. rewrite Hsum by lia. cbn [obind].
      assert (Reqb (mel_total fft rate num low up (Z.to_nat b)) 0 = false) as ->.
      { destruct (Reqb_spec (mel_total fft rate num low up (Z.to_nat b)) 0) as [Ee|]; [|reflexivity].
        exfalso. revert Ee. apply Hnz. lia. }
      cbn [negb oguard]. rewrite vadd_nth by lia. eexists. split; [reflexivity|].
      split; [rewrite length_splice; [exact Lo1|cbn; lia]|]. split; [rewrite nth_splice_same by lia; rewrite N1; lra|].
      intros y. rewrite splice_splice by lia. apply S1.
    - exists o1. split; [reflexivity|]. split; [exact Lo1|]. split; [lra|exact S1]. }
  cbn [obind]. rewrite (vget_ok 0) by lia. cbn [obind]. rewrite vset_ok by lia. now rewrite N2, S2.
Qed.

Lemma inverse_fold s m : good s -> length m = Z.to_nat num ->
  (forall c, (c < Z.to_nat num)%nat -> mel_total fft rate num low up c <> 0) ->
  forall l out, length out = Z.to_nat fft -> NoDup l ->
  Forall (fun i => (0 <= i < fft)%Z /\ used (Z.to_nat i) = true /\ nth (Z.to_nat i) out 0 = 0) l ->
  exists out', ofold (mel_inverse_bin s m) out l = Ok out' /\ length out' = Z.to_nat fft /\
    forall k, (k < Z.to_nat fft)%nat -> nth k out' 0 =
      if existsb (Z.eqb (Z.of_nat k)) l then mel_back fft rate num low up m k else nth k out 0.
Proof.
  intros Hg Lm0 Hnz. induction l as [|i l IH]; intros out Lo Hnd HF.
  - exists out. split; [reflexivity|]. split; [exact Lo|]. reflexivity.
  - pose proof (Forall_inv HF) as (Hi & Hu & H0). apply Forall_inv_tail in HF.
    apply NoDup_cons_iff in Hnd. destruct Hnd as [Hni Hnd].
    cbn [ofold]. rewrite inverse_bin_ok by assumption. cbn [obind].
    set (o1 := splice (Z.to_nat i) [mel_back fft rate num low up m (Z.to_nat i)] out).
    assert (length o1 = Z.to_nat fft) as L1 by (unfold o1; rewrite length_splice; cbn; lia).
    destruct (IH o1 L1 Hnd) as (o2 & E & L2 & H2).
    + rewrite Forall_forall in *. intros j Hj. destruct (HF j Hj) as (A & B & C). split; [exact A|].
      split; [exact B|]. unfold o1. rewrite nth_splice_other; [exact C|lia|].
      intros Ee. apply Hni. replace i with j by lia. exact Hj.
    + exists o2. split; [exact E|]. split; [exact L2|]. intros k Hk. rewrite H2 by exact Hk.
      cbn [existsb]. destruct (existsb (Z.eqb (Z.of_nat k)) l) eqn:Ex; [now rewrite orb_true_r|].
      rewrite orb_false_r. unfold o1. destruct (Z.eqb_spec (Z.of_nat k) i) as [Ek|Ek].
      * replace (Z.to_nat i) with k by lia. now rewrite nth_splice_same by lia.
      * rewrite nth_splice_other by lia. reflexivity.
Qed.

Lemma inverse_ok s m : good s -> length m = Z.to_nat num -> up <= rate / 2 ->
  (forall c, (c < Z.to_nat num)%nat -> mel_total fft rate num low up c <> 0) ->
  mel_estimate_inverse s m =
    Ok (Some (map (mel_back fft rate num low up m) (seq 0 (Z.to_nat fft)))).
Proof.
  intros Hg Lm0 Hn Hnz.
  pose proof Hg as (start & end_ & E1 & E2 & Gi & Gn & Gf & Gs & Ge & Lw & Lm & Hwm & Ls & Hs).
  unfold mel_estimate_inverse. rewrite Gi, Gn, Gf, Gs, Ge. cbn [negb].
  destruct (Z.eqb_spec (Z.of_nat (length m)) num); [|lia]. cbn [negb].
  unfold oguard. destruct (Z.leb_spec 0 fft); [|lia].
  destruct (range_used start end_ E1 E2) as (H0s & H0e & Hru).
  pose proof (end_nyquist end_ Hn E2) as Hef.
  destruct (inverse_fold s m Hg Lm0 Hnz (zrange start end_) (repeat 0 (Z.to_nat fft))) as (o & E & L & H1).
  - apply repeat_length.
  - unfold zrange. apply Injective_map_NoDup; [|apply seq_NoDup]. intros a b Hab. lia.
  - apply Forall_forall. intros i Hi. apply zrange_in in Hi. split; [lia|]. split; [now apply Hru|]. apply nth_repeat.
  - rewrite E. cbn [omap obind]. do 2 f_equal. apply (nth_ext _ _ 0 0); [now rewrite map_length, seq_length|].
    intros k Hk. rewrite L in Hk. rewrite H1 by exact Hk. rewrite nth_map_seq by exact Hk. cbn [Nat.add].
    rewrite nth_repeat. destruct (existsb (Z.eqb (Z.of_nat k)) (zrange start end_)) eqn:Ex; [reflexivity|].
    unfold mel_back. fold wt.
    assert (used k = false) as Huk.
    { destruct (used k) eqn:Eu; [|reflexivity]. rewrite <- Ex. symmetry. apply existsb_exists.
      exists (Z.of_nat k). split; [|apply Z.eqb_refl]. apply zrange_in.
      apply (used_iff fft rate num low up Hrate Hfft Hlow Hup start end_); assumption. }
    rewrite rsum_zero; [lra|]. intros c _. unfold wt, mel_weight. fold used. rewrite Huk. unfold Rdiv. ring.
Qed.
End Mel.

(* DCT *)
Definition dct_good (n cnt : Z) (s : dct) : Prop :=
  dc_init s = true /\ dc_count s = cnt /\ dc_length s = n /\ (1 <= cnt <= n)%Z /\
  dc_cosines s = map (fun i => map (fun j => sqrt (2 / IZR n) * cos (INR i * (PI / IZR n) * (INR j + 1 / 2)))
                          (seq 0 (Z.to_nat n))) (seq 0 (Z.to_nat cnt)).

Lemma dct_initialize_iff s n cnt : (snd (dct_initialize s n cnt) = true <-> (1 <= cnt <= n)%Z) /\
  ((1 <= cnt <= n)%Z -> dct_good n cnt (fst (dct_initialize s n cnt))).
Proof.
  unfold dct_initialize. destruct (Z.ltb_spec cnt 1); cbn [fst snd]; [split; [split; [discriminate|lia]|lia]|].
  destruct (Z.ltb_spec n 1); cbn [fst snd]; [split; [split; [discriminate|lia]|lia]|].
  destruct (Z.ltb_spec n cnt); cbn [fst snd]; [split; [split; [discriminate|lia]|lia]|].
  split; [split; [lia|reflexivity]|]. intros Hc. unfold dct_good.
  cbn [dc_init dc_count dc_length dc_cosines]. auto.
Qed.

Lemma ofold_sum {A} (f : A -> outcome R) (g : A -> R) l : forall a, (forall x, In x l -> f x = Ok (g x)) ->
  ofold (fun s x => obind (f x) (fun y => Ok (s + y))) a l = Ok (a + rsum (map g l)).
Proof.
  induction l as [|x l IH]; intros a H; cbn [ofold map rsum fold_right]; [f_equal; lra|].
  rewrite H by now left. cbn [obind]. rewrite IH by (intros; apply H; now right).
  f_equal. unfold rsum. lra.
Qed.

Lemma omap_list_ok {A B} (f : A -> outcome B) g l : (forall x, In x l -> f x = Ok (g x)) ->
  omap_list f l = Ok (map g l).
Proof.
  induction l as [|x l IH]; intros H; [reflexivity|]. cbn [omap_list]. rewrite H by now left. cbn [obind].
  rewrite IH by (intros; apply H; now right). reflexivity.
Qed.

Lemma dct_compute_ok n cnt s x : dct_good n cnt s ->
  dct_compute s x = Ok (Some (map (dct_coefficient (Z.to_nat n) x) (seq 0 (Z.to_nat cnt)))).
Proof.
  intros (Gi & Gc & Gl & Hc & Gcos). unfold dct_compute. rewrite Gi, Gc, Gl. cbn [negb]. unfold oguard.
  destruct (Z.leb_spec 0 cnt); [|lia]. cbv zeta. rewrite zrange0 by lia.
  set (len := Z.min (Z.of_nat (length x)) n).
  rewrite (omap_list_ok _ (fun z => dct_coefficient (Z.to_nat n) x (Z.to_nat z))).
  { cbn [omap obind]. do 2 f_equal. rewrite map_map. apply map_ext. intros i. now rewrite Nat2Z.id. }
  intros z Hz. apply in_map_iff in Hz. destruct Hz as (i & <- & Hi). apply in_seq in Hi.
  rewrite Nat2Z.id. unfold dct_row.
  rewrite zrange0 by (unfold len; lia).
  assert (vget (dc_cosines s) (Z.of_nat i) = Ok (map (fun j => sqrt (2 / IZR n) *
      cos (INR i * (PI / IZR n) * (INR j + 1 / 2))) (seq 0 (Z.to_nat n)))) as Hrow.
  { rewrite (vget_ok []) by (rewrite Gcos, map_length, seq_length; lia). rewrite Nat2Z.id, Gcos.
    rewrite nth_map_seq by lia. reflexivity. }
  assert (forall l a, (forall j, In j l -> (j < Z.to_nat len)%nat) ->
    ofold (fun sum j => obind (vget (dc_cosines s) (Z.of_nat i)) (fun row => obind (vget row j) (fun c =>
       obind (vget x j) (fun v => Ok (sum + c * v))))) a (map Z.of_nat l) =
    Ok (a + rsum (map (fun j => sqrt (2 / INR (Z.to_nat n)) * cos (PI * INR i * (INR j + 1 / 2) / INR (Z.to_nat n)) * nth j x 0) l))) as Hf.
  { induction l as [|j l IH]; intros a Hl; cbn [ofold map rsum fold_right]; [f_equal; lra|].
    assert (j < Z.to_nat len)%nat as Hj by (apply Hl; now left). unfold len in Hj.
    rewrite Hrow in *. cbn [obind] in *.
    rewrite (vget_ok 0) by (rewrite map_length, seq_length; lia). rewrite Nat2Z.id. rewrite nth_map_seq by lia.
    cbn [obind Nat.add]. rewrite (vget_ok 0) by lia. rewrite Nat2Z.id. cbn [obind].
    rewrite IH by (intros; apply Hl; now right). f_equal. unfold rsum.
    rewrite INR_IZR_INZ with (n := Z.to_nat n). rewrite Z2Nat.id by lia.
    assert (IZR n <> 0) by (apply not_0_IZR; lia).
    replace (INR i * (PI / IZR n) * (INR j + 1 / 2)) with (PI * INR i * (INR j + 1 / 2) / IZR n) by (field; assumption).
    lra. }
  rewrite Hf by (intros j Hj; apply in_seq in Hj; lia). f_equal. rewrite Rplus_0_l. unfold dct_coefficient.
  replace (seq 0 (Z.to_nat n)) with (seq 0 (Z.to_nat len) ++ seq (Z.to_nat len) (Z.to_nat n - Z.to_nat len)).
  2:{ rewrite <- (seq_app (Z.to_nat len) _ 0). f_equal. unfold len. lia. }
  rewrite map_app, rsum_app. rewrite (rsum_zero _ (seq (Z.to_nat len) _)); [ring|].
  intros j Hj. apply in_seq in Hj. unfold len in Hj.
  rewrite (nth_overflow x) by lia. ring.
Qed.
