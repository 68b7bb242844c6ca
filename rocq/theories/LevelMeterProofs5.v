From Verif Require Import Common CInt ListLemmas Mealy NthLemmas RealUtil BiquadModel BiquadSpec BiquadProofs DesignModel CascadeModel CascadeSpec LoudnessSpec
  ResamplerModel ResamplerSpec EnvDetectModel EnvDetectProofs EnvDetectProofs2 EnvDetectProps LadderModel DecibelsModel PerceptualModel BackgroundModel BackgroundSpec BackgroundProofs MultiCrossModel MultiCrossProofs MultiCrossProofs4 LevelMeterModel LevelMeterSpec LevelMeterProofs LevelMeterProofs2 LevelMeterProofs3 LevelMeterProofs4.
From Coq Require Import Lra Lia Reals Classical.
Local Open Scope R_scope.

Lemma map_map_nth (f : list (list R)) i k n : (i < length f)%nat -> (k < n)%nat -> Forall (fun fr => length fr = n) f -> nth k (nth i (map (map dbfs) f) []) 0 = dbfs (nth k (nth i f []) 0).
Proof.
  intros Hi Hk W. rewrite (nth_map_lt (map dbfs) f i [] []) by exact Hi. apply nth_map_lt. rewrite Forall_forall in W. rewrite (W _ (nth_In _ [] Hi)). exact Hk.
Qed.
Lemma channel_nth (f : list (list R)) i k : (i < length f)%nat -> nth i (BiquadSpec.channel 0 k f) 0 = nth k (nth i f []) 0.
Proof. intros Hi. unfold BiquadSpec.channel. exact (nth_map_lt (fun fr => nth k fr 0) f i [] 0 Hi). Qed.
Lemma channel_len (f : list (list R)) k : length (BiquadSpec.channel 0 k f) = length f.
Proof. unfold BiquadSpec.channel. apply map_length. Qed.
Lemma entry_range (P : R -> Prop) n f i k : Forall (Forall P) f -> Forall (fun fr => length fr = n) f -> (i < length f)%nat -> (k < n)%nat -> P (nth k (nth i f []) 0).
Proof. intros H W Hi Hk. rewrite Forall_forall in H, W. specialize (H _ (nth_In _ [] Hi)). specialize (W _ (nth_In _ [] Hi)). rewrite Forall_forall in H. apply H, nth_In. now rewrite W. Qed.

Section Main.
Variables (eps : R) (sm : coeffs R) (ri : R -> R -> option (@config R * Z)) (m0 : meter) (w : weighting) (p : bg_params) (n : nat) (fs : R) (m : meter).
Hypothesis HI : meter_init eps sm ri m0 w p n fs = Ok m.
Hypothesis HU : usable p fs.
Hypothesis HR : resampler_ready ri fs (envelope_rate p).

Lemma settling a b N0 top e : 0 < a -> a <= b -> sensitivity p * b < a -> 0 < e -> exists N, forall blocks m' outs k,
  Forall (Forall (fun fr => length fr = n)) blocks -> run (meter_process eps) m blocks = Ok (m', map Some outs) -> (k < n)%nat ->
  let inst := fun i => nth k (nth i (concat (map fst outs)) []) 0 in let back := fun i => nth k (nth i (concat (map snd outs)) []) 0 in
  (forall i, (i < N0)%nat -> (i < length (concat (map fst outs)))%nat -> inst i <= top) ->
  (forall i, (N0 <= i)%nat -> (i < length (concat (map fst outs)))%nat -> dbfs a <= inst i <= dbfs b) ->
  forall i, (N <= i)%nat -> (i < length (concat (map snd outs)))%nat -> dbfs a - e <= back i <= dbfs b + e.
Proof.
  intros Ha Hab Hsb He. pose proof HU as ((V1 & V2 & V3 & V4 & V5 & V6 & V7) & H4).
  destruct (dbfs_slack a e Ha He) as (ha & A1 & A2 & A3). destruct (dbfs_slack b e ltac:(lra) He) as (hb & B1 & B2 & B3).
  set (g := Rmin (ha / 2) (Rmin (hb / 2) ((a - sensitivity p * b) / 2))).
  assert (G1 : g <= ha / 2) by apply Rmin_l. assert (G2 : g <= hb / 2) by (eapply Rle_trans; [apply Rmin_r|apply Rmin_l]). assert (G3 : g <= (a - sensitivity p * b) / 2) by (eapply Rle_trans; [apply Rmin_r|apply Rmin_r]).
  assert (G0 : 0 < g) by (unfold g; repeat apply Rmin_glb_lt; lra). clearbody g.
  set (B := Rmax b (exp (ln 10 / 20 * top))). assert (HB1 : b <= B) by apply Rmax_l. assert (HB2 : exp (ln 10 / 20 * top) <= B) by apply Rmax_r. assert (HB : 0 <= B) by lra. clearbody B.
  destruct (smoother_strict _ _ (proj1 V1) H4) as (q & EQ & Q).
  destruct (slow_pull q a b B N0 g ltac:(lra) G0 HB) as (N1 & HN1 & K1).
  assert (HE : 0 < envelope_rate p) by lra. assert (HT : 0 < time_constant p) by (exact (time_constant_pos _ _ HE V4)).
  assert (RT : 0 <= rejection_time p * envelope_rate p) by (apply Rmult_le_pos; lra).
  assert (IT : (0 <= Int_part (rejection_time p * envelope_rate p))%Z). { destruct (base_Int_part (rejection_time p * envelope_rate p)) as [_ I2]. assert (I3 : -1 < IZR (Int_part (rejection_time p * envelope_rate p))) by lra. apply lt_IZR in I3. lia. }
  destruct (law_pull (1 - exp (-10 / (time_constant p * envelope_rate p))) (1 - exp (-1 / (time_constant p * envelope_rate p))) (sensitivity p) (Int_part (rejection_time p * envelope_rate p)) (a - g) b B N1 g) as (N2 & K2);
    try lra; [exact (coefficient_range _ _ 1 HT HE ltac:(lra))|exact (coefficient_range _ _ 10 HT HE ltac:(lra))|exact IT|].
  exists N2. intros blocks m' outs k HF RUN Hk inst back HTop HIn i Hi Hl.
  destruct (meter_runs _ _ _ _ _ _ _ _ _ HI HU HR blocks HF) as (cs & c & fast & slow & bk & bb & cs' & d' & sl' & fouts & E1 & E2 & E3 & E4 & E5 & E6 & E7 & E8 & E9 & E10 & E11 & E12 & _ & (m1 & outs1 & R1 & R2 & R3 & R4 & R5) & _).
  rewrite RUN in R1. injection R1 as _ R1. apply map_some_inj in R1. subst outs1.
  assert (FI : concat (map fst outs) = map (map dbfs) fast) by (rewrite R3, <- E7, concat_map; reflexivity).
  unfold inst, back in *. clear inst back. rewrite FI in *. rewrite R4 in *. rewrite map_length in *.
  rewrite E2 in EQ. injection EQ as EQ. rewrite EQ in E4. destruct E5 as (LB & WB & LAW). destruct E4 as (LS & WS & FL).
  assert (FIN : forall j, (j < length fast)%nat -> 0 <= nth k (nth j fast []) 0 <= B /\ ((N0 <= j)%nat -> a <= nth k (nth j fast []) 0 <= b)).
  { intros j Hj. pose proof (entry_range _ n fast j k E9 E6 Hj Hk) as P0. cbv beta in P0. split.
    - split; [exact P0|]. destruct (Nat.lt_ge_cases j N0) as [J|J].
      + specialize (HTop j J Hj). rewrite (map_map_nth fast j k n Hj Hk E6) in HTop. eapply Rle_trans; [|exact HB2]. set (v := nth k (nth j fast []) 0) in *. clearbody v. unfold dbfs in HTop.
        pose proof offset_pos as OP. set (o := 1 / 10 ^ 12) in *. clearbody o. pose proof ln_ten_pos as LP. apply Rle_trans with (v + o); [lra|]. rewrite <- (exp_ln (v + o)) by lra.
        assert (L : ln (v + o) <= ln 10 / 20 * top). { replace (ln (v + o)) with (ln 10 / 20 * (20 * (ln (v + o) / ln 10))) by (field; lra). apply Rmult_le_compat_l; lra. }
        destruct L as [L| ->]; [left; now apply exp_increasing|lra].
      + specialize (HIn j J Hj). rewrite (map_map_nth fast j k n Hj Hk E6) in HIn. apply Rle_trans with b; [|exact HB1]. apply dbfs_inv; [lra|apply HIn|exact P0].
    - intros J. specialize (HIn j J Hj). rewrite (map_map_nth fast j k n Hj Hk E6) in HIn. split; apply dbfs_inv; try lra. }
  assert (FC : forall j, (N1 <= j)%nat -> (j < length fast)%nat -> a - g <= nth k (nth j slow []) 0 <= b + g).
  { specialize (FL k Hk). cbn [cascade_filters] in FL. destruct FL as (z & FL & EZ). try rewrite <- EZ in FL. try rewrite EZ in FL. intros j J Hj.
    rewrite <- (channel_nth slow j k) by lia. apply (K1 (BiquadSpec.channel 0 k fast)); [exact FL| | |exact J|now rewrite channel_len].
    - apply Forall_forall. intros v Hv. destruct (In_nth _ _ 0 Hv) as (t & Ht & <-). rewrite channel_len in Ht. rewrite (channel_nth fast t k Ht). apply FIN; exact Ht.
    - intros t T1 T2. rewrite channel_len in T2. rewrite (channel_nth fast t k T2). apply FIN; assumption. }
  assert (FAll : forall B', 0 <= B' -> (forall j, (j < length fast)%nat -> nth k (nth j fast []) 0 <= B') -> True) by auto. clear FAll.
  assert (HBK : forall j, (j < length fast)%nat -> 0 <= nth (S j) (0 :: BiquadSpec.channel 0 k bk) 0 <= B).
  { (* the level of a channel never exceeds the bound of that channel's envelope *)
    assert (LAWk := LAW k Hk). destruct LAWk as [L0 LS']. set (bf := fun i0 => nth i0 (0 :: BiquadSpec.channel 0 k bk) 0) in *.
    assert (IND : forall j, (j <= length fast)%nat -> 0 <= bf j <= B); [|intros j Hj; exact (IND (S j) Hj)]. induction j as [|j IH]; intros Hj; [change (0 <= 0 <= B); lra|]. specialize (IH ltac:(lia)). destruct (LS' j ltac:(lia)) as (C1 & C2 & C3).
    assert (SLP : 0 <= nth k (nth j slow []) 0).
    { destruct (frames_bound fast E9) as (B' & HB' & FB'). destruct (E10 B' HB' FB') as [S1 _]. pose proof (entry_range _ n slow j k S1 WS ltac:(lia) Hk) as P. cbv beta in P. lra. }
    destruct (FIN j ltac:(lia)) as [FJ _].
    assert (M : 0 <= Rmin (nth k (nth j slow []) 0) (nth k (nth j fast []) 0) <= B) by (unfold Rmin; destruct (Rle_dec _ _); lra).
    assert (SMO : forall al, 0 <= al <= 1 -> 0 <= smoothed al bf (fun i0 => nth k (nth i0 fast []) 0) (fun i0 => nth k (nth i0 slow []) 0) j <= B). { intros al Hal. unfold smoothed. apply convex_hull; assumption. }
    assert (CR1 : 0 < 1 - exp (-1 / (time_constant p * envelope_rate p)) <= 1) by exact (coefficient_range _ _ 1 HT HE ltac:(lra)). assert (CR2 : 0 < 1 - exp (-10 / (time_constant p * envelope_rate p)) <= 1) by exact (coefficient_range _ _ 10 HT HE ltac:(lra)).
    change (bf (S j)) with (nth (S j) (0 :: BiquadSpec.channel 0 k bk) 0).
    destruct (classic (adapting bf (fun i0 => nth k (nth i0 fast []) 0) j)) as [AD|AD]; [rewrite (C1 AD); apply SMO; lra|].
    match type of C2 with _ -> ?P -> _ => destruct (classic P) as [RJ|RJ] end; [rewrite (C2 AD RJ); exact IH|rewrite (C3 AD RJ); apply SMO; lra]. }
  rewrite LB in Hl.
  assert (FIN2 : a - g - g <= nth (S i) (0 :: BiquadSpec.channel 0 k bk) 0 <= b + g).
  { apply (K2 (length fast) (fun i0 => nth i0 (0 :: BiquadSpec.channel 0 k bk) 0) (fun i0 => nth k (nth i0 fast []) 0) (fun i0 => nth k (nth i0 slow []) 0) (LAW k Hk) HBK); [|exact Hi|exact Hl].
    intros j J Hj. destruct (FIN j Hj) as [_ F2]. specialize (F2 ltac:(lia)). specialize (FC j J Hj). lra. }
  specialize (HBK i Hl). rewrite (map_map_nth bk i k n) by (auto; lia). change (nth (S i) (0 :: BiquadSpec.channel 0 k bk) 0) with (nth i (BiquadSpec.channel 0 k bk) 0) in FIN2, HBK. rewrite channel_nth in FIN2, HBK by lia.
  set (v := nth k (nth i bk []) 0) in *. clearbody v. split; [apply A3; lra|apply B3; lra].
Qed.
End Main.
