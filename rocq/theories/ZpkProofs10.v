From Verif Require Import Common ListLemmas RealUtil BiquadModel DesignModel DesignSpec DesignProofs DesignProofs3 CascadeModel CascadeSpec CascadeProofs CascadeProofs2 PoleZeroModel PoleZeroSpec PoleZeroProofs PoleZeroProofs3 PoleZeroProofs4 PoleZeroProofs5 PoleZeroProofs6 PoleZeroProofs7 PoleZeroProofs8 PoleZeroProofs9 PoleZeroProofs10 PoleZeroProofs11 PoleZeroProofs12 PoleZeroProofs13 PoleZeroProofs14 PoleZeroProofs15 ComplexModel ComplexProofs ZpkModel ZpkSpec ZpkProofs ZpkProofs2 ZpkProofs3 ZpkProofs4 ZpkProofs5 ZpkProofs6 ZpkProofs7 ZpkProofs8.
From Coq Require Import Permutation Sorted.
From Coquelicot Require Import Complex.
Local Open Scope R_scope.

(* ---------- too little room ---------- *)
Lemma make_length n gain zs ps : length (make_biquads n gain zs ps) = n.
Proof. apply make_biquads_length. Qed.
Lemma to_biquads_room ex qsort f m m' cs : to_biquads ex qsort f m = Ok (Some cs) -> (m' < Z.of_nat (length cs))%Z -> to_biquads ex qsort f m' = Ok None.
Proof.
  unfold to_biquads. intros H L. destruct (Z.leb_spec m' 0) as [_|M']; [reflexivity|]. destruct (m <=? 0)%Z; [discriminate H|].
  destruct ((length (z_zeros f) =? 0) && (length (z_poles f) =? 0))%nat; [injection H as <-; cbn in L; lia|].
  destruct (m <? _)%Z; [discriminate H|]. destruct (zpk_sort ex qsort f) as [ok f'] eqn:ES. cbv beta iota zeta in H. destruct (negb ok); [discriminate H|]. destruct (length (z_zeros f) =? length (z_poles f))%nat; [|discriminate H]. cbn [oguard] in H. injection H as <-. rewrite make_biquads_length in L.
  destruct (Z.ltb_spec m' (Z.of_nat (Nat.div2 (Nat.max (length (z_zeros f)) (length (z_poles f)) + 1)))) as [_|X]; [reflexivity|lia].
Qed.
Lemma discretize_room ex qsort f fs m m' cs : discretize_to_biquads ex qsort f fs m = Ok (Some cs) -> (m' < Z.of_nat (length cs))%Z -> discretize_to_biquads ex qsort f fs m' = Ok None.
Proof. unfold discretize_to_biquads. destruct (zpk_bilinear ex f fs) as [[[] f']| |]; cbn [obind fst snd]; try discriminate. apply to_biquads_room. Qed.
Lemma lowpass_room ex qsort f fc fs m m' cs : design_lowpass ex qsort f fc fs m = Ok (Some cs) -> (m' < Z.of_nat (length cs))%Z -> design_lowpass ex qsort f fc fs m' = Ok None.
Proof. unfold design_lowpass. destruct (negb _); [discriminate|]. destruct (to_lowpass f (prewarp fc fs)); cbn [obind]; try discriminate. apply discretize_room. Qed.
Lemma highpass_room ex qsort f fc fs m m' cs : design_highpass ex qsort f fc fs m = Ok (Some cs) -> (m' < Z.of_nat (length cs))%Z -> design_highpass ex qsort f fc fs m' = Ok None.
Proof. unfold design_highpass. destruct (negb _); [discriminate|]. destruct (to_highpass ex f (prewarp fc fs)); cbn [obind]; try discriminate. apply discretize_room. Qed.
Lemma bandpass_room ex qsort f low high fs m m' cs : design_bandpass ex qsort f low high fs m = Ok (Some cs) -> (m' < Z.of_nat (length cs))%Z -> design_bandpass ex qsort f low high fs m' = Ok None.
Proof. unfold design_bandpass. destruct (negb _); [discriminate|]. destruct (to_bandpass ex f (prewarp low fs) (prewarp high fs)); cbn [obind]; try discriminate. apply discretize_room. Qed.
Lemma bandstop_room ex qsort f low high fs m m' cs : design_bandstop ex qsort f low high fs m = Ok (Some cs) -> (m' < Z.of_nat (length cs))%Z -> design_bandstop ex qsort f low high fs m' = Ok None.
Proof. unfold design_bandstop. destruct (negb _); [discriminate|]. destruct (to_bandstop ex f (prewarp low fs) (prewarp high fs)); cbn [obind]; try discriminate. apply discretize_room. Qed.
Lemma prototype_room p (d : Z -> zpk -> outcome (option (list (coeffs R)))) m m' cs :
  (forall f, d m f = Ok (Some cs) -> (m' < Z.of_nat (length cs))%Z -> d m' f = Ok None) -> from_prototype p (d m) = Ok (Some cs) -> (m' < Z.of_nat (length cs))%Z -> from_prototype p (d m') = Ok None.
Proof. unfold from_prototype. intros H. destruct p as [[f|]| |]; cbn [obind]; try discriminate. apply H. Qed.

(* ---------- refused arguments ---------- *)
Lemma lowpass_bad_edge ex qsort f fc fs m : fc < 0 \/ fs / 2 <= fc -> design_lowpass ex qsort f fc fs m = Ok None.
Proof. intros H. unfold design_lowpass. destruct (Rleb_spec 0 fc), (Rltb_spec fc (fs / 2)); try reflexivity. exfalso. lra. Qed.
Lemma highpass_bad_edge ex qsort f fc fs m : fc < 0 \/ fs / 2 <= fc -> design_highpass ex qsort f fc fs m = Ok None.
Proof. intros H. unfold design_highpass. destruct (Rleb_spec 0 fc), (Rltb_spec fc (fs / 2)); try reflexivity. exfalso. lra. Qed.
Lemma bandpass_bad_edge ex qsort f low high fs m : low < 0 \/ high < low \/ fs / 2 <= high -> design_bandpass ex qsort f low high fs m = Ok None.
Proof. intros H. unfold design_bandpass. destruct (Rleb_spec 0 low), (Rleb_spec low high), (Rltb_spec high (fs / 2)); try reflexivity. exfalso. lra. Qed.
Lemma bandstop_bad_edge ex qsort f low high fs m : low < 0 \/ high < low \/ fs / 2 <= high -> design_bandstop ex qsort f low high fs m = Ok None.
Proof. intros H. unfold design_bandstop. destruct (Rleb_spec 0 low), (Rleb_spec low high), (Rltb_spec high (fs / 2)); try reflexivity. exfalso. lra. Qed.
Lemma with_order_small order make : (order < 1)%Z -> with_order order make = Ok None.
Proof. intros H. unfold with_order. now replace (order <? 1)%Z with true by lia. Qed.
Lemma with_order_large order make : (30 < order)%Z -> with_order order make = Undef.
Proof. intros H. unfold with_order. replace (order <? 1)%Z with false by lia. replace (order <=? Z.of_nat max_degree)%Z with false by (change (Z.of_nat max_degree) with 30%Z; lia). reflexivity. Qed.

(* ---------- bands of high order ---------- *)
Section Overflow.
Variables (ex : R -> Z) (qsort : list C -> list C).
Hypothesis HQ : sorts qsort.
Variables (f : zpk) (p : pole_zero) (fs low high : R) (m : Z).
Hypotheses (HS : stands_for f p) (HP : lowpass_prototype p) (HM : moderate_roots p) (HF : 0 < fs) (HN : (15 < length (poles p))%nat)
  (HC : band_inside fs low high) (HB : (Z.of_nat (Nat.div2 (length (poles p) + 1)) <= m)%Z).
Let tl := tan (PI * low / fs).
Let th := tan (PI * high / fs).
Let H1 : fs / 10000 <= low := proj1 HC.
Let H2 : high <= fs / 2 - fs / 10000 := proj1 (proj2 HC).
Let H3 : fs / 1000 <= high - low := proj2 (proj2 HC).
(* the cutoff frequency that has the width of the band as its prewarped cutoff *)
Let fc := fs * atan ((th - tl) / 2) / PI.
Lemma fc_facts : corner_inside fs fc /\ 2 * fs * tan (PI * fc / fs) = 2 * fs * (th - tl) / 2 /\ 0 < tl /\ tl < th.
Proof.
  destruct (edges fs low high HF H1 H2 H3) as ((M1 & M2 & M3) & T1 & T2). fold tl th in M1, M2, M3, T1, T2. set (x := (th - tl) / 2). pose proof PI2_3_2 as P3. pose proof PI_4 as P4.
  assert (PN : PI * fc / fs = atan x) by (unfold fc; fold x; field; split; lra).
  assert (X1 : 15 / 10000 <= x) by (unfold x; lra). assert (X2 : 3 / 10000 * x <= 1 / 2) by (unfold x; lra).
  split; [|split; [rewrite PN, atan_right_inv; unfold x; field|split; assumption]].
  destruct (atan_bound x) as (B1 & B2). set (a := atan x) in *. assert (TA : tan a = x) by apply atan_right_inv.
  assert (A0 : 0 < a) by (unfold a; rewrite <- atan_0; apply atan_increasing; lra).
  assert (EF : fc = fs * (a / PI)) by (unfold fc; fold x; fold a; field; lra).
  assert (L : / 10000 <= a / PI).
  { apply Rnot_lt_le. intros X. assert (AX : a < PI / 10000) by (apply (Rmult_lt_compat_r PI) in X; [|lra]; unfold Rdiv in X at 1; rewrite Rmult_assoc, Rinv_l in X by lra; lra).
    assert (G : a < 4 / 10000) by lra.
    assert (TT : tan a <= 2 * a). { assert (C1 : / 2 <= cos a). { assert (Y : cos (PI / 3) <= cos a) by (apply cos_decr_1; lra). rewrite cos_PI3 in Y. lra. } unfold tan. pose proof (sin_lt_x a A0) as SX. apply (Rmult_le_reg_r (cos a)); [lra|]. unfold Rdiv. rewrite Rmult_assoc, Rinv_l by lra. nra. }
    lra. }
  assert (U : a / PI <= / 2 - / 10000).
  { assert (HL : a < PI * high / fs). { apply Rnot_le_lt. intros X. assert (high < fs / 2) by lra. assert (0 < PI * high / fs) by (apply Rdiv_lt_0_compat; [apply Rmult_lt_0_compat; lra|lra]). destruct X as [X|X]; [apply tan_increasing in X; [|lra|lra]; fold th in X; rewrite TA in X; unfold x in X; lra|]. assert (Q : th = x) by (rewrite <- TA; unfold th; now rewrite X). unfold x in Q. lra. }
    apply (Rmult_le_reg_r PI); [lra|]. unfold Rdiv at 1. rewrite Rmult_assoc, Rinv_l by lra. rewrite Rmult_1_r. apply Rle_trans with (PI * high / fs); [lra|]. apply (Rmult_le_reg_r fs); [exact HF|]. replace (PI * high / fs * fs) with (PI * high) by (field; lra). nra. }
  unfold corner_inside. rewrite EF. set (y := a / PI) in *. clearbody y. split; nra.
Qed.
Lemma overflow_bandpass : exists cs, design_bandpass ex qsort f low high fs m = Ok (Some cs) /\ length cs = Nat.div2 (length (poles p) + 1) /\
  forall h, analog_value p (RtoC 0) h -> cascade_value cs (RtoC 1) (Cmult (RtoC (2 ^ (length (poles p) - length (zeros p)))) h).
Proof.
  destruct fc_facts as (FC & FT & T1 & T2). destruct FC as (C1 & C2). destruct (facts ex f p fs HS HP HM) as (L1 & L2 & L3 & L4 & FR & FP & RF). set (k := (length (poles p) - length (zeros p))%nat).
  set (p' := {| lone_zeros := lone_zeros p; lone_poles := lone_poles p; paired_zeros := paired_zeros p; paired_poles := paired_poles p; pz_gain := pz_gain p * 2 ^ k |}).
  set (f' := {| z_zeros := z_zeros f; z_poles := z_poles f; z_gain := z_gain f * 2 ^ k |}).
  assert (K : 0 < 2 ^ k) by (apply pow_lt; lra). destruct HS as (A & B & G). destruct HP as (P1 & P2 & P3 & P4 & P5).
  assert (S' : stands_for f' p') by (split; [exact A|]; split; [exact B|]; cbn [f' p' z_gain pz_gain]; now rewrite G).
  assert (PP' : lowpass_prototype p') by (split; [exact P1|]; split; [exact P2|]; split; [exact P3|]; split; [exact P4|]; cbn [p' pz_gain]; now apply Rmult_lt_0_compat).
  destruct (design_lowpass_ok ex qsort HQ f' p' fs m S' PP' HM HF fc C1 C2 HB) as (cs & E & EL & _ & V & _).
  exists cs. split; [|split; [exact EL|]].
  - rewrite <- E. unfold design_bandpass, design_lowpass. destruct (Rleb_spec 0 low) as [_|X]; [|exfalso; lra]. destruct (Rleb_spec low high) as [_|X]; [|exfalso; lra]. destruct (Rltb_spec high (fs / 2)) as [_|X]; [|exfalso; lra]. destruct (Rleb_spec 0 fc) as [_|X]; [|exfalso; lra]. destruct (Rltb_spec fc (fs / 2)) as [_|X]; [|exfalso; lra]. cbn [andb negb].
    unfold to_bandpass. rewrite edge_bw. fold tl th. unfold prewarp at 3. rewrite FT. set (c := 2 * fs * (th - tl) / 2). rewrite !to_lowpass_is by now right. cbn [obind]. unfold int_power. destruct (Reqb_spec 2 0) as [X|_]; [lra|]. cbn [negb]. rewrite Bool.orb_true_r. cbn [oguard obind].
    rewrite centre_ok by assumption. cbn [obind]. rewrite shift_refuse by (right; cbn [z_poles lowpassed]; rewrite map_length; change cplx with C in *; lia). cbn [snd]. f_equal. unfold lowpassed, f'. cbn [z_zeros z_poles z_gain]. f_equal.
    assert (X1 : excess {| z_zeros := z_zeros f; z_poles := z_poles f; z_gain := z_gain f * 2 ^ k |} = excess f) by reflexivity. rewrite X1.
    assert (X2 : powerRZ 2 (excess {| z_zeros := map (fun r : C => Cmult (RtoC c) r) (z_zeros f); z_poles := map (fun r : C => Cmult (RtoC c) r) (z_poles f); z_gain := z_gain f * powerRZ c (excess f) |}) = 2 ^ k).
    { rewrite pow_powerRZ. f_equal. unfold excess. cbn [z_zeros z_poles]. rewrite !map_length. unfold k. change cplx with C in *. lia. }
    rewrite X2. ring.
  - intros h VH. assert (Z0 : on_circle 0 fs = RtoC 1) by (unfold on_circle; replace (2 * PI * 0 / fs) with 0 by (field; lra); rewrite cos_0, sin_0; reflexivity). rewrite <- Z0 at 1. apply V; [lra|].
    replace (PI * 0 / fs) with 0 by (field; lra). rewrite tan_0. replace (0 / tan (PI * fc / fs)) with 0 by (unfold Rdiv; ring). change ((0, 0) : C) with (RtoC 0). destruct VH as (N & ->). split; [exact N|]. change (zeros p') with (zeros p). change (poles p') with (poles p). change (pz_gain p') with (pz_gain p * 2 ^ k). rewrite RtoC_mult. field. exact N.
Qed.
Lemma overflow_bandstop : exists cs, design_bandstop ex qsort f low high fs m = Ok (Some cs) /\ length cs = Nat.div2 (length (poles p) + 1) /\
  ((length (zeros p) < length (poles p))%nat -> cascade_value cs (RtoC 1) (RtoC 0)).
Proof.
  destruct fc_facts as (FC & FT & T1 & T2). destruct FC as (C1 & C2). destruct (facts ex f p fs HS HP HM) as (L1 & L2 & L3 & L4 & FR & FP & RF).
  destruct (design_highpass_ok ex qsort HQ f p fs m HS HP HM HF fc C1 C2 HB) as (cs & E & EL & _ & V & N & NY). 
  exists cs. split; [|split; [exact EL|]].
  - rewrite <- E. unfold design_bandstop, design_highpass. destruct (Rleb_spec 0 low) as [_|X]; [|exfalso; lra]. destruct (Rleb_spec low high) as [_|X]; [|exfalso; lra]. destruct (Rltb_spec high (fs / 2)) as [_|X]; [|exfalso; lra]. destruct (Rleb_spec 0 fc) as [_|X]; [|exfalso; lra]. destruct (Rltb_spec fc (fs / 2)) as [_|X]; [|exfalso; lra]. cbn [andb negb].
    unfold to_bandstop. rewrite edge_bw. fold tl th. unfold prewarp at 3. rewrite FT. set (c := 2 * fs * (th - tl) / 2). rewrite !to_highpass_is by exact (no_zero_root ex f p fs HS HP HM). cbn [obind].
    rewrite centre_ok by assumption. cbn [obind]. rewrite shift_refuse; [reflexivity|]. right. destruct (high_lengths ex f p fs HS HP HM c) as (_ & X). change cplx with C in *. lia.
  - exact N.
Qed.
End Overflow.
