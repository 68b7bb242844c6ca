From Verif Require Import Common ListLemmas RealUtil BiquadModel DesignModel DesignSpec DesignProofs DesignProofs2 DesignProofs3 CascadeModel CascadeSpec CascadeProofs CascadeProofs2 PoleZeroModel PoleZeroSpec PoleZeroProofs PoleZeroProofs2 PoleZeroProofs3 PoleZeroProofs4 PoleZeroProofs5 PolyRoots PoleZeroProofs6 PoleZeroProofs7 PoleZeroProofs8 PoleZeroProofs9 PoleZeroProofs10 PoleZeroProofs11 PoleZeroProofs12 PoleZeroProofs13 PoleZeroProofs14.
From Coquelicot Require Import Complex.
Local Open Scope R_scope.

(* ---------- on the unit circle ---------- *)
Lemma circle_s g fs : - (fs / 2) < g < fs / 2 -> Cdiv (Cminus (on_circle g fs) (RtoC 1)) (Cplus (on_circle g fs) (RtoC 1)) = (0, tan (PI * g / fs)).
Proof. intros H. destruct (circle_low g fs 1 H ltac:(lra)) as [_ E]. rewrite Cmult_1_l in E. rewrite E. f_equal. field. Qed.
Lemma bandpass_response p fs low high : let tl := tan (PI * low / fs) in let th := tan (PI * high / fs) in
  lowpass_prototype p -> 0 < low -> low < high -> high < fs / 2 ->
  (forall x, In x (lone_zeros p ++ lone_poles p) -> (th - tl) * x * ((th - tl) * x) <= 4 * (tl * th)) -> away ((th - tl) / (1 + tl * th)) p ->
  exists cs, bandpass_filter (Ok p) fs low high = Ok cs /\ stable_cascade cs /\
    (forall g h, - (fs / 2) < g < fs / 2 -> g <> 0 -> cascade_value cs (on_circle g fs) h <-> analog_value p (0, bandpass_w tl th (tan (PI * g / fs))) h) /\
    ((length (zeros p) < length (poles p))%nat -> cascade_value cs (RtoC 1) (RtoC 0) /\ cascade_value cs (RtoC (-1)) (RtoC 0)).
Proof.
  intros tl th L H1 H2 H3 HN HA. pose proof (tan_less low high fs H1 H2 H3) as TH. fold tl th in TH. destruct (bandpass_ok p fs low high L H1 H2 H3 HN HA) as (cs & E & S1 & V & N). exists cs. split; [exact E|]. split; [exact S1|]. split; [|exact N].
  intros g h G G0. destruct (circle_high g fs 1 G G0) as (N1 & N2 & _). rewrite (V _ h (circle_neq_0 g fs) N1 N2), circle_s by exact G. fold tl th. pose proof (tan_neq g fs G G0) as T0. set (t := tan (PI * g / fs)) in *. clearbody t tl th.
  replace (Cdiv (Cplus (Cmult (0, t) (0, t)) (RtoC (tl * th))) (Cmult (RtoC (th - tl)) (0, t))) with ((0, bandpass_w tl th t) : C); [reflexivity|].
  unfold bandpass_w. assert (B : (th - tl) * t <> 0) by (apply Rmult_integral_contrapositive_currified; lra).
  transitivity (Cdiv (RtoC (tl * th - t * t)) (Cmult (RtoC ((th - tl) * t)) (0, 1))).
  - rewrite <- (Cdiv_cancel _ _ (0, -1)); [|apply Cmult_neq; [now apply RtoC_neq|]|]; try (intros X; apply (f_equal snd) in X; cbn in X; lra).
    replace (Cmult (Cmult (RtoC ((th - tl) * t)) (0, 1)) (0, -1)) with (RtoC ((th - tl) * t)) by (apply injective_projections; cbn; ring). apply injective_projections; cbn; field; split; lra.
  - f_equal; apply injective_projections; cbn; ring.
Qed.
Lemma bandstop_response p fs low high : let tl := tan (PI * low / fs) in let th := tan (PI * high / fs) in
  lowpass_prototype p -> 0 < low -> low < high -> high < fs / 2 ->
  (forall x, In x (lone_zeros p ++ lone_poles p) -> (th - tl) * (th - tl) <= 4 * (tl * th) * (x * x)) -> away ((1 + tl * th) / (th - tl)) p ->
  exists cs, bandstop_filter (Ok p) fs low high = Ok cs /\ stable_cascade cs /\
    (forall g h, - (fs / 2) < g < fs / 2 -> tan (PI * g / fs) * tan (PI * g / fs) <> tl * th -> cascade_value cs (on_circle g fs) h <-> analog_value p (0, bandstop_w tl th (tan (PI * g / fs))) h) /\
    ((length (zeros p) < length (poles p))%nat -> forall g, - (fs / 2) < g < fs / 2 -> tan (PI * g / fs) * tan (PI * g / fs) = tl * th -> cascade_value cs (on_circle g fs) (RtoC 0)) /\
    (forall h, analog_value p (RtoC 0) h -> cascade_value cs (RtoC (-1)) h).
Proof.
  intros tl th L H1 H2 H3 HN HA. destruct (bandstop_ok p fs low high L H1 H2 H3 HN HA) as (cs & E & S1 & V & Z & N). exists cs. split; [exact E|]. split; [exact S1|].
  assert (SS : forall t, Cplus (Cmult (0, t) (0, t)) (RtoC (tl * th)) = RtoC (tl * th - t * t)) by (intros; apply injective_projections; cbn; ring).
  split; [|split; [|exact N]].
  - intros g h G GT. destruct (circle_low g fs 1 G ltac:(lra)) as (N1 & _). specialize (V _ h (circle_neq_0 g fs) N1). cbv zeta in V. rewrite circle_s in V by exact G. fold tl th in V. set (t := tan (PI * g / fs)) in *. clearbody t tl th. rewrite SS in V. rewrite V by (apply RtoC_neq; lra).
    replace (Cdiv (Cmult (RtoC (th - tl)) (0, t)) (RtoC (tl * th - t * t))) with ((0, bandstop_w tl th t) : C); [reflexivity|]. unfold bandstop_w. apply injective_projections; cbn; field; lra.
  - intros HL g G GT. destruct (circle_low g fs 1 G ltac:(lra)) as (N1 & _). apply (Z HL _ (circle_neq_0 g fs) N1). rewrite circle_s by exact G. fold tl th. rewrite SS. f_equal. lra.
Qed.

(* ---------- prototypes without lone roots ---------- *)
Lemma paired_away t p : (lone_zeros p = [] /\ (length (lone_poles p) <= 1)%nat /\ forall r, In r (paired_zeros p ++ paired_poles p) -> / 100000 * Cmod (Cminus (RtoC 1) (Cmult (RtoC t) r)) < Cmod (Cplus (RtoC 1) (Cmult (RtoC t) r))) ->
  (forall x, In x (lone_poles p) -> / 100000 * Rabs (1 - t * x) < Rabs (1 + t * x)) -> away t p.
Proof.
  intros (A & _ & B) D r Hr.
  assert (CJ : forall q, In q (paired_zeros p ++ paired_poles p) -> / 100000 * Cmod (Cminus (RtoC 1) (Cmult (RtoC t) (Cconj q))) < Cmod (Cplus (RtoC 1) (Cmult (RtoC t) (Cconj q)))).
  { intros q Hq. specialize (B q Hq). rewrite <- Cmod_Cconj, <- (Cmod_Cconj (Cplus _ _)) in B. rewrite Cconj_minus, Cconj_plus, Cconj_mult', !Cconj_RtoC in B. exact B. }
  apply in_app_iff in Hr. unfold zeros, poles in Hr. rewrite !in_roots, A in Hr. destruct Hr as [[(x & [] & _)|[Hr|(q & Hq & ->)]]|[(x & Hx & ->)|[Hr|(q & Hq & ->)]]].
  - apply B, in_app_iff. now left.
  - apply CJ, in_app_iff. now left.
  - rewrite <- RtoC_mult, <- RtoC_minus, <- RtoC_plus, !Cmod_R. now apply D.
  - apply B, in_app_iff. now right.
  - apply CJ, in_app_iff. now right.
Qed.
Section Band.
  Variables (fs low high : R).
  Hypotheses (H1 : 0 < low) (H2 : low < high) (H3 : high < fs / 2).
  Let tl := tan (PI * low / fs).
  Let th := tan (PI * high / fs).
  Lemma band_facts : 0 < tl /\ tl < th /\ 0 < (th - tl) / (1 + tl * th) /\ 0 < (1 + tl * th) / (th - tl).
  Proof.
    pose proof (tan_pos low fs H1 ltac:(lra)) as A. pose proof (tan_less low high fs H1 H2 H3) as B. fold tl in A. fold tl th in B. assert (0 < tl * th) by (apply Rmult_lt_0_compat; lra).
    repeat split; try assumption; apply Rdiv_lt_0_compat; lra.
  Qed.
  (* the lone pole -1 of odd Butterworth orders *)
  Lemma butterworth_lone n : Nat.even n = true \/ ((th - tl) * (th - tl) <= 4 * (tl * th) /\ 100001 * (th - tl) < 99999 * (1 + tl * th)) ->
    (forall x, In x (lone_zeros (butterworth n) ++ lone_poles (butterworth n)) -> (th - tl) * x * ((th - tl) * x) <= 4 * (tl * th)) /\
    (forall x, In x (lone_zeros (butterworth n) ++ lone_poles (butterworth n)) -> (th - tl) * (th - tl) <= 4 * (tl * th) * (x * x)) /\
    (forall x, In x (lone_poles (butterworth n)) -> / 100000 * Rabs (1 - (th - tl) / (1 + tl * th) * x) < Rabs (1 + (th - tl) / (1 + tl * th) * x)) /\
    (forall x, In x (lone_poles (butterworth n)) -> / 100000 * Rabs (1 - (1 + tl * th) / (th - tl) * x) < Rabs (1 + (1 + tl * th) / (th - tl) * x)).
  Proof.
    intros H. destruct band_facts as (A & B & C1 & C2). cbn [butterworth lone_zeros lone_poles app]. rewrite <- Nat.negb_even. destruct (Nat.even n) eqn:EV; cbn [negb]; [repeat split; intros x []|].
    destruct H as [H|[HA HB]]; [discriminate|]. assert (TT : 0 < tl * th) by nra.
    assert (Q : (th - tl) / (1 + tl * th) < 99999 / 100001) by (apply Rmult_lt_reg_r with (1 + tl * th); [lra|]; unfold Rdiv at 1; rewrite Rmult_assoc, Rinv_l by lra; lra).
    assert (Q' : 100001 / 99999 < (1 + tl * th) / (th - tl)) by (apply Rmult_lt_reg_r with (th - tl); [lra|]; unfold Rdiv at 2; rewrite Rmult_assoc, Rinv_l by lra; lra).
    repeat split; intros x [<-|[]]; try lra.
    - set (t := (th - tl) / (1 + tl * th)) in *. rewrite !Rabs_pos_eq by lra. lra.
    - set (t := (1 + tl * th) / (th - tl)) in *. rewrite Rabs_pos_eq, Rabs_left by lra. lra.
  Qed.
  Lemma butterworth_bandpass_ok n : (1 <= n)%nat -> (Z.of_nat n <= 50000)%Z -> Nat.even n = true \/ ((th - tl) * (th - tl) <= 4 * (tl * th) /\ 100001 * (th - tl) < 99999 * (1 + tl * th)) ->
    exists cs, bandpass_filter (butterworth_prototype (Z.of_nat n)) fs low high = Ok cs /\ stable_cascade cs /\
      (forall g, - (fs / 2) < g < fs / 2 -> g <> 0 -> exists h, cascade_value cs (on_circle g fs) h /\ Cmod h = / sqrt (1 + bandpass_w tl th (tan (PI * g / fs)) ^ (2 * n))) /\
      cascade_value cs (RtoC 1) (RtoC 0) /\ cascade_value cs (RtoC (-1)) (RtoC 0).
  Proof.
    intros H HN HO. destruct band_facts as (A & B & C1 & C2). destruct (butterworth_lone n HO) as (N1 & _ & N2 & _). destruct (butterworth_lowpass_prototype n H) as (L & LP & LZ). rewrite butterworth_is by exact H.
    destruct (bandpass_response _ fs low high L H1 H2 H3 N1) as (cs & E & S1 & V & N); [apply paired_away; [now apply butterworth_tame_paired|exact N2]|]. exists cs. split; [exact E|]. split; [exact S1|]. split.
    - intros g G G0. destruct (butterworth_axis n (bandpass_w tl th (tan (PI * g / fs))) H) as (h & VH & MH). exists h. split; [now apply V|exact MH].
    - apply N. rewrite LP, LZ. cbn. lia.
  Qed.
  Lemma butterworth_bandstop_ok n : (1 <= n)%nat -> (Z.of_nat n <= 50000)%Z -> Nat.even n = true \/ ((th - tl) * (th - tl) <= 4 * (tl * th) /\ 100001 * (th - tl) < 99999 * (1 + tl * th)) ->
    exists cs, bandstop_filter (butterworth_prototype (Z.of_nat n)) fs low high = Ok cs /\ stable_cascade cs /\
      (forall g, - (fs / 2) < g < fs / 2 -> tan (PI * g / fs) * tan (PI * g / fs) <> tl * th -> exists h, cascade_value cs (on_circle g fs) h /\ Cmod h = / sqrt (1 + bandstop_w tl th (tan (PI * g / fs)) ^ (2 * n))) /\
      (forall g, - (fs / 2) < g < fs / 2 -> tan (PI * g / fs) * tan (PI * g / fs) = tl * th -> cascade_value cs (on_circle g fs) (RtoC 0)) /\
      (exists h, cascade_value cs (RtoC (-1)) h /\ Cmod h = 1).
  Proof.
    intros H HN HO. destruct band_facts as (A & B & C1 & C2). destruct (butterworth_lone n HO) as (_ & N1 & _ & N2). destruct (butterworth_lowpass_prototype n H) as (L & LP & LZ). rewrite butterworth_is by exact H.
    destruct (bandstop_response _ fs low high L H1 H2 H3 N1) as (cs & E & S1 & V & Z & N); [apply paired_away; [now apply butterworth_tame_paired|exact N2]|]. exists cs. split; [exact E|]. split; [exact S1|]. split; [|split].
    - intros g G G0. destruct (butterworth_axis n (bandstop_w tl th (tan (PI * g / fs))) H) as (h & VH & MH). exists h. split; [now apply V|exact MH].
    - apply Z. rewrite LP, LZ. cbn. lia.
    - destruct (butterworth_dc n H) as (h & VH & MH). exists h. split; [now apply N|exact MH].
  Qed.
  (* Chebyshev filters of even order *)
  Lemma chebyshev1_bandpass_ok n db : (1 <= n)%nat -> (Z.of_nat n <= 25000)%Z -> Nat.even n = true -> 0 < db ->
    exists cs, bandpass_filter (chebyshev1_prototype (Z.of_nat n) db) fs low high = Ok cs /\ stable_cascade cs /\
      (forall g, - (fs / 2) < g < fs / 2 -> g <> 0 -> exists h, cascade_value cs (on_circle g fs) h /\ Cmod h = / sqrt (1 + (Rpower 10 (db / 10) - 1) * (T n (bandpass_w tl th (tan (PI * g / fs)))) ^ 2)) /\
      cascade_value cs (RtoC 1) (RtoC 0) /\ cascade_value cs (RtoC (-1)) (RtoC 0).
  Proof.
    intros H HN HO HD. destruct band_facts as (A & B & C1 & C2). destruct (ripple_pos db HD) as [RP RS]. pose proof (cheb1_prototype_ok n _ H RP) as L. rewrite chebyshev1_is by assumption. pose proof (mu_pos n _ H RP) as M.
    assert (LO : Nat.odd n = false) by (rewrite <- Nat.negb_even, HO; reflexivity).
    destruct (bandpass_response _ fs low high L H1 H2 H3) as (cs & E & S1 & V & N).
    - intros x Hx. cbn [cheb1 lone_zeros lone_poles app] in Hx. rewrite LO in Hx. destruct Hx.
    - apply paired_away; [now apply cheb1_tame_paired|]. intros x Hx. cbn [cheb1 lone_poles] in Hx. rewrite LO in Hx. destruct Hx.
    - exists cs. split; [exact E|]. split; [exact S1|]. split.
      + intros g G G0. destruct (cheb1_axis n _ H RP (bandpass_w tl th (tan (PI * g / fs)))) as (h & VH & MH). exists h. split; [now apply V|]. rewrite MH, RS. f_equal. f_equal. ring.
      + apply N. rewrite cheb1_length. cbn. lia.
  Qed.
  Lemma chebyshev1_bandstop_ok n db : (1 <= n)%nat -> (Z.of_nat n <= 25000)%Z -> Nat.even n = true -> 0 < db ->
    exists cs, bandstop_filter (chebyshev1_prototype (Z.of_nat n) db) fs low high = Ok cs /\ stable_cascade cs /\
      (forall g, - (fs / 2) < g < fs / 2 -> tan (PI * g / fs) * tan (PI * g / fs) <> tl * th -> exists h, cascade_value cs (on_circle g fs) h /\ Cmod h = / sqrt (1 + (Rpower 10 (db / 10) - 1) * (T n (bandstop_w tl th (tan (PI * g / fs)))) ^ 2)) /\
      (forall g, - (fs / 2) < g < fs / 2 -> tan (PI * g / fs) * tan (PI * g / fs) = tl * th -> cascade_value cs (on_circle g fs) (RtoC 0)) /\
      (exists h, cascade_value cs (RtoC (-1)) h /\ Cmod h = / sqrt (1 + (Rpower 10 (db / 10) - 1) * (T n 0) ^ 2)).
  Proof.
    intros H HN HO HD. destruct band_facts as (A & B & C1 & C2). destruct (ripple_pos db HD) as [RP RS]. pose proof (cheb1_prototype_ok n _ H RP) as L. rewrite chebyshev1_is by assumption. pose proof (mu_pos n _ H RP) as M.
    assert (LO : Nat.odd n = false) by (rewrite <- Nat.negb_even, HO; reflexivity).
    destruct (bandstop_response _ fs low high L H1 H2 H3) as (cs & E & S1 & V & Z & N).
    - intros x Hx. cbn [cheb1 lone_zeros lone_poles app] in Hx. rewrite LO in Hx. destruct Hx.
    - apply paired_away; [now apply cheb1_tame_paired|]. intros x Hx. cbn [cheb1 lone_poles] in Hx. rewrite LO in Hx. destruct Hx.
    - exists cs. split; [exact E|]. split; [exact S1|]. split; [|split].
      + intros g G G0. destruct (cheb1_axis n _ H RP (bandstop_w tl th (tan (PI * g / fs)))) as (h & VH & MH). exists h. split; [now apply V|]. rewrite MH, RS. f_equal. f_equal. ring.
      + apply Z. rewrite cheb1_length. cbn. lia.
      + destruct (cheb1_dc n _ H RP) as (h & VH & MH). exists h. split; [now apply N|]. rewrite MH, RS. f_equal. f_equal. ring.
  Qed.
  Lemma bandpass_w_zero t : t <> 0 -> bandpass_w tl th t = 0 <-> t * t = tl * th.
  Proof.
    intros H. destruct band_facts as (A & B & _). unfold bandpass_w. assert (P : (th - tl) * t <> 0) by (apply Rmult_integral_contrapositive_currified; lra). split; intros E.
    - apply (f_equal (fun x => x * ((th - tl) * t))) in E. unfold Rdiv in E. rewrite Rmult_assoc, Rinv_l, Rmult_0_l in E by exact P. lra.
    - rewrite E. unfold Rdiv. ring.
  Qed.
  Lemma chebyshev2_bandpass_ok n db : (1 <= n)%nat -> (Z.of_nat n <= 25000)%Z -> Nat.even n = true -> 0 < db ->
    exists cs, bandpass_filter (chebyshev2_prototype (Z.of_nat n) db) fs low high = Ok cs /\ stable_cascade cs /\
      (forall g, - (fs / 2) < g < fs / 2 -> g <> 0 -> tan (PI * g / fs) * tan (PI * g / fs) = tl * th -> cascade_value cs (on_circle g fs) (RtoC 1)) /\
      (forall g, - (fs / 2) < g < fs / 2 -> g <> 0 -> tan (PI * g / fs) * tan (PI * g / fs) <> tl * th -> exists h, cascade_value cs (on_circle g fs) h /\
         let t := T n (/ bandpass_w tl th (tan (PI * g / fs))) in Cmod h = Rabs t / sqrt (Rpower 10 (db / 10) - 1 + t ^ 2)).
  Proof.
    intros H HN HO HD. destruct band_facts as (A & B & C1 & C2). destruct (ripple_pos db HD) as [RP RS]. assert (EP : 0 < 1 / ripple db) by (apply Rdiv_lt_0_compat; lra). pose proof (cheb2_prototype_ok n _ H EP) as L. rewrite chebyshev2_is by assumption.
    assert (LO : Nat.odd n = false) by (rewrite <- Nat.negb_even, HO; reflexivity).
    destruct (bandpass_response _ fs low high L H1 H2 H3) as (cs & E & S1 & V & N).
    - intros x Hx. cbn [cheb2 lone_zeros lone_poles app] in Hx. rewrite LO in Hx. destruct Hx.
    - apply paired_away; [now apply cheb2_tame_paired|]. intros x Hx. cbn [cheb2 lone_poles] in Hx. rewrite LO in Hx. destruct Hx.
    - exists cs. split; [exact E|]. split; [exact S1|]. split.
      + intros g G G0 GT. apply V; [exact G|exact G0|]. fold tl th. rewrite (proj2 (bandpass_w_zero _ (tan_neq g fs G G0)) GT). exact (cheb2_dc n _ H EP).
      + intros g G G0 GT. destruct (cheb2_axis n _ H EP (bandpass_w tl th (tan (PI * g / fs)))) as (h & VH & MH); [intros X; apply GT; now apply (bandpass_w_zero _ (tan_neq g fs G G0))|]. exists h. split; [now apply V|]. cbv zeta. rewrite MH, stop_gain by exact HD. reflexivity.
  Qed.
  Lemma chebyshev2_bandstop_ok n db : (1 <= n)%nat -> (Z.of_nat n <= 25000)%Z -> Nat.even n = true -> 0 < db ->
    exists cs, bandstop_filter (chebyshev2_prototype (Z.of_nat n) db) fs low high = Ok cs /\ stable_cascade cs /\
      cascade_value cs (RtoC 1) (RtoC 1) /\ cascade_value cs (RtoC (-1)) (RtoC 1) /\
      (forall g, - (fs / 2) < g < fs / 2 -> g <> 0 -> tan (PI * g / fs) * tan (PI * g / fs) <> tl * th -> exists h, cascade_value cs (on_circle g fs) h /\
         let t := T n (bandpass_w tl th (tan (PI * g / fs))) in Cmod h = Rabs t / sqrt (Rpower 10 (db / 10) - 1 + t ^ 2)).
  Proof.
    intros H HN HO HD. destruct band_facts as (A & B & C1 & C2). destruct (ripple_pos db HD) as [RP RS]. assert (EP : 0 < 1 / ripple db) by (apply Rdiv_lt_0_compat; lra). pose proof (cheb2_prototype_ok n _ H EP) as L. rewrite chebyshev2_is by assumption.
    assert (LO : Nat.odd n = false) by (rewrite <- Nat.negb_even, HO; reflexivity).
    destruct (bandstop_response _ fs low high L H1 H2 H3) as (cs & E & S1 & V & Z & N).
    - intros x Hx. cbn [cheb2 lone_zeros lone_poles app] in Hx. rewrite LO in Hx. destruct Hx.
    - apply paired_away; [now apply cheb2_tame_paired|]. intros x Hx. cbn [cheb2 lone_poles] in Hx. rewrite LO in Hx. destruct Hx.
    - exists cs. split; [exact E|]. split; [exact S1|]. split; [|split; [apply N; exact (cheb2_dc n _ H EP)|]].
      + assert (Z0 : on_circle 0 fs = RtoC 1) by (unfold on_circle; replace (2 * PI * 0 / fs) with 0 by (field; lra); rewrite cos_0, sin_0; reflexivity). rewrite <- Z0 at 1. assert (TZ : tan (PI * 0 / fs) = 0) by (replace (PI * 0 / fs) with 0 by (field; lra); apply tan_0).
        apply V; [lra|rewrite TZ; fold tl th; assert (0 < tl * th) by (apply Rmult_lt_0_compat; lra); lra|]. rewrite TZ. unfold bandstop_w. replace ((tan (PI * high / fs) - tan (PI * low / fs)) * 0 / (tan (PI * low / fs) * tan (PI * high / fs) - 0 * 0)) with 0 by (unfold Rdiv; ring). exact (cheb2_dc n _ H EP).
      + intros g G G0 GT. pose proof (tan_neq g fs G G0) as T0. set (t := tan (PI * g / fs)) in *. destruct (cheb2_axis n _ H EP (bandstop_w tl th t)) as (h & VH & MH).
        { unfold bandstop_w. apply Rmult_integral_contrapositive_currified; [apply Rmult_integral_contrapositive_currified; lra|apply Rinv_neq_0_compat; lra]. }
        exists h. split; [now apply V|]. cbv zeta. rewrite MH, stop_gain by exact HD. replace (/ bandstop_w tl th t) with (- bandpass_w tl th t) by (unfold bandstop_w, bandpass_w; field; repeat split; lra).
        set (y := bandpass_w tl th t). assert (RA : Rabs (T n (- y)) = Rabs (T n y)) by (apply Rsqr_eq_abs_0; unfold Rsqr; apply T_sq_opp). assert (P2 : T n (- y) ^ 2 = T n y ^ 2) by (cbn [pow]; rewrite !Rmult_1_r; apply T_sq_opp). rewrite RA, P2. reflexivity.
  Qed.
End Band.
