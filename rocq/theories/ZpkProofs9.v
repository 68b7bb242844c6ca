From Verif Require Import Common ListLemmas RealUtil BiquadModel DesignModel DesignSpec DesignProofs DesignProofs3 CascadeModel CascadeSpec CascadeProofs CascadeProofs2 PoleZeroModel PoleZeroSpec PoleZeroProofs PoleZeroProofs3 PoleZeroProofs4 PoleZeroProofs5 PoleZeroProofs6 PoleZeroProofs7 PoleZeroProofs8 PoleZeroProofs9 PoleZeroProofs10 PoleZeroProofs11 PoleZeroProofs12 PoleZeroProofs13 PoleZeroProofs14 PoleZeroProofs15 PoleZeroProofs24 PoleZeroProofs25 ComplexModel ComplexProofs ZpkModel ZpkSpec ZpkProofs ZpkProofs2 ZpkProofs3 ZpkProofs4 ZpkProofs5 ZpkProofs6 ZpkProofs7 ZpkProofs8.
From Coq Require Import Permutation Sorted.
From Coquelicot Require Import Complex.
Local Open Scope R_scope.

Section Bands.
Variables (ex : R -> Z) (qsort : list C -> list C).
Hypothesis HQ : sorts qsort.
Variables (n : nat) (fs low high : R) (m : Z).
Hypotheses (H1 : (1 <= n)%nat) (H15 : (n <= 15)%nat) (HF : 0 < fs) (HC : band_inside fs low high) (HB : (Z.of_nat n <= m)%Z).
Let tl := tan (PI * low / fs).
Let th := tan (PI * high / fs).
Lemma band_positive : 0 < low /\ low < high /\ high < fs / 2 /\ 0 < tl /\ tl < th.
Proof. destruct (band_range fs low high HF HC) as (A & B & D). destruct (band_facts fs low high A B D) as (X & Y & _). auto. Qed.

Lemma butterworth_bandpass_design : (Nat.odd n = true -> edge_clear (th - tl) (tl * th)) ->
  exists cs, butterworth_bandpass ex qsort (Z.of_nat n) low high fs m = Ok (Some cs) /\ length cs = n /\ stable_cascade cs /\
    (forall g, - (fs / 2) < g < fs / 2 -> g <> 0 -> exists h, cascade_value cs (on_circle g fs) h /\ Cmod h = / sqrt (1 + bandpass_w tl th (tan (PI * g / fs)) ^ (2 * n))) /\
    cascade_value cs (RtoC 1) (RtoC 0) /\ cascade_value cs (RtoC (-1)) (RtoC 0) /\
    (forall g h, 0 < g < fs / 2 -> cascade_value cs (on_circle g fs) h ->
       (g = low \/ g = high -> Cmod h = / sqrt 2) /\ (low < g < high -> / sqrt 2 < Cmod h <= 1) /\ (g < low \/ high < g -> Cmod h < / sqrt 2)).
Proof.
  intros HO. destruct band_positive as (F1 & F2 & F3 & TL & TH). destruct HC as (C1 & C2 & C3).
  destruct (butterworth_zpk_ok ex n H1 ltac:(lia)) as (f & EF & SF). destruct (butterworth_lowpass_prototype n H1) as (L & LP & LZ).
  destruct (design_bandpass_ok ex qsort HQ f _ fs low high m SF L (butterworth_moderate n H1 ltac:(lia)) HF) as (cs & E & EL & S1 & V & N & _); try assumption; try (rewrite LP; assumption).
  { fold tl th. intros x Hx SX. destruct (butterworth_real n x H1 Hx SX) as (O & ->). replace ((th - tl) * -1) with (- (th - tl)) by ring. apply edge_clear_opp, HO, O. }
  fold tl th in V.
  assert (VM : forall g, - (fs / 2) < g < fs / 2 -> g <> 0 -> exists h, cascade_value cs (on_circle g fs) h /\ Cmod h = / sqrt (1 + bandpass_w tl th (tan (PI * g / fs)) ^ (2 * n))).
  { intros g G G0. destruct (butterworth_axis n (bandpass_w tl th (tan (PI * g / fs))) H1) as (h & VH & MH). exists h. split; [now apply V|exact MH]. }
  exists cs. unfold butterworth_bandpass. rewrite (from_prototype_is _ f) by exact EF. split; [exact E|]. split; [rewrite EL; exact LP|]. split; [exact S1|]. split; [exact VM|].
  destruct N as (N1 & N2); [rewrite LP, LZ; cbn; lia|]. split; [exact N1|]. split; [exact N2|]. exact (butterworth_bandpass_shape n fs low high cs H1 F1 F2 F3 VM).
Qed.
Lemma butterworth_bandstop_design : (Nat.odd n = true -> edge_clear (th - tl) (tl * th)) ->
  exists cs, butterworth_bandstop ex qsort (Z.of_nat n) low high fs m = Ok (Some cs) /\ length cs = n /\ stable_cascade cs /\
    (forall g, - (fs / 2) < g < fs / 2 -> tan (PI * g / fs) * tan (PI * g / fs) <> tl * th -> exists h, cascade_value cs (on_circle g fs) h /\ Cmod h = / sqrt (1 + bandstop_w tl th (tan (PI * g / fs)) ^ (2 * n))) /\
    (forall g, - (fs / 2) < g < fs / 2 -> tan (PI * g / fs) * tan (PI * g / fs) = tl * th -> cascade_value cs (on_circle g fs) (RtoC 0)) /\
    (exists h, cascade_value cs (RtoC (-1)) h /\ Cmod h = 1) /\
    (forall g h, 0 < g < fs / 2 -> cascade_value cs (on_circle g fs) h ->
       (g = low \/ g = high -> Cmod h = / sqrt 2) /\ (low < g < high -> Cmod h < / sqrt 2) /\ (g < low \/ high < g -> / sqrt 2 < Cmod h <= 1)).
Proof.
  intros HO. destruct band_positive as (F1 & F2 & F3 & TL & TH). destruct HC as (C1 & C2 & C3).
  destruct (butterworth_zpk_ok ex n H1 ltac:(lia)) as (f & EF & SF). destruct (butterworth_lowpass_prototype n H1) as (L & LP & LZ).
  destruct (design_bandstop_ok ex qsort HQ f _ fs low high m SF L (butterworth_moderate n H1 ltac:(lia)) HF) as (cs & E & EL & S1 & V & D & Z); try assumption; try (rewrite LP; assumption).
  { fold tl th. intros x Hx SX. destruct (butterworth_real n x H1 Hx SX) as (O & ->). replace ((th - tl) / -1) with (- (th - tl)) by (field; lra). apply edge_clear_opp, HO, O. }
  fold tl th in V, Z. specialize (Z ltac:(rewrite LP, LZ; cbn; lia)).
  assert (VM : forall g, - (fs / 2) < g < fs / 2 -> tan (PI * g / fs) * tan (PI * g / fs) <> tl * th -> exists h, cascade_value cs (on_circle g fs) h /\ Cmod h = / sqrt (1 + bandstop_w tl th (tan (PI * g / fs)) ^ (2 * n))).
  { intros g G G0. destruct (butterworth_axis n (bandstop_w tl th (tan (PI * g / fs))) H1) as (h & VH & MH). exists h. split; [now apply V|exact MH]. }
  exists cs. unfold butterworth_bandstop. rewrite (from_prototype_is _ f) by exact EF. split; [exact E|]. split; [rewrite EL; exact LP|]. split; [exact S1|]. split; [exact VM|]. split; [exact Z|]. split; [|exact (butterworth_bandstop_shape n fs low high cs H1 F1 F2 F3 VM Z)].
  destruct (butterworth_dc n H1) as (h & VH & M). exists h. split; [apply D; exact VH|exact M].
Qed.

Section Type1.
Variable db : R.
Hypothesis HD : / 1000000 <= db.
Lemma chebyshev1_bandpass_design : (Nat.odd n = true -> edge_clear ((th - tl) * real_pole1 n db) (tl * th)) ->
  exists cs, chebyshev1_bandpass ex qsort (Z.of_nat n) db low high fs m = Ok (Some cs) /\ length cs = n /\ stable_cascade cs /\
    (forall g, - (fs / 2) < g < fs / 2 -> g <> 0 -> exists h, cascade_value cs (on_circle g fs) h /\ Cmod h = / sqrt (1 + (Rpower 10 (db / 10) - 1) * (chebyshev_T n (bandpass_w tl th (tan (PI * g / fs)))) ^ 2)) /\
    cascade_value cs (RtoC 1) (RtoC 0) /\ cascade_value cs (RtoC (-1)) (RtoC 0) /\
    (forall g h, 0 < g < fs / 2 -> cascade_value cs (on_circle g fs) h ->
       (g = low \/ g = high -> Cmod h = Rpower 10 (- db / 20)) /\ (low < g < high -> Rpower 10 (- db / 20) <= Cmod h <= 1) /\ (g < low \/ high < g -> Cmod h < Rpower 10 (- db / 20))).
Proof.
  intros HO. destruct band_positive as (F1 & F2 & F3 & TL & TH). destruct HC as (C1 & C2 & C3). assert (D0 : 0 < db) by lra.
  destruct (ripple_pos db D0) as [RP RS]. assert (XP : 0 < 1 / ripple db) by (apply Rdiv_lt_0_compat; lra). destruct (chebyshev1_zpk_ok ex n db H1 ltac:(lia) D0) as (f & EF & SF). pose proof (cheb1_prototype_ok n _ H1 RP) as L. pose proof (mu_pos n _ H1 RP) as M.
  destruct (design_bandpass_ok ex qsort HQ f _ fs low high m SF L (cheb1_moderate n _ _ H1 ltac:(lia) (Rlt_le _ _ XP) (ripple_low db HD)) HF) as (cs & E & EL & S1 & V & N & _); try assumption; try (rewrite cheb1_length; assumption).
  { fold tl th. intros x Hx SX. destruct (cheb1_real n _ _ x M Hx SX) as (O & ->). replace ((th - tl) * - sinh (arcsinh (1 / ripple db) / INR n)) with (- ((th - tl) * real_pole1 n db)) by (unfold real_pole1, ripple; ring). apply edge_clear_opp, HO, O. }
  fold tl th in V.
  assert (VM : forall g, - (fs / 2) < g < fs / 2 -> g <> 0 -> exists h, cascade_value cs (on_circle g fs) h /\ Cmod h = / sqrt (1 + (Rpower 10 (db / 10) - 1) * (chebyshev_T n (bandpass_w tl th (tan (PI * g / fs)))) ^ 2)).
  { intros g G G0. destruct (cheb1_axis n _ H1 RP (bandpass_w tl th (tan (PI * g / fs)))) as (h & VH & MH). exists h. split; [now apply V|]. rewrite MH, RS. f_equal. f_equal. ring. }
  exists cs. unfold chebyshev1_bandpass. rewrite (from_prototype_is _ f) by exact EF. split; [exact E|]. split; [rewrite EL; apply cheb1_length|]. split; [exact S1|]. split; [exact VM|].
  destruct N as (N1 & N2); [rewrite cheb1_length; cbn; lia|]. split; [exact N1|]. split; [exact N2|]. exact (chebyshev1_bandpass_shape n db fs low high cs H1 D0 F1 F2 F3 VM).
Qed.
Lemma chebyshev1_bandstop_design : (Nat.odd n = true -> edge_clear ((th - tl) / real_pole1 n db) (tl * th)) ->
  exists cs, chebyshev1_bandstop ex qsort (Z.of_nat n) db low high fs m = Ok (Some cs) /\ length cs = n /\ stable_cascade cs /\
    (forall g, - (fs / 2) < g < fs / 2 -> tan (PI * g / fs) * tan (PI * g / fs) <> tl * th -> exists h, cascade_value cs (on_circle g fs) h /\ Cmod h = / sqrt (1 + (Rpower 10 (db / 10) - 1) * (chebyshev_T n (bandstop_w tl th (tan (PI * g / fs)))) ^ 2)) /\
    (forall g, - (fs / 2) < g < fs / 2 -> tan (PI * g / fs) * tan (PI * g / fs) = tl * th -> cascade_value cs (on_circle g fs) (RtoC 0)) /\
    (exists h, cascade_value cs (RtoC (-1)) h /\ Cmod h = / sqrt (1 + (Rpower 10 (db / 10) - 1) * (chebyshev_T n 0) ^ 2)) /\
    (forall g h, 0 < g < fs / 2 -> cascade_value cs (on_circle g fs) h ->
       (g = low \/ g = high -> Cmod h = Rpower 10 (- db / 20)) /\ (low < g < high -> Cmod h < Rpower 10 (- db / 20)) /\ (g < low \/ high < g -> Rpower 10 (- db / 20) <= Cmod h <= 1)).
Proof.
  intros HO. destruct band_positive as (F1 & F2 & F3 & TL & TH). destruct HC as (C1 & C2 & C3). assert (D0 : 0 < db) by lra.
  destruct (ripple_pos db D0) as [RP RS]. assert (XP : 0 < 1 / ripple db) by (apply Rdiv_lt_0_compat; lra). destruct (chebyshev1_zpk_ok ex n db H1 ltac:(lia) D0) as (f & EF & SF). pose proof (cheb1_prototype_ok n _ H1 RP) as L. pose proof (mu_pos n _ H1 RP) as M.
  destruct (design_bandstop_ok ex qsort HQ f _ fs low high m SF L (cheb1_moderate n _ _ H1 ltac:(lia) (Rlt_le _ _ XP) (ripple_low db HD)) HF) as (cs & E & EL & S1 & V & D & Z); try assumption; try (rewrite cheb1_length; assumption).
  { fold tl th. intros x Hx SX. destruct (cheb1_real n _ _ x M Hx SX) as (O & ->). pose proof (PoleZeroProofs9.sinh_pos _ M). replace ((th - tl) / - sinh (arcsinh (1 / ripple db) / INR n)) with (- ((th - tl) / real_pole1 n db)) by (unfold real_pole1, ripple in *; field; lra). apply edge_clear_opp, HO, O. }
  fold tl th in V, Z. specialize (Z ltac:(rewrite cheb1_length; cbn; lia)).
  assert (VM : forall g, - (fs / 2) < g < fs / 2 -> tan (PI * g / fs) * tan (PI * g / fs) <> tl * th -> exists h, cascade_value cs (on_circle g fs) h /\ Cmod h = / sqrt (1 + (Rpower 10 (db / 10) - 1) * (chebyshev_T n (bandstop_w tl th (tan (PI * g / fs)))) ^ 2)).
  { intros g G G0. destruct (cheb1_axis n _ H1 RP (bandstop_w tl th (tan (PI * g / fs)))) as (h & VH & MH). exists h. split; [now apply V|]. rewrite MH, RS. f_equal. f_equal. ring. }
  exists cs. unfold chebyshev1_bandstop. rewrite (from_prototype_is _ f) by exact EF. split; [exact E|]. split; [rewrite EL; apply cheb1_length|]. split; [exact S1|]. split; [exact VM|]. split; [exact Z|]. split; [|exact (chebyshev1_bandstop_shape n db fs low high cs H1 D0 F1 F2 F3 VM Z)].
  destruct (cheb1_dc n _ H1 RP) as (h & VH & MH). exists h. split; [apply D; exact VH|]. rewrite MH, RS. f_equal. f_equal. ring.
Qed.
End Type1.

Section Type2.
Variable db : R.
Hypotheses (HD : 0 < db) (HD' : db <= 80).
Lemma real_pole2_is : real_pole2 n db = / sinh (arcsinh (1 / (1 / ripple db)) / INR n).
Proof. unfold real_pole2. rewrite one_over by assumption. unfold ripple, Rdiv. ring. Qed.
Lemma chebyshev2_bandpass_design : (Nat.odd n = true -> edge_clear ((th - tl) * real_pole2 n db) (tl * th)) ->
  exists cs, chebyshev2_bandpass ex qsort (Z.of_nat n) db low high fs m = Ok (Some cs) /\ length cs = n /\ stable_cascade cs /\
    (forall g, - (fs / 2) < g < fs / 2 -> g <> 0 -> tan (PI * g / fs) * tan (PI * g / fs) = tl * th -> cascade_value cs (on_circle g fs) (RtoC 1)) /\
    (forall g, - (fs / 2) < g < fs / 2 -> g <> 0 -> tan (PI * g / fs) * tan (PI * g / fs) <> tl * th -> exists h, cascade_value cs (on_circle g fs) h /\
       let t := chebyshev_T n (/ bandpass_w tl th (tan (PI * g / fs))) in Cmod h = Rabs t / sqrt (Rpower 10 (db / 10) - 1 + t ^ 2)) /\
    (Nat.odd n = true -> cascade_value cs (RtoC 1) (RtoC 0) /\ cascade_value cs (RtoC (-1)) (RtoC 0)) /\
    (forall g h, 0 < g < fs / 2 -> cascade_value cs (on_circle g fs) h ->
       (g = low \/ g = high -> Cmod h = Rpower 10 (- db / 20)) /\ (low < g < high -> Rpower 10 (- db / 20) < Cmod h <= 1) /\ (g < low \/ high < g -> Cmod h <= Rpower 10 (- db / 20))).
Proof.
  intros HO. destruct band_positive as (F1 & F2 & F3 & TL & TH). destruct HC as (C1 & C2 & C3). pose proof (mu2_pos n H1 db HD) as M. pose proof (one_over db HD) as OO.
  destruct (ripple_pos db HD) as [RP RS]. assert (EP : 0 < 1 / ripple db) by (apply Rdiv_lt_0_compat; lra). destruct (chebyshev2_zpk_ok ex n db H1 ltac:(lia) HD) as (f & EF & SF). pose proof (cheb2_prototype_ok n _ H1 EP) as L.
  destruct (design_bandpass_ok ex qsort HQ f _ fs low high m SF L (cheb2_moderate n _ _ H1 ltac:(lia) M ltac:(rewrite OO; lra) ltac:(rewrite OO; exact (ripple_high db HD HD'))) HF) as (cs & E & EL & S1 & V & N & _); try assumption; try (rewrite cheb2_length by assumption; assumption).
  { fold tl th. intros x Hx SX. destruct (cheb2_real n _ _ x H1 M Hx SX) as (O & ->). replace ((th - tl) * - / sinh (arcsinh (1 / (1 / ripple db)) / INR n)) with (- ((th - tl) * real_pole2 n db)) by (rewrite real_pole2_is; ring). apply edge_clear_opp, HO, O. }
  fold tl th in V.
  assert (Z : forall g, - (fs / 2) < g < fs / 2 -> g <> 0 -> tan (PI * g / fs) * tan (PI * g / fs) = tl * th -> cascade_value cs (on_circle g fs) (RtoC 1)).
  { intros g G G0 GT. apply V; [exact G|exact G0|]. unfold tl, th. rewrite (proj2 (bandpass_w_zero fs low high F1 F2 F3 _ (tan_neq g fs G G0)) GT). exact (cheb2_dc n _ H1 EP). }
  assert (VM : forall g, - (fs / 2) < g < fs / 2 -> g <> 0 -> tan (PI * g / fs) * tan (PI * g / fs) <> tl * th -> exists h, cascade_value cs (on_circle g fs) h /\
     let t := chebyshev_T n (/ bandpass_w tl th (tan (PI * g / fs))) in Cmod h = Rabs t / sqrt (Rpower 10 (db / 10) - 1 + t ^ 2)).
  { intros g G G0 GT. destruct (cheb2_axis n _ H1 EP (bandpass_w tl th (tan (PI * g / fs)))) as (h & VH & MH); [intros X; apply GT; now apply (bandpass_w_zero fs low high F1 F2 F3 _ (tan_neq g fs G G0))|]. exists h. split; [now apply V|]. cbv zeta. rewrite MH, stop_gain by exact HD. reflexivity. }
  exists cs. unfold chebyshev2_bandpass. rewrite (from_prototype_is _ f) by exact EF. split; [exact E|]. split; [rewrite EL; now apply cheb2_length|]. split; [exact S1|]. split; [exact Z|]. split; [exact VM|]. split; [|exact (chebyshev2_bandpass_shape n db fs low high cs H1 HD F1 F2 F3 Z VM)].
  intros O. apply N. rewrite cheb2_length, cheb2_zeros_length by assumption. pose proof (half_eq n) as X. rewrite O in X. lia.
Qed.
Lemma chebyshev2_bandstop_design : (Nat.odd n = true -> edge_clear ((th - tl) / real_pole2 n db) (tl * th)) ->
  exists cs, chebyshev2_bandstop ex qsort (Z.of_nat n) db low high fs m = Ok (Some cs) /\ length cs = n /\ stable_cascade cs /\
    cascade_value cs (RtoC 1) (RtoC 1) /\ cascade_value cs (RtoC (-1)) (RtoC 1) /\
    (forall g, - (fs / 2) < g < fs / 2 -> g <> 0 -> tan (PI * g / fs) * tan (PI * g / fs) <> tl * th -> exists h, cascade_value cs (on_circle g fs) h /\
       let t := chebyshev_T n (bandpass_w tl th (tan (PI * g / fs))) in Cmod h = Rabs t / sqrt (Rpower 10 (db / 10) - 1 + t ^ 2)) /\
    (Nat.odd n = true -> forall g, - (fs / 2) < g < fs / 2 -> tan (PI * g / fs) * tan (PI * g / fs) = tl * th -> cascade_value cs (on_circle g fs) (RtoC 0)) /\
    (forall g h, 0 < g < fs / 2 -> tan (PI * g / fs) * tan (PI * g / fs) <> tl * th -> cascade_value cs (on_circle g fs) h ->
       (g = low \/ g = high -> Cmod h = Rpower 10 (- db / 20)) /\ (low < g < high -> Cmod h <= Rpower 10 (- db / 20)) /\ (g < low \/ high < g -> Rpower 10 (- db / 20) < Cmod h < 1)).
Proof.
  intros HO. destruct band_positive as (F1 & F2 & F3 & TL & TH). destruct HC as (C1 & C2 & C3). pose proof (mu2_pos n H1 db HD) as M. pose proof (one_over db HD) as OO.
  destruct (ripple_pos db HD) as [RP RS]. assert (EP : 0 < 1 / ripple db) by (apply Rdiv_lt_0_compat; lra). destruct (chebyshev2_zpk_ok ex n db H1 ltac:(lia) HD) as (f & EF & SF). pose proof (cheb2_prototype_ok n _ H1 EP) as L.
  destruct (design_bandstop_ok ex qsort HQ f _ fs low high m SF L (cheb2_moderate n _ _ H1 ltac:(lia) M ltac:(rewrite OO; lra) ltac:(rewrite OO; exact (ripple_high db HD HD'))) HF) as (cs & E & EL & S1 & V & D & Z); try assumption; try (rewrite cheb2_length by assumption; assumption).
  { fold tl th. intros x Hx SX. destruct (cheb2_real n _ _ x H1 M Hx SX) as (O & ->). pose proof (PoleZeroProofs9.sinh_pos _ M). replace ((th - tl) / - / sinh (arcsinh (1 / (1 / ripple db)) / INR n)) with (- ((th - tl) / real_pole2 n db)) by (rewrite real_pole2_is; field; repeat split; try lra; apply Rinv_neq_0_compat; lra). apply edge_clear_opp, HO, O. }
  fold tl th in V, Z. destruct (D _ (cheb2_dc n _ H1 EP)) as (D1 & D2).
  assert (VM : forall g, - (fs / 2) < g < fs / 2 -> g <> 0 -> tan (PI * g / fs) * tan (PI * g / fs) <> tl * th -> exists h, cascade_value cs (on_circle g fs) h /\
     let t := chebyshev_T n (bandpass_w tl th (tan (PI * g / fs))) in Cmod h = Rabs t / sqrt (Rpower 10 (db / 10) - 1 + t ^ 2)).
  { intros g G G0 GT. pose proof (tan_neq g fs G G0) as T0. specialize (V g). set (t := tan (PI * g / fs)) in *. destruct (cheb2_axis n _ H1 EP (bandstop_w tl th t)) as (h & VH & MH).
    { unfold bandstop_w. apply Rmult_integral_contrapositive_currified; [apply Rmult_integral_contrapositive_currified; lra|apply Rinv_neq_0_compat; lra]. }
    exists h. split; [now apply V|]. cbv zeta. rewrite MH, stop_gain by exact HD. replace (/ bandstop_w tl th t) with (- bandpass_w tl th t) by (unfold bandstop_w, bandpass_w; field; repeat split; lra).
    set (y := bandpass_w tl th t). assert (RA : Rabs (T n (- y)) = Rabs (T n y)) by (apply Rsqr_eq_abs_0; unfold Rsqr; apply T_sq_opp). assert (P2 : T n (- y) ^ 2 = T n y ^ 2) by (cbn [pow]; rewrite !Rmult_1_r; apply T_sq_opp). rewrite RA, P2. reflexivity. }
  exists cs. unfold chebyshev2_bandstop. rewrite (from_prototype_is _ f) by exact EF. split; [exact E|]. split; [rewrite EL; now apply cheb2_length|]. split; [exact S1|]. split; [exact D1|]. split; [exact D2|]. split; [exact VM|]. split; [|exact (chebyshev2_bandstop_shape n db fs low high cs H1 HD F1 F2 F3 VM)].
  intros O. apply Z. rewrite cheb2_length, cheb2_zeros_length by assumption. pose proof (half_eq n) as X. rewrite O in X. lia.
Qed.
End Type2.
End Bands.
