From Verif Require Import Common ListLemmas RealUtil BiquadModel DesignModel DesignSpec DesignProofs DesignProofs3 CascadeModel CascadeSpec CascadeProofs CascadeProofs2 PoleZeroModel PoleZeroSpec PoleZeroProofs PoleZeroProofs3 PoleZeroProofs4 PoleZeroProofs5 PoleZeroProofs6 PoleZeroProofs7 PoleZeroProofs8 PoleZeroProofs9 PoleZeroProofs10 PoleZeroProofs11 PoleZeroProofs12 PoleZeroProofs13 PoleZeroProofs14 PoleZeroProofs15 PoleZeroProofs24 PoleZeroProofs25 ComplexModel ComplexProofs ZpkModel ZpkSpec ZpkProofs ZpkProofs2 ZpkProofs3 ZpkProofs4 ZpkProofs5 ZpkProofs6 ZpkProofs7.
From Coq Require Import Permutation Sorted.
From Coquelicot Require Import Complex.
Local Open Scope R_scope.

Lemma edge_clear_opp u g : edge_clear u g -> edge_clear (- u) g.
Proof. unfold edge_clear. replace (- u * - u) with (u * u) by ring. tauto. Qed.
Lemma corner_range fs fc : 0 < fs -> corner_inside fs fc -> 0 < fc /\ fc < fs / 2.
Proof. unfold corner_inside. intros. lra. Qed.
Lemma band_range fs low high : 0 < fs -> band_inside fs low high -> 0 < low /\ low < high /\ high < fs / 2.
Proof. unfold band_inside. intros. lra. Qed.
(* ---------- the real poles ---------- *)
Lemma butterworth_real n r : (1 <= n)%nat -> In r (zeros (butterworth n) ++ poles (butterworth n)) -> snd r = 0 -> Nat.odd n = true /\ fst r = -1.
Proof.
  intros H1 Hr SZ. change (zeros (butterworth n)) with (@nil C) in Hr. cbn [app] in Hr. unfold poles in Hr. rewrite in_roots in Hr. cbn [butterworth lone_poles paired_poles] in Hr.
  assert (Q : forall q, In q (map (fun i => cis (PI - pole_angle n i)) (seq 0 (Nat.div2 n))) -> snd q <> 0).
  { intros q Hq. apply in_map_iff in Hq as (i & <- & Hi). apply in_seq in Hi. unfold cis. cbn [snd]. rewrite sin_minus, sin_PI, cos_PI. destruct (pole_angle_range n i ltac:(lia)) as (L & U). assert (0 < sin (pole_angle n i)) by (apply sin_gt_0; lra). lra. }
  destruct Hr as [(x & Hx & ->)|[Hr|(q & Hq & ->)]]; [|exfalso; now apply (Q r)|exfalso; apply (Q q Hq); cbn in SZ; lra]. destruct (Nat.odd n); [|destruct Hx]. destruct Hx as [<-|[]]. now split.
Qed.
Lemma cheb1_real n mu g r : 0 < mu -> In r (zeros (cheb1 n mu g) ++ poles (cheb1 n mu g)) -> snd r = 0 -> Nat.odd n = true /\ fst r = - sinh mu.
Proof.
  intros M Hr. change (zeros (cheb1 n mu g)) with (@nil C) in Hr. cbn [app] in Hr. revert r Hr. apply (cheb1_in n mu g (fun r => snd r = 0 -> Nat.odd n = true /\ fst r = - sinh mu)).
  - intros i Hi. apply inds_two in Hi as (_ & Hi). pose proof (pole1_up n mu i Hi) as U. split; [lra|]. cbn [Cconj snd]. lra.
  - intros O _. split; [exact O|]. unfold pole1. rewrite theta_0, cos_0. cbn [fst]. ring.
Qed.
Lemma cheb2_real n mu g r : (1 <= n)%nat -> 0 < mu -> In r (zeros (cheb2 n mu g) ++ poles (cheb2 n mu g)) -> snd r = 0 -> Nat.odd n = true /\ fst r = - / sinh mu.
Proof.
  intros H1 M Hr SZ. unfold zeros, poles in Hr. apply in_app_iff in Hr. rewrite !in_roots in Hr. cbn [cheb2 lone_zeros lone_poles paired_zeros paired_poles] in Hr.
  assert (Z : forall q, In q (map (zero2 n) (inds n)) -> snd q <> 0). { intros q Hq. apply in_map_iff in Hq as (i & <- & Hi). apply sigma_pos in Hi. unfold sigma in Hi. unfold zero2. cbn [snd]. assert (0 < 1 / sin (theta n i)) by (apply Rdiv_lt_0_compat; lra). lra. }
  assert (P : forall q, In q (map (pole2 mu n) (inds n)) -> snd q <> 0).
  { intros q Hq. apply in_map_iff in Hq as (i & <- & Hi). apply inds_two in Hi as (HN & Hi). rewrite pole2_is by (try exact M; lia). pose proof (pole1_left n mu i M ltac:(lia)) as L. pose proof (pole1_up n mu i Hi) as U. set (w := pole1 mu n i) in *. clearbody w. destruct w as [x y]. cbn in *.
    assert (D : 0 < x * (x * 1) + - y * (- y * 1)) by nra. replace (- - y / (x * (x * 1) + - y * (- y * 1))) with (y / (x * (x * 1) + - y * (- y * 1))) by (field; lra). assert (0 < y / (x * (x * 1) + - y * (- y * 1))) by (apply Rdiv_lt_0_compat; lra). lra. }
  destruct Hr as [[(y & [] & _)|[Hr|(q & Hq & ->)]]|[(y & Hy & ->)|[Hr|(q & Hq & ->)]]]; try (exfalso; now apply (Z r)); try (exfalso; now apply (P r)); try (exfalso; apply (Z q Hq); cbn in SZ; lra); try (exfalso; apply (P q Hq); cbn in SZ; lra).
  destruct (Nat.odd n); [|destruct Hy]. destruct Hy as [<-|[]]. split; [reflexivity|]. pose proof (PoleZeroProofs9.sinh_pos mu M). unfold pole2, complex_sinh. rewrite theta_0. cbn [fst snd]. rewrite cos_0, sin_0. cbn. field. lra.
Qed.

(* ---------- the twelve designs ---------- *)
Section Designs.
Variables (ex : R -> Z) (qsort : list C -> list C).
Hypothesis HQ : sorts qsort.
Lemma from_prototype_is p f design : p = Ok (Some f) -> from_prototype p design = design f.
Proof. now intros ->. Qed.
Section Corner.
Variables (n : nat) (fs fc : R) (m : Z).
Hypotheses (H1 : (1 <= n)%nat) (H30 : (n <= 30)%nat) (HF : 0 < fs) (HC : corner_inside fs fc) (HB : (Z.of_nat (Nat.div2 (n + 1)) <= m)%Z).
Lemma butterworth_lowpass_design :
  exists cs, butterworth_lowpass ex qsort (Z.of_nat n) fc fs m = Ok (Some cs) /\ length cs = Nat.div2 (n + 1) /\ stable_cascade cs /\
    (forall g, - (fs / 2) < g < fs / 2 -> exists h, cascade_value cs (on_circle g fs) h /\ Cmod h = / sqrt (1 + (tan (PI * g / fs) / tan (PI * fc / fs)) ^ (2 * n))) /\
    cascade_value cs (RtoC (-1)) (RtoC 0) /\
    (forall h, cascade_value cs (on_circle 0 fs) h -> Cmod h = 1) /\
    (forall h, cascade_value cs (on_circle fc fs) h -> Cmod h = / sqrt 2) /\
    (forall f g hf hg, 0 <= f -> f < g -> g < fs / 2 -> cascade_value cs (on_circle f fs) hf -> cascade_value cs (on_circle g fs) hg -> Cmod hg < Cmod hf).
Proof.
  destruct (butterworth_zpk_ok ex n H1 H30) as (f & EF & SF). destruct (butterworth_lowpass_prototype n H1) as (L & LP & LZ). destruct HC as (C1 & C2). destruct (corner_range fs fc HF HC) as (F1 & F2).
  destruct (design_lowpass_ok ex qsort HQ f _ fs m SF L (butterworth_moderate n H1 H30) HF fc C1 C2) as (cs & E & EL & S1 & V & N & _); [rewrite LP; exact HB|].
  exists cs. unfold butterworth_lowpass. rewrite (from_prototype_is _ f) by exact EF. split; [exact E|]. split; [rewrite EL, LP; reflexivity|]. split; [exact S1|]. split; [|split].
  - intros g G. destruct (butterworth_axis n (tan (PI * g / fs) / tan (PI * fc / fs)) H1) as (h & VH & M). exists h. split; [now apply V|exact M].
  - apply N. rewrite LP, LZ. cbn. lia.
  - destruct (lowpass_response _ fs fc L F1 F2 (butterworth_tame n _ H1 ltac:(lia) (tan_pos fc fs F1 F2))) as (cs0 & E0 & _ & V0 & _). rewrite <- (butterworth_is n H1) in E0. destruct (butterworth_lowpass_shape n fs fc cs0 H1 ltac:(lia) F1 F2 E0) as (A1 & A2 & A3).
    assert (T : forall g h, - (fs / 2) < g < fs / 2 -> cascade_value cs (on_circle g fs) h -> cascade_value cs0 (on_circle g fs) h) by (intros g h G X; apply V0; [exact G|]; now apply V).
    split; [intros h X; apply A1, T; [lra|exact X]|]. split; [intros h X; apply A2, T; [lra|exact X]|]. intros u g hf hg X1 X2 X3 X4 X5. apply (A3 u g); try assumption; apply T; try assumption; lra.
Qed.
Lemma butterworth_highpass_design :
  exists cs, butterworth_highpass ex qsort (Z.of_nat n) fc fs m = Ok (Some cs) /\ length cs = Nat.div2 (n + 1) /\ stable_cascade cs /\
    (forall g, - (fs / 2) < g < fs / 2 -> g <> 0 -> exists h, cascade_value cs (on_circle g fs) h /\ Cmod h = / sqrt (1 + (tan (PI * fc / fs) / tan (PI * g / fs)) ^ (2 * n))) /\
    cascade_value cs (RtoC 1) (RtoC 0) /\ (exists h, cascade_value cs (RtoC (-1)) h /\ Cmod h = 1) /\
    (forall h, cascade_value cs (on_circle fc fs) h -> Cmod h = / sqrt 2) /\
    (forall f g hf hg, 0 < f -> f < g -> g < fs / 2 -> cascade_value cs (on_circle f fs) hf -> cascade_value cs (on_circle g fs) hg -> Cmod hf < Cmod hg < 1).
Proof.
  destruct (butterworth_zpk_ok ex n H1 H30) as (f & EF & SF). destruct (butterworth_lowpass_prototype n H1) as (L & LP & LZ). destruct HC as (C1 & C2). destruct (corner_range fs fc HF HC) as (F1 & F2).
  destruct (design_highpass_ok ex qsort HQ f _ fs m SF L (butterworth_moderate n H1 H30) HF fc C1 C2) as (cs & E & EL & S1 & V & N & NY); [rewrite LP; exact HB|].
  exists cs. unfold butterworth_highpass. rewrite (from_prototype_is _ f) by exact EF. split; [exact E|]. split; [rewrite EL, LP; reflexivity|]. split; [exact S1|]. split; [|split; [|split]].
  - intros g G G0. destruct (butterworth_axis n (- (tan (PI * fc / fs) / tan (PI * g / fs))) H1) as (h & VH & M). exists h. split; [now apply V|]. rewrite M. f_equal. f_equal. f_equal. rewrite !pow_mult. f_equal. ring.
  - apply N. rewrite LP, LZ. cbn. lia.
  - destruct (butterworth_dc n H1) as (h & VH & M). exists h. split; [now apply NY|exact M].
  - destruct (highpass_response _ fs fc L F1 F2 (butterworth_tame n _ H1 ltac:(lia) (Rinv_0_lt_compat _ (tan_pos fc fs F1 F2)))) as (cs0 & E0 & _ & V0 & _). rewrite <- (butterworth_is n H1) in E0. destruct (butterworth_highpass_shape n fs fc cs0 H1 ltac:(lia) F1 F2 E0) as (A2 & A3).
    assert (T : forall g h, 0 < g < fs / 2 -> cascade_value cs (on_circle g fs) h -> cascade_value cs0 (on_circle g fs) h) by (intros g h G X; apply V0; [lra|lra|]; apply V; [lra|lra|exact X]).
    split; [intros h X; apply A2, T; [lra|exact X]|]. intros u g hf hg X1 X2 X3 X4 X5. apply (A3 u g); try assumption; apply T; try assumption; lra.
Qed.
Lemma chebyshev1_lowpass_design db : / 1000000 <= db ->
  exists cs, chebyshev1_lowpass ex qsort (Z.of_nat n) db fc fs m = Ok (Some cs) /\ length cs = Nat.div2 (n + 1) /\ stable_cascade cs /\
    (forall g, - (fs / 2) < g < fs / 2 -> exists h, cascade_value cs (on_circle g fs) h /\ Cmod h = / sqrt (1 + (Rpower 10 (db / 10) - 1) * (chebyshev_T n (tan (PI * g / fs) / tan (PI * fc / fs))) ^ 2)) /\
    cascade_value cs (RtoC (-1)) (RtoC 0) /\
    (forall g h, 0 <= g <= fc -> cascade_value cs (on_circle g fs) h -> Rpower 10 (- db / 20) <= Cmod h <= 1) /\
    (forall h, cascade_value cs (on_circle fc fs) h -> Cmod h = Rpower 10 (- db / 20)) /\
    (forall f g hf hg, fc <= f -> f < g -> g < fs / 2 -> cascade_value cs (on_circle f fs) hf -> cascade_value cs (on_circle g fs) hg -> Cmod hg < Cmod hf).
Proof.
  intros HD. destruct (ripple_pos db ltac:(lra)) as [RP RS]. assert (XP : 0 < 1 / ripple db) by (apply Rdiv_lt_0_compat; lra). destruct (chebyshev1_zpk_ok ex n db H1 H30 ltac:(lra)) as (f & EF & SF). pose proof (cheb1_prototype_ok n _ H1 RP) as L. pose proof (mu_pos n _ H1 RP) as M. destruct HC as (C1 & C2). destruct (corner_range fs fc HF HC) as (F1 & F2).
  destruct (design_lowpass_ok ex qsort HQ f _ fs m SF L (cheb1_moderate n _ _ H1 H30 (Rlt_le _ _ XP) (ripple_low db HD)) HF fc C1 C2) as (cs & E & EL & S1 & V & N & _); [rewrite cheb1_length; exact HB|].
  exists cs. unfold chebyshev1_lowpass. rewrite (from_prototype_is _ f) by exact EF. split; [exact E|]. split; [rewrite EL, cheb1_length; reflexivity|]. split; [exact S1|]. split; [|split].
  - intros g G. destruct (cheb1_axis n _ H1 RP (tan (PI * g / fs) / tan (PI * fc / fs))) as (h & VH & MH). exists h. split; [now apply V|]. rewrite MH, RS. f_equal. f_equal. ring.
  - apply N. rewrite cheb1_length. cbn. lia.
  - destruct (lowpass_response _ fs fc L F1 F2 (cheb1_tame n _ _ _ H1 ltac:(lia) M (tan_pos fc fs F1 F2))) as (cs0 & E0 & _ & V0 & _). rewrite <- (chebyshev1_is n db H1 ltac:(lra)) in E0. destruct (chebyshev1_lowpass_shape n db fs fc cs0 H1 ltac:(lia) ltac:(lra) F1 F2 E0) as (A1 & A2 & A3).
    assert (T : forall g h, - (fs / 2) < g < fs / 2 -> cascade_value cs (on_circle g fs) h -> cascade_value cs0 (on_circle g fs) h) by (intros g h G X; apply V0; [exact G|]; now apply V).
    split; [intros g h G X; apply (A1 g); [exact G|]; apply T; [lra|exact X]|]. split; [intros h X; apply A2, T; [lra|exact X]|]. intros u g hf hg X1 X2 X3 X4 X5. apply (A3 u g); try assumption; apply T; try assumption; lra.
Qed.
Lemma chebyshev1_highpass_design db : / 1000000 <= db ->
  exists cs, chebyshev1_highpass ex qsort (Z.of_nat n) db fc fs m = Ok (Some cs) /\ length cs = Nat.div2 (n + 1) /\ stable_cascade cs /\
    (forall g, - (fs / 2) < g < fs / 2 -> g <> 0 -> exists h, cascade_value cs (on_circle g fs) h /\ Cmod h = / sqrt (1 + (Rpower 10 (db / 10) - 1) * (chebyshev_T n (tan (PI * fc / fs) / tan (PI * g / fs))) ^ 2)) /\
    cascade_value cs (RtoC 1) (RtoC 0) /\ (exists h, cascade_value cs (RtoC (-1)) h /\ Cmod h = / sqrt (1 + (Rpower 10 (db / 10) - 1) * (chebyshev_T n 0) ^ 2)) /\
    (forall g h, fc <= g < fs / 2 -> cascade_value cs (on_circle g fs) h -> Rpower 10 (- db / 20) <= Cmod h <= 1) /\
    (forall h, cascade_value cs (on_circle fc fs) h -> Cmod h = Rpower 10 (- db / 20)) /\
    (forall f g hf hg, 0 < f -> f < g -> g <= fc -> cascade_value cs (on_circle f fs) hf -> cascade_value cs (on_circle g fs) hg -> Cmod hf < Cmod hg).
Proof.
  intros HD. destruct (ripple_pos db ltac:(lra)) as [RP RS]. assert (XP : 0 < 1 / ripple db) by (apply Rdiv_lt_0_compat; lra). destruct (chebyshev1_zpk_ok ex n db H1 H30 ltac:(lra)) as (f & EF & SF). pose proof (cheb1_prototype_ok n _ H1 RP) as L. pose proof (mu_pos n _ H1 RP) as M. destruct HC as (C1 & C2). destruct (corner_range fs fc HF HC) as (F1 & F2).
  destruct (design_highpass_ok ex qsort HQ f _ fs m SF L (cheb1_moderate n _ _ H1 H30 (Rlt_le _ _ XP) (ripple_low db HD)) HF fc C1 C2) as (cs & E & EL & S1 & V & N & NY); [rewrite cheb1_length; exact HB|].
  exists cs. unfold chebyshev1_highpass. rewrite (from_prototype_is _ f) by exact EF. split; [exact E|]. split; [rewrite EL, cheb1_length; reflexivity|]. split; [exact S1|]. split; [|split; [|split]].
  - intros g G G0. destruct (cheb1_axis n _ H1 RP (- (tan (PI * fc / fs) / tan (PI * g / fs)))) as (h & VH & MH). exists h. split; [now apply V|]. rewrite MH, RS, T_sq_opp. f_equal. f_equal. ring.
  - apply N. rewrite cheb1_length. cbn. lia.
  - destruct (cheb1_dc n _ H1 RP) as (h & VH & MH). exists h. split; [now apply NY|]. rewrite MH, RS. f_equal. f_equal. ring.
  - destruct (highpass_response _ fs fc L F1 F2 (cheb1_tame n _ _ _ H1 ltac:(lia) M (Rinv_0_lt_compat _ (tan_pos fc fs F1 F2)))) as (cs0 & E0 & _ & V0 & _). rewrite <- (chebyshev1_is n db H1 ltac:(lra)) in E0. destruct (chebyshev1_highpass_shape n db fs fc cs0 H1 ltac:(lia) ltac:(lra) F1 F2 E0) as (A1 & A2 & A3).
    assert (T : forall g h, 0 < g < fs / 2 -> cascade_value cs (on_circle g fs) h -> cascade_value cs0 (on_circle g fs) h) by (intros g h G X; apply V0; [lra|lra|]; apply V; [lra|lra|exact X]).
    split; [intros g h G X; apply (A1 g); [exact G|]; apply T; [lra|exact X]|]. split; [intros h X; apply A2, T; [lra|exact X]|]. intros u g hf hg X1 X2 X3 X4 X5. apply (A3 u g); try assumption; apply T; try assumption; lra.
Qed.
Lemma one_over db : 0 < db -> 1 / (1 / ripple db) = ripple db.
Proof. intros H. destruct (ripple_pos db H). field. lra. Qed.
Lemma mu2_pos db : 0 < db -> 0 < arcsinh (1 / (1 / ripple db)) / INR n.
Proof. intros H. destruct (ripple_pos db H). apply (mu_pos n (1 / ripple db) H1). apply Rdiv_lt_0_compat; lra. Qed.
Lemma chebyshev2_lowpass_design db : 0 < db -> db <= 80 ->
  exists cs, chebyshev2_lowpass ex qsort (Z.of_nat n) db fc fs m = Ok (Some cs) /\ length cs = Nat.div2 (n + 1) /\ stable_cascade cs /\
    cascade_value cs (RtoC 1) (RtoC 1) /\
    (forall g, - (fs / 2) < g < fs / 2 -> g <> 0 -> exists h, cascade_value cs (on_circle g fs) h /\
       let t := chebyshev_T n (tan (PI * fc / fs) / tan (PI * g / fs)) in Cmod h = Rabs t / sqrt (Rpower 10 (db / 10) - 1 + t ^ 2)) /\
    (Nat.odd n = true -> cascade_value cs (RtoC (-1)) (RtoC 0)) /\
    (forall g h, fc <= g < fs / 2 -> cascade_value cs (on_circle g fs) h -> Cmod h <= Rpower 10 (- db / 20)) /\
    (forall h, cascade_value cs (on_circle fc fs) h -> Cmod h = Rpower 10 (- db / 20)) /\
    (forall f g hf hg, 0 < f -> f < g -> g <= fc -> cascade_value cs (on_circle f fs) hf -> cascade_value cs (on_circle g fs) hg -> Cmod hg < Cmod hf < 1).
Proof.
  intros HD HD'. destruct (ripple_pos db HD) as [RP RS]. assert (EP : 0 < 1 / ripple db) by (apply Rdiv_lt_0_compat; lra). destruct (chebyshev2_zpk_ok ex n db H1 H30 HD) as (f & EF & SF). pose proof (cheb2_prototype_ok n _ H1 EP) as L. destruct HC as (C1 & C2). destruct (corner_range fs fc HF HC) as (F1 & F2). pose proof (tan_pos fc fs F1 F2) as TP.
  destruct (design_lowpass_ok ex qsort HQ f _ fs m SF L (cheb2_moderate n _ _ H1 H30 (mu2_pos db HD) ltac:(rewrite one_over by exact HD; lra) ltac:(rewrite one_over by exact HD; exact (ripple_high db HD HD'))) HF fc C1 C2) as (cs & E & EL & S1 & V & N & _); [rewrite cheb2_length by assumption; exact HB|].
  destruct (lowpass_response _ fs fc L F1 F2 (cheb2_tame n _ H1 EP _ _ ltac:(lia) TP)) as (cs0 & E0 & _ & V0 & _). rewrite <- (chebyshev2_is n db H1 HD) in E0. destruct (chebyshev2_lowpass_ok n db fs fc H1 ltac:(lia) HD F1 F2) as (cs' & E' & _ & D0 & D1 & _). rewrite E0 in E'. injection E' as <-.
  assert (T : forall g h, - (fs / 2) < g < fs / 2 -> cascade_value cs (on_circle g fs) h <-> cascade_value cs0 (on_circle g fs) h) by (intros g h G; rewrite (V0 g h G), (V g h G); reflexivity).
  exists cs. unfold chebyshev2_lowpass. rewrite (from_prototype_is _ f) by exact EF. split; [exact E|]. split; [rewrite EL, cheb2_length by assumption; reflexivity|]. split; [exact S1|]. split; [|split; [|split]].
  - assert (Z : on_circle 0 fs = RtoC 1) by (unfold on_circle; replace (2 * PI * 0 / fs) with 0 by (field; lra); rewrite cos_0, sin_0; reflexivity). rewrite <- Z at 1. apply T; [lra|]. rewrite Z. exact D0.
  - intros g G G0. destruct (D1 g G G0) as (h & X & Y). exists h. split; [now apply T|exact Y].
  - intros O. apply N. rewrite cheb2_length, cheb2_zeros_length by assumption. pose proof (half_eq n) as X. rewrite O in X. lia.
  - destruct (chebyshev2_lowpass_shape n db fs fc cs0 H1 ltac:(lia) HD F1 F2 E0) as (A1 & A2 & A3).
    split; [intros g h G X; apply (A1 g); [exact G|]; apply T; [lra|exact X]|]. split; [intros h X; apply A2, T; [lra|exact X]|]. intros u g hf hg X1 X2 X3 X4 X5. apply (A3 u g); try assumption; apply T; try assumption; lra.
Qed.
Lemma chebyshev2_highpass_design db : 0 < db -> db <= 80 ->
  exists cs, chebyshev2_highpass ex qsort (Z.of_nat n) db fc fs m = Ok (Some cs) /\ length cs = Nat.div2 (n + 1) /\ stable_cascade cs /\
    cascade_value cs (RtoC (-1)) (RtoC 1) /\
    (forall g, - (fs / 2) < g < fs / 2 -> g <> 0 -> exists h, cascade_value cs (on_circle g fs) h /\
       let t := chebyshev_T n (tan (PI * g / fs) / tan (PI * fc / fs)) in Cmod h = Rabs t / sqrt (Rpower 10 (db / 10) - 1 + t ^ 2)) /\
    (Nat.odd n = true -> cascade_value cs (RtoC 1) (RtoC 0)) /\
    (forall g h, 0 < g <= fc -> cascade_value cs (on_circle g fs) h -> Cmod h <= Rpower 10 (- db / 20)) /\
    (forall h, cascade_value cs (on_circle fc fs) h -> Cmod h = Rpower 10 (- db / 20)) /\
    (forall f g hf hg, fc <= f -> f < g -> g < fs / 2 -> cascade_value cs (on_circle f fs) hf -> cascade_value cs (on_circle g fs) hg -> Cmod hf < Cmod hg < 1).
Proof.
  intros HD HD'. destruct (ripple_pos db HD) as [RP RS]. assert (EP : 0 < 1 / ripple db) by (apply Rdiv_lt_0_compat; lra). destruct (chebyshev2_zpk_ok ex n db H1 H30 HD) as (f & EF & SF). pose proof (cheb2_prototype_ok n _ H1 EP) as L. destruct HC as (C1 & C2). destruct (corner_range fs fc HF HC) as (F1 & F2). pose proof (tan_pos fc fs F1 F2) as TP.
  destruct (design_highpass_ok ex qsort HQ f _ fs m SF L (cheb2_moderate n _ _ H1 H30 (mu2_pos db HD) ltac:(rewrite one_over by exact HD; lra) ltac:(rewrite one_over by exact HD; exact (ripple_high db HD HD'))) HF fc C1 C2) as (cs & E & EL & S1 & V & N & NY); [rewrite cheb2_length by assumption; exact HB|].
  destruct (highpass_response _ fs fc L F1 F2 (cheb2_tame n _ H1 EP _ _ ltac:(lia) (Rinv_0_lt_compat _ TP))) as (cs0 & E0 & _ & V0 & _). rewrite <- (chebyshev2_is n db H1 HD) in E0. destruct (chebyshev2_highpass_ok n db fs fc H1 ltac:(lia) HD F1 F2) as (cs' & E' & _ & _ & D1 & _). rewrite E0 in E'. injection E' as <-.
  assert (T : forall g h, - (fs / 2) < g < fs / 2 -> g <> 0 -> cascade_value cs (on_circle g fs) h <-> cascade_value cs0 (on_circle g fs) h) by (intros g h G G0; rewrite (V0 g h G G0), (V g h G G0); reflexivity).
  exists cs. unfold chebyshev2_highpass. rewrite (from_prototype_is _ f) by exact EF. split; [exact E|]. split; [rewrite EL, cheb2_length by assumption; reflexivity|]. split; [exact S1|]. split; [|split; [|split]].
  - apply NY. exact (cheb2_dc n _ H1 EP).
  - intros g G G0. destruct (D1 g G G0) as (h & X & Y). exists h. split; [now apply T|exact Y].
  - intros O. apply N. rewrite cheb2_length, cheb2_zeros_length by assumption. pose proof (half_eq n) as X. rewrite O in X. lia.
  - destruct (chebyshev2_highpass_shape n db fs fc cs0 H1 ltac:(lia) HD F1 F2 E0) as (A1 & A2 & A3).
    split; [intros g h G X; apply (A1 g); [exact G|]; apply T; [lra|lra|exact X]|]. split; [intros h X; apply A2, T; [lra|lra|exact X]|]. intros u g hf hg X1 X2 X3 X4 X5. apply (A3 u g); try assumption; apply T; try assumption; lra.
Qed.
End Corner.
End Designs.
