From Verif Require Import Common ListLemmas RealUtil BiquadModel DesignModel DesignSpec DesignProofs DesignProofs2 DesignProofs3 CascadeModel CascadeSpec CascadeProofs CascadeProofs2 PoleZeroModel PoleZeroSpec PoleZeroProofs PoleZeroProofs2 PoleZeroProofs3 PoleZeroProofs4 PoleZeroProofs5 PolyRoots PoleZeroProofs6.
From Coquelicot Require Import Complex.
Local Open Scope R_scope.

(* ---------- frequency responses ---------- *)
Lemma half_range g fs : - (fs / 2) < g < fs / 2 -> 0 < fs /\ - (PI / 2) < PI * g / fs < PI / 2.
Proof.
  intros [H1 H2]. assert (F : 0 < fs) by lra. pose proof PI_RGT_0 as P. split; [exact F|].
  replace (PI * g / fs) with (PI * (g / fs)) by (field; lra).
  assert (A : - (1 / 2) < g / fs < 1 / 2).
  { split; apply (Rmult_lt_reg_r fs); try exact F; unfold Rdiv; rewrite (Rmult_assoc g), Rinv_l by lra; lra. }
  split; [replace (- (PI / 2)) with (PI * - (1 / 2)) by field|replace (PI / 2) with (PI * (1 / 2)) by field]; apply Rmult_lt_compat_l; lra.
Qed.
Lemma circle_plus g fs : fs <> 0 -> Cplus (on_circle g fs) (RtoC 1) = Cmult (RtoC (2 * cos (PI * g / fs))) (cis (PI * g / fs)).
Proof.
  intros H. rewrite on_circle_half by exact H. set (a := PI * g / fs). rewrite cos_2a, sin_2a. pose proof (sin2_cos2 a) as S2. unfold Rsqr in S2.
  apply injective_projections; cbn; [|ring]. replace (cos a * cos a - sin a * sin a + 1) with (cos a * cos a - sin a * sin a + (sin a * sin a + cos a * cos a)) by lra. ring.
Qed.
Lemma circle_minus g fs : fs <> 0 -> Cminus (on_circle g fs) (RtoC 1) = Cmult (0, 2 * sin (PI * g / fs)) (cis (PI * g / fs)).
Proof.
  intros H. rewrite on_circle_half by exact H. set (a := PI * g / fs). rewrite cos_2a, sin_2a. pose proof (sin2_cos2 a) as S2. unfold Rsqr in S2.
  apply injective_projections; cbn; [|ring]. replace (cos a * cos a - sin a * sin a + - (1)) with (cos a * cos a - sin a * sin a - (sin a * sin a + cos a * cos a)) by lra. ring.
Qed.
Lemma cis_neq x : cis x <> RtoC 0.
Proof. intros E. pose proof (Cmod_cis x) as M. rewrite E, Cmod_0 in M. lra. Qed.
Lemma circle_neq_0 g fs : on_circle g fs <> RtoC 0.
Proof. unfold on_circle. apply cis_neq. Qed.
Lemma Cdiv_cancel a b c : b <> RtoC 0 -> c <> RtoC 0 -> Cdiv (Cmult a c) (Cmult b c) = Cdiv a b.
Proof. intros. field. split; assumption. Qed.
Lemma circle_low g fs t : - (fs / 2) < g < fs / 2 -> 0 < t ->
  on_circle g fs <> RtoC (-1) /\ Cdiv (Cminus (on_circle g fs) (RtoC 1)) (Cmult (RtoC t) (Cplus (on_circle g fs) (RtoC 1))) = (0, tan (PI * g / fs) / t).
Proof.
  intros H T. destruct (half_range g fs H) as [F [A1 A2]]. assert (CP : 0 < cos (PI * g / fs)) by (now apply cos_gt_0). split.
  - intros E. pose proof (circle_plus g fs ltac:(lra)) as P. rewrite E in P. replace (Cplus (RtoC (-1)) (RtoC 1)) with (RtoC 0) in P by (apply injective_projections; cbn; ring).
    symmetry in P. revert P. apply Cmult_neq; [apply RtoC_neq; lra|apply cis_neq].
  - rewrite circle_plus, circle_minus by lra. rewrite Cmult_assoc, Cdiv_cancel; [| |apply cis_neq].
    2:{ apply Cmult_neq; apply RtoC_neq; lra. }
    rewrite <- RtoC_mult. unfold tan. set (c := cos _) in *. set (s := sin _). replace (0, s / c / t) with (Cmult (0, 2 * s) (RtoC (/ (t * (2 * c))))).
    + rewrite RtoC_inv by nra. reflexivity.
    + apply injective_projections; cbn; field; lra.
Qed.
Lemma circle_high g fs t : - (fs / 2) < g < fs / 2 -> g <> 0 ->
  on_circle g fs <> RtoC 1 /\ on_circle g fs <> RtoC (-1) /\ Cdiv (Cmult (RtoC t) (Cplus (on_circle g fs) (RtoC 1))) (Cminus (on_circle g fs) (RtoC 1)) = (0, - (t / tan (PI * g / fs))).
Proof.
  intros H G. destruct (half_range g fs H) as [F [A1 A2]]. assert (CP : 0 < cos (PI * g / fs)) by (now apply cos_gt_0).
  pose proof PI_RGT_0 as PP.
  assert (SP : sin (PI * g / fs) <> 0).
  { destruct (Rtotal_order g 0) as [L|[L|L]]; [|lra|].
    - assert (N : PI * g / fs < 0) by (replace (PI * g / fs) with (- (PI * - g / fs)) by (field; lra); assert (0 < PI * - g / fs) by (apply Rdiv_lt_0_compat; [nra|lra]); lra). apply sin_lt_0_var in N; lra.
    - assert (N : 0 < PI * g / fs) by (apply Rdiv_lt_0_compat; nra). apply sin_gt_0 in N; lra. }
  assert (I : (0, 2 * sin (PI * g / fs)) <> RtoC 0) by (intros E; apply (f_equal snd) in E; cbn in E; lra).
  split; [|split].
  - intros E. pose proof (circle_minus g fs ltac:(lra)) as P. rewrite E in P. replace (Cminus (RtoC 1) (RtoC 1)) with (RtoC 0) in P by ring.
    symmetry in P. revert P. apply Cmult_neq; [exact I|apply cis_neq].
  - apply (circle_low g fs 1); [exact H|lra].
  - rewrite circle_plus, circle_minus by lra. rewrite Cmult_assoc, Cdiv_cancel; [|exact I|apply cis_neq].
    rewrite <- RtoC_mult. unfold tan. set (c := cos _) in *. set (s := sin _) in *. apply injective_projections; cbn; field; repeat split; try lra; nra.
Qed.

Lemma lowpass_response p fs fc : lowpass_prototype p -> 0 < fc -> fc < fs / 2 -> tame (tan (PI * fc / fs)) p ->
  exists cs, lowpass_filter (Ok p) fs fc = Ok cs /\ stable_cascade cs /\
    (forall g h, - (fs / 2) < g < fs / 2 -> cascade_value cs (on_circle g fs) h <-> analog_value p (0, tan (PI * g / fs) / tan (PI * fc / fs)) h) /\
    ((length (zeros p) < length (poles p))%nat -> cascade_value cs (RtoC (-1)) (RtoC 0)) /\
    (length (zeros p) = length (poles p) -> cascade_value cs (RtoC (-1)) (RtoC (pz_gain p))).
Proof.
  intros L H1 H2 T. destruct (lowpass_ok p fs fc L H1 H2 T) as (cs & E & S1 & V & N). exists cs. split; [exact E|]. split; [exact S1|]. split; [|exact N].
  intros g h G. destruct (circle_low g fs _ G (tan_pos fc fs H1 H2)) as [N1 E1]. rewrite <- E1. apply V; [apply circle_neq_0|exact N1].
Qed.
Lemma highpass_response p fs fc : lowpass_prototype p -> 0 < fc -> fc < fs / 2 -> tame (/ tan (PI * fc / fs)) p ->
  exists cs, highpass_filter (Ok p) fs fc = Ok cs /\ stable_cascade cs /\
    (forall g h, - (fs / 2) < g < fs / 2 -> g <> 0 -> cascade_value cs (on_circle g fs) h <-> analog_value p (0, - (tan (PI * fc / fs) / tan (PI * g / fs))) h) /\
    ((length (zeros p) < length (poles p))%nat -> cascade_value cs (RtoC 1) (RtoC 0)) /\
    (forall h, analog_value p (RtoC 0) h -> cascade_value cs (RtoC (-1)) h).
Proof.
  intros L H1 H2 T. destruct (highpass_ok p fs fc L H1 H2 T) as (cs & E & S1 & V & N). exists cs. split; [exact E|]. split; [exact S1|]. split; [|exact N].
  intros g h G G0. destruct (circle_high g fs (tan (PI * fc / fs)) G G0) as (N1 & N2 & E1). rewrite <- E1. apply V; [apply circle_neq_0|exact N1|exact N2].
Qed.

(* ---------- digital Butterworth filters ---------- *)
Lemma pole_angle_low n i : (1 <= n)%nat -> PI / (2 * INR n) <= pole_angle n i.
Proof.
  intros H. unfold pole_angle. pose proof PI_RGT_0 as P. assert (N : 0 < INR n) by (apply lt_0_INR; lia). pose proof (pos_INR i) as I.
  replace (PI / (2 * INR n)) with (PI / INR n * (1 / 2)) by (field; lra). apply Rmult_le_compat_l; [left; now apply Rdiv_lt_0_compat|]. destruct (Nat.odd n); lra.
Qed.
Lemma order_bound n : (Z.of_nat n <= 50000)%Z -> INR n <= 50000.
Proof. intros H. rewrite INR_IZR_INZ. apply IZR_le. exact H. Qed.
Lemma tame_cis t a : 0 < t -> 0 < a -> a < PI / 2 -> / 100000 < tan (a / 2) ->
  / 100000 * Cmod (Cminus (RtoC 1) (Cmult (RtoC t) (cis (PI - a)))) < Cmod (Cplus (RtoC 1) (Cmult (RtoC t) (cis (PI - a)))).
Proof.
  intros T A1 A2 Q. set (x := Cminus _ _). set (y := Cplus _ _). pose proof PI_RGT_0 as PP.
  assert (EX : Cmod x * Cmod x = 1 + 2 * t * cos a + t * t).
  { rewrite Cmod2. unfold x, cis. rewrite cos_minus, sin_minus, cos_PI, sin_PI. cbn [fst snd Cminus Cplus Copp Cmult RtoC]. pose proof (sin2_cos2 a) as S2. unfold Rsqr in S2. nra. }
  assert (EY : Cmod y * Cmod y = 1 - 2 * t * cos a + t * t).
  { rewrite Cmod2. unfold y, cis. rewrite cos_minus, sin_minus, cos_PI, sin_PI. cbn [fst snd Cminus Cplus Copp Cmult RtoC]. pose proof (sin2_cos2 a) as S2. unfold Rsqr in S2. nra. }
  set (c := cos (a / 2)). set (s := sin (a / 2)). assert (CP : 0 < c) by (apply cos_gt_0; lra). assert (SP : 0 < s) by (apply sin_gt_0; lra).
  assert (CA : cos a = c * c - s * s) by (unfold c, s; rewrite <- cos_2a; f_equal; field). pose proof (sin2_cos2 (a / 2)) as S2. unfold Rsqr in S2. fold c s in S2.
  assert (QS : / 100000 * c < s) by (unfold tan in Q; fold c s in Q; apply (Rmult_lt_compat_r c) in Q; [|exact CP]; unfold Rdiv in Q; rewrite Rmult_assoc, Rinv_l in Q by lra; lra).
  assert (X0 := Cmod_ge_0 x). assert (Y0 := Cmod_ge_0 y). destruct (Rlt_le_dec (/ 100000 * Cmod x) (Cmod y)) as [OK|NO]; [exact OK|exfalso].
  set (k := / 100000) in *. assert (K : 0 < k < 1) by (unfold k; lra). clearbody k. clear Q.
  assert (NQ : Cmod y * Cmod y <= k * k * (Cmod x * Cmod x)) by (replace (k * k * (Cmod x * Cmod x)) with ((k * Cmod x) * (k * Cmod x)) by ring; apply Rmult_le_compat; lra).
  rewrite EX, EY, CA in NQ. clearbody c s. clear EX EY X0 Y0 NO CA x y.
  assert (D : (1 - t) * (1 - t) + 4 * t * (s * s) <= k * k * ((1 - t) * (1 - t) + 4 * t * (c * c))) by (replace 1 with (s * s + c * c) in NQ at 1 2 by lra; nra).
  assert (QQ : k * k * (c * c) < s * s) by (replace (k * k * (c * c)) with ((k * c) * (k * c)) by ring; apply Rmult_gt_0_lt_compat; nra).
  assert (KK : k * k < 1) by nra. assert (0 <= (1 - t) * (1 - t)) by (apply Rle_0_sqr). nra.
Qed.
Lemma butterworth_tame_paired n t : (1 <= n)%nat -> (Z.of_nat n <= 50000)%Z -> 0 < t -> lone_zeros (butterworth n) = [] /\ (length (lone_poles (butterworth n)) <= 1)%nat /\ forall r, In r (paired_zeros (butterworth n) ++ paired_poles (butterworth n)) -> / 100000 * Cmod (Cminus (RtoC 1) (Cmult (RtoC t) r)) < Cmod (Cplus (RtoC 1) (Cmult (RtoC t) r)).
Proof.
  intros H HN T. split; [reflexivity|]. split; [cbn [butterworth lone_poles]; destruct (Nat.odd n); cbn; lia|].
  intros r Hr. cbn [butterworth paired_zeros paired_poles app] in Hr. apply in_map_iff in Hr. destruct Hr as (i & <- & Hi). apply in_seq in Hi.
  destruct (pole_angle_range n i ltac:(lia)) as [A1 A2]. apply tame_cis; [exact T|exact A1|exact A2|].
  apply order_bound in HN. pose proof (pole_angle_low n i H) as A3. assert (N : 0 < INR n) by (apply lt_0_INR; lia). pose proof PI_RGT_0 as PP.
  apply Rle_lt_trans with (pole_angle n i / 2); [|apply tan_gt; lra].
  apply Rle_trans with (PI / (2 * INR n) / 2); [|lra]. apply Rle_trans with (2 / (2 * INR n) / 2); [|pose proof PI2_3_2 as P32; apply Rmult_le_compat_r; [lra|]; apply Rmult_le_compat_r; [left; apply Rinv_0_lt_compat; lra|lra]].
  replace (2 / (2 * INR n) / 2) with (/ (2 * INR n)) by (field; lra). apply Rinv_le_contravar; lra.
Qed.
Lemma butterworth_tame n t : (1 <= n)%nat -> (Z.of_nat n <= 50000)%Z -> 0 < t -> tame t (butterworth n).
Proof. intros. right. now apply butterworth_tame_paired. Qed.
Lemma butterworth_dc n : (1 <= n)%nat -> exists h, analog_value (butterworth n) (RtoC 0) h /\ Cmod h = 1.
Proof.
  intros H. destruct (butterworth_axis n 0 H) as (h & V & M). exists h. split; [exact V|]. rewrite M, pow_i by lia. replace (1 + 0) with 1 by ring. rewrite sqrt_1. field.
Qed.
Lemma butterworth_lowpass_ok n fs fc : (1 <= n)%nat -> (Z.of_nat n <= 50000)%Z -> 0 < fc -> fc < fs / 2 ->
  exists cs, lowpass_filter (butterworth_prototype (Z.of_nat n)) fs fc = Ok cs /\ stable_cascade cs /\
    (forall g, - (fs / 2) < g < fs / 2 -> exists h, cascade_value cs (on_circle g fs) h /\ Cmod h = / sqrt (1 + (tan (PI * g / fs) / tan (PI * fc / fs)) ^ (2 * n))) /\
    cascade_value cs (RtoC (-1)) (RtoC 0).
Proof.
  intros H HN H1 H2. destruct (butterworth_lowpass_prototype n H) as (L & LP & LZ). rewrite butterworth_is by exact H.
  destruct (lowpass_response _ fs fc L H1 H2 (butterworth_tame n _ H HN (tan_pos fc fs H1 H2))) as (cs & E & S1 & V & N & _). exists cs. split; [exact E|]. split; [exact S1|]. split.
  - intros g G. destruct (butterworth_axis n (tan (PI * g / fs) / tan (PI * fc / fs)) H) as (h & VH & M). exists h. split; [now apply V|exact M].
  - apply N. rewrite LP, LZ. cbn. lia.
Qed.
Lemma butterworth_highpass_ok n fs fc : (1 <= n)%nat -> (Z.of_nat n <= 50000)%Z -> 0 < fc -> fc < fs / 2 ->
  exists cs, highpass_filter (butterworth_prototype (Z.of_nat n)) fs fc = Ok cs /\ stable_cascade cs /\
    (forall g, - (fs / 2) < g < fs / 2 -> g <> 0 -> exists h, cascade_value cs (on_circle g fs) h /\ Cmod h = / sqrt (1 + (tan (PI * fc / fs) / tan (PI * g / fs)) ^ (2 * n))) /\
    cascade_value cs (RtoC 1) (RtoC 0) /\ (exists h, cascade_value cs (RtoC (-1)) h /\ Cmod h = 1).
Proof.
  intros H HN H1 H2. destruct (butterworth_lowpass_prototype n H) as (L & LP & LZ). rewrite butterworth_is by exact H.
  pose proof (tan_pos fc fs H1 H2) as TP.
  destruct (highpass_response _ fs fc L H1 H2 (butterworth_tame n _ H HN (Rinv_0_lt_compat _ TP))) as (cs & E & S1 & V & N & NY). exists cs. split; [exact E|]. split; [exact S1|]. split; [|split].
  - intros g G G0. destruct (butterworth_axis n (- (tan (PI * fc / fs) / tan (PI * g / fs))) H) as (h & VH & M). exists h. split; [now apply V|]. rewrite M. f_equal. f_equal. f_equal. rewrite !pow_mult. f_equal. ring.
  - apply N. rewrite LP, LZ. cbn. lia.
  - destruct (butterworth_dc n H) as (h & VH & M). exists h. split; [now apply NY|exact M].
Qed.
