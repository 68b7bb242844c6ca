From Verif Require Import Common ListLemmas RealUtil BiquadModel DesignModel DesignSpec DesignProofs DesignProofs3 CascadeModel CascadeSpec CascadeProofs CascadeProofs2 PoleZeroModel PoleZeroSpec PoleZeroProofs PoleZeroProofs3 PoleZeroProofs4 PoleZeroProofs5 PoleZeroProofs6 PoleZeroProofs7 PoleZeroProofs11 PoleZeroProofs12 PoleZeroProofs13 PoleZeroProofs14 PoleZeroProofs15 ComplexModel ComplexProofs ZpkModel ZpkSpec ZpkProofs ZpkProofs2 ZpkProofs3 ZpkProofs4.
From Coq Require Import Permutation Sorted.
From Coquelicot Require Import Complex.
Local Open Scope R_scope.

(* ---------- frequencies ---------- *)
Lemma tan_margin d fc fs : 0 < fs -> 0 < d -> fs * d <= fc -> fc <= fs / 2 - fs * d -> 3 * d <= tan (PI * fc / fs) /\ 3 * d * tan (PI * fc / fs) <= 1.
Proof.
  intros HF HD H1 H2. pose proof PI2_3_2 as P3. set (x := PI * fc / fs).
  assert (X1 : PI * d <= x) by (unfold x; apply (Rmult_le_reg_r fs); [exact HF|]; replace (PI * fc / fs * fs) with (PI * fc) by (field; lra); nra).
  assert (X2 : x <= PI / 2 - PI * d) by (unfold x; apply (Rmult_le_reg_r fs); [exact HF|]; replace (PI * fc / fs * fs) with (PI * fc) by (field; lra); nra).
  assert (D0 : 0 < PI * d) by nra. assert (T1 : x < tan x) by (apply tan_gt; lra).
  split; [nra|]. set (y := PI / 2 - x). assert (T2 : y < tan y) by (apply tan_gt; unfold y; lra).
  assert (SP : 0 < sin x) by (apply sin_gt_0; lra). assert (CP : 0 < cos x) by (apply cos_gt_0; lra).
  assert (E : tan y * tan x = 1). { unfold y, tan. rewrite sin_shift, cos_shift. field. lra. }
  assert (0 < tan x) by lra. assert (y * tan x <= 1) by (rewrite <- E; apply Rmult_le_compat_r; lra). assert (3 * d <= y) by (unfold y; nra). nra.
Qed.
Lemma tan_gap d low high fs : 0 < fs -> 0 < d -> 0 < low -> high < fs / 2 -> fs * d <= high - low -> 3 * d <= tan (PI * high / fs) - tan (PI * low / fs).
Proof.
  intros HF HD H1 H2 H3. pose proof PI2_3_2 as P3. set (a := PI * high / fs). set (b := PI * low / fs). assert (LH : low < high) by nra.
  assert (A0 : 0 < b) by (unfold b; apply Rdiv_lt_0_compat; nra).
  assert (A1 : a < PI / 2) by (unfold a; apply (Rmult_lt_reg_r fs); [exact HF|]; replace (PI * high / fs * fs) with (PI * high) by (field; lra); nra).
  assert (A2 : PI * d <= a - b) by (unfold a, b; apply (Rmult_le_reg_r fs); [exact HF|]; replace ((PI * high / fs - PI * low / fs) * fs) with (PI * (high - low)) by (field; lra); nra).
  assert (D0 : 0 < PI * d) by nra. assert (TB : 0 < tan b) by (apply tan_gt_0; lra). assert (TA : 0 < tan a) by (apply tan_gt_0; lra). assert (TD : a - b < tan (a - b)) by (apply tan_gt; lra).
  assert (CA : 0 < cos a) by (apply cos_gt_0; lra). assert (CB : 0 < cos b) by (apply cos_gt_0; lra). assert (CD : 0 < cos (a - b)) by (apply cos_gt_0; lra).
  assert (E : tan a - tan b = tan (a - b) * (1 + tan a * tan b)).
  { rewrite tan_minus by (try lra; intros X; assert (0 < tan a * tan b) by nra; lra). field. intros X. assert (0 < tan a * tan b) by nra. lra. }
  rewrite E. assert (0 < tan a * tan b) by nra. nra.
Qed.

Lemma Cinv_neq (r : C) : r <> RtoC 0 -> Cinv r <> RtoC 0.
Proof. intros H E. assert (X : Cmult r (Cinv r) = RtoC 1) by (field; exact H). rewrite E in X. apply (f_equal fst) in X. cbn in X. lra. Qed.

(* ---------- prototypes ---------- *)
Definition stands_for (f : zpk) (p : pole_zero) : Prop := Permutation (z_zeros f) (zeros p) /\ Permutation (z_poles f) (poles p) /\ z_gain f = pz_gain p.
Lemma stands_value f p s h : stands_for f p -> zpk_value f s h <-> analog_value p s h.
Proof. intros (A & B & E). unfold zpk_value, analog_value. rewrite (po_perm _ _ _ A), (po_perm _ _ _ B), E. reflexivity. Qed.
Lemma conj_perm l l' : Permutation l l' -> conj_closed l' -> conj_closed l.
Proof. intros H K. unfold conj_closed in *. rewrite H. exact K. Qed.
Lemma roots_closed lone paired : conj_closed (roots lone paired).
Proof.
  unfold roots. apply conj_closed_app.
  - unfold conj_closed. rewrite map_map. rewrite (map_ext _ RtoC) by (intros; apply Cconj_RtoC). reflexivity.
  - unfold conj_closed. rewrite map_app, map_map. rewrite (map_ext (fun x => Cconj (Cconj x)) (fun x => x)) by (intros; apply Cconj_conj). rewrite map_id. apply Permutation_app_comm.
Qed.
Lemma stands_real f p : stands_for f p -> real_filter f.
Proof. intros (A & B & _). split; eapply conj_perm; try eassumption; apply roots_closed. Qed.
(* a root is real or clearly not, and neither very small nor very large *)
Definition moderate (r : C) : Prop := snd r = 0 \/ (Cmod r <= 20 * Rabs (snd r) /\ / 100 <= Cmod r <= 100).
Definition moderate_roots (p : pole_zero) : Prop := forall r, In r (zeros p ++ poles p) -> moderate r.
Lemma scaled_plain t r : 3 / 10000000000 <= t -> 3 / 10000000000 * t <= 1 -> moderate r -> plain (Cmult (RtoC t) r).
Proof.
  intros T1 T2 [M|(M1 & M2 & M3)]; [left; cbn; rewrite M; ring|right]. rewrite Cmod_mult, Cmod_R, Rabs_pos_eq by lra.
  replace (snd (Cmult (RtoC t) r)) with (t * snd r) by (cbn; ring). rewrite Rabs_mult, (Rabs_pos_eq t) by lra. set (q := Cmod r) in *. set (y := Rabs (snd r)) in *.
  assert (Q : tol * (1 + t * q * (t * q)) < / 10 * (t * q)).
  { unfold tol. set (x := t * q). assert (X1 : 3 / 1000000000000 <= x) by (unfold x; nra). assert (X2 : 3 / 1000000000000 * x <= 1).
    { unfold x. assert (t * q <= t * 100) by (apply Rmult_le_compat_l; lra). lra. }
    clearbody x. clear - X1 X2. assert (x * x <= x * (1000000000000 / 3)) by (apply Rmult_le_compat_l; lra). lra. }
  assert (t * q <= t * (20 * y)) by (apply Rmult_le_compat_l; lra). lra.
Qed.
Lemma Cmod_inv_1 (r : C) : r <> RtoC 0 -> Cmod (Cinv r) = / Cmod r.
Proof. apply Cmod_inv. Qed.
Lemma inv_snd (r : C) : r <> RtoC 0 -> Rabs (snd (Cinv r)) = Rabs (snd r) * / (Cmod r * Cmod r).
Proof.
  intros H. rewrite Cmod2. apply Cmod_gt_0 in H. pose proof (Cmod2 r) as M. assert (0 < Cmod r * Cmod r) by nra. rewrite M in H0. destruct r as [x y]. cbn [fst snd] in *. unfold Cinv. cbn [fst snd].
  replace (x ^ 2 + y ^ 2) with (x * x + y * y) by ring. unfold Rdiv. rewrite Rabs_mult, Rabs_Ropp, (Rabs_pos_eq (/ _)) by (left; apply Rinv_0_lt_compat; exact H0). reflexivity.
Qed.
Lemma inv_moderate (r : C) : r <> RtoC 0 -> moderate r -> moderate (Cinv r).
Proof.
  intros N [M|(M1 & M2 & M3)].
  - left. destruct r as [x y]. cbn [snd] in M. subst. unfold Cinv. cbn. unfold Rdiv. ring.
  - right. rewrite inv_snd, Cmod_inv by exact N. set (q := Cmod r) in *. assert (Q : 0 < q) by lra. split.
    + rewrite Rinv_mult. apply (Rmult_le_reg_r (q * q)); [nra|]. replace (/ q * (q * q)) with q by (field; lra). replace (20 * (Rabs (snd r) * (/ q * / q)) * (q * q)) with (20 * Rabs (snd r)) by (field; lra). exact M1.
    + split; [apply Rinv_le_contravar; lra|]. rewrite <- (Rinv_inv 100). apply Rinv_le_contravar; lra.
Qed.

Section Design.
Variables (ex : R -> Z) (qsort : list C -> list C).
Hypothesis HQ : sorts qsort.
Variables (f : zpk) (p : pole_zero) (fs : R) (m : Z).
Hypotheses (HS : stands_for f p) (HP : lowpass_prototype p) (HM : moderate_roots p) (HF : 0 < fs).
Lemma facts : (length (z_zeros f) <= length (z_poles f))%nat /\ (1 <= length (z_poles f))%nat /\ length (z_zeros f) = length (zeros p) /\ length (z_poles f) = length (poles p) /\
  (forall r, In r (z_zeros f ++ z_poles f) -> moderate r /\ fst r <= 0 /\ r <> RtoC 0) /\ (forall r, In r (z_poles f) -> fst r < 0) /\ real_filter f.
Proof.
  pose proof HS as (A & B & _). destruct HP as (P1 & P2 & P3 & P4 & P5). pose proof (Permutation_length A) as LA. pose proof (Permutation_length B) as LB. change cplx with C in *. split; [lia|]. split; [lia|]. split; [exact LA|]. split; [exact LB|].
  assert (IP : forall r, In r (z_poles f) -> In r (poles p)) by (intros r; now apply Permutation_in). assert (IZ : forall r, In r (z_zeros f) -> In r (zeros p)) by (intros r; now apply Permutation_in).
  split; [|split; [intros r Hr; apply P1, IP, Hr|now apply (stands_real f p)]].
  intros r Hr. apply in_app_iff in Hr as [Hr|Hr]; (split; [apply HM, in_or_app; auto|]).
  - apply P2. now apply IZ.
  - specialize (P1 r (IP r Hr)). split; [lra|]. intros ->. cbn in P1. lra.
Qed.
Lemma design_lowpass_ok fc : fs / 10000000000 <= fc -> fc <= fs / 2 - fs / 10000000000 -> (Z.of_nat (Nat.div2 (length (poles p) + 1)) <= m)%Z ->
  exists cs, design_lowpass ex qsort f fc fs m = Ok (Some cs) /\ length cs = Nat.div2 (length (poles p) + 1) /\ stable_cascade cs /\
    (forall g h, - (fs / 2) < g < fs / 2 -> cascade_value cs (on_circle g fs) h <-> analog_value p (0, tan (PI * g / fs) / tan (PI * fc / fs)) h) /\
    ((length (zeros p) < length (poles p))%nat -> cascade_value cs (RtoC (-1)) (RtoC 0)) /\
    (length (zeros p) = length (poles p) -> cascade_value cs (RtoC (-1)) (RtoC (pz_gain p))).
Proof.
  intros H1 H2 HB. destruct facts as (L1 & L2 & L3 & L4 & FR & FP & RF). destruct (tan_margin (/ 10000000000) fc fs HF ltac:(lra) H1 H2) as (T1 & T2). set (t := tan (PI * fc / fs)) in *.
  assert (E : design_lowpass ex qsort f fc fs m = discretize_to_biquads ex qsort (lowpassed f (2 * fs * t)) fs m).
  { unfold design_lowpass. destruct (Rleb_spec 0 fc) as [_|X]; [|exfalso; lra]. destruct (Rltb_spec fc (fs / 2)) as [_|X]; [|exfalso; lra]. cbn [andb negb]. unfold prewarp. fold t. rewrite to_lowpass_is by now right. reflexivity. }
  rewrite E. clear E. assert (KT : 0 < 2 * fs * t) by nra.
  assert (LL : length (z_zeros (lowpassed f (2 * fs * t))) = length (z_zeros f) /\ length (z_poles (lowpassed f (2 * fs * t))) = length (z_poles f)) by (split; unfold lowpassed; cbn [z_zeros z_poles]; apply map_length).
  destruct LL as (LZ & LP). destruct (discretize_ok ex qsort HQ (lowpassed f (2 * fs * t)) fs m) as (cs & E & EL & S1 & V & N1 & N2).
  - exact HF.
  - now apply lowpassed_real.
  - lia.
  - lia.
  - intros r Hr. unfold lowpassed in Hr. cbn [z_zeros z_poles] in Hr. rewrite <- map_app in Hr. apply in_map_iff in Hr as (x & <- & Hx). destruct (FR x Hx) as (M & F & _). exists (Cmult (RtoC t) x). split; [apply injective_projections; cbn; ring|]. split; [apply scaled_plain; lra || exact M|]. cbn. nra.
  - intros r Hr. unfold lowpassed in Hr. cbn [z_poles] in Hr. apply in_map_iff in Hr as (x & <- & Hx). specialize (FP x Hx). cbn. nra.
  - rewrite LP, L4. exact HB.
  - exists cs. split; [exact E|]. split; [rewrite EL, LP, L4; reflexivity|]. split; [exact S1|]. split; [|split].
    + intros g h G. destruct (circle_low g fs 1 G ltac:(lra)) as (Z1 & _). rewrite (V _ h (circle_neq_0 g fs) Z1), lowpassed_value by lra. rewrite <- (stands_value f p) by exact HS.
      assert (PN : Cplus (on_circle g fs) (RtoC 1) <> RtoC 0) by now apply plus_one_neq. assert (T0 : RtoC t <> RtoC 0) by (apply RtoC_neq; lra). assert (F0 : RtoC (2 * fs) <> RtoC 0) by (apply RtoC_neq; lra).
      replace (Cdiv (Cdiv (Cmult (RtoC (2 * fs)) (Cminus (on_circle g fs) (RtoC 1))) (Cplus (on_circle g fs) (RtoC 1))) (RtoC (2 * fs * t))) with ((0, tan (PI * g / fs) / t) : C); [reflexivity|].
      destruct (circle_low g fs t G ltac:(lra)) as (_ & <-). rewrite (RtoC_mult (2 * fs)). field. repeat split; assumption.
    + intros LT. apply N1. lia.
    + intros EQ. replace (pz_gain p) with (z_gain (lowpassed f (2 * fs * t))); [apply N2; lia|]. unfold lowpassed. cbn [z_gain]. assert (EX : excess f = 0%Z) by (unfold excess; lia). rewrite EX. cbn. rewrite Rmult_1_r. apply HS.
Qed.
Lemma gain_dc h : analog_value p (RtoC 0) h -> RtoC (fst (value_of f (RtoC 0))) = h.
Proof.
  intros H. apply (stands_value f p) in H; [|exact HS]. destruct H as (A & ->). rewrite value_real; [reflexivity|apply facts|exact A].
Qed.
Lemma no_zero_root : no_root_at (RtoC 0) f.
Proof. intros r Hr. now apply facts. Qed.
Lemma high_lengths c : length (z_zeros (highpassed f c)) = length (z_poles f) /\ length (z_poles (highpassed f c)) = length (z_poles f).
Proof. destruct facts as (L1 & _). unfold highpassed. cbn [z_zeros z_poles]. rewrite app_length, !map_length, repeat_length. change (@length cplx) with (@length C) in *. lia. Qed.
(* the roots of the highpass filter *)
Lemma high_roots c r : In r (z_zeros (highpassed f c) ++ z_poles (highpassed f c)) -> exists w, r = Cmult (RtoC c) w /\ moderate w /\ fst w <= 0 /\ (w = RtoC 0 \/ exists x, In x (z_zeros f ++ z_poles f) /\ w = Cinv x).
Proof.
  intros Hr. destruct facts as (_ & _ & _ & _ & FR & _). assert (Q : r = RtoC 0 \/ exists x, In x (z_zeros f ++ z_poles f) /\ r = Cdiv (RtoC c) x).
  { unfold highpassed in Hr. cbn [z_zeros z_poles] in Hr. rewrite !in_app_iff in Hr. destruct Hr as [[Hr|Hr]|Hr].
    - right. apply in_map_iff in Hr as (x & <- & Hx). exists x. split; [apply in_or_app; now left|reflexivity].
    - left. now apply repeat_spec in Hr.
    - right. apply in_map_iff in Hr as (x & <- & Hx). exists x. split; [apply in_or_app; now right|reflexivity]. }
  destruct Q as [->|(x & Hx & ->)].
  - exists (RtoC 0). split; [apply injective_projections; cbn; ring|]. split; [left; reflexivity|]. split; [cbn; lra|now left].
  - destruct (FR x Hx) as (M & F & N). exists (Cinv x). split; [reflexivity|]. split; [now apply inv_moderate|]. split; [|right; now exists x]. replace (fst (Cinv x)) with (fst (Cdiv (RtoC 1) x)) by (cbn; ring). rewrite inv_re by exact N. apply Cmod_gt_0 in N. assert (0 < / (Cmod x * Cmod x)) by (apply Rinv_0_lt_compat; nra). unfold Rdiv. nra.
Qed.
Lemma high_poles c r : 0 < c -> In r (z_poles (highpassed f c)) -> fst r < 0.
Proof.
  intros HC Hr. unfold highpassed in Hr. cbn [z_poles] in Hr. apply in_map_iff in Hr as (x & <- & Hx). destruct facts as (_ & _ & _ & _ & FR & FP & _). destruct (FR x (in_or_app _ _ _ (or_intror Hx))) as (_ & _ & N). specialize (FP x Hx).
  rewrite inv_re by exact N. apply Cmod_gt_0 in N. assert (0 < / (Cmod x * Cmod x)) by (apply Rinv_0_lt_compat; nra). assert (c * fst x < 0) by nra. unfold Rdiv. nra.
Qed.
Lemma design_highpass_ok fc : fs / 10000000000 <= fc -> fc <= fs / 2 - fs / 10000000000 -> (Z.of_nat (Nat.div2 (length (poles p) + 1)) <= m)%Z ->
  exists cs, design_highpass ex qsort f fc fs m = Ok (Some cs) /\ length cs = Nat.div2 (length (poles p) + 1) /\ stable_cascade cs /\
    (forall g h, - (fs / 2) < g < fs / 2 -> g <> 0 -> cascade_value cs (on_circle g fs) h <-> analog_value p (0, - (tan (PI * fc / fs) / tan (PI * g / fs))) h) /\
    ((length (zeros p) < length (poles p))%nat -> cascade_value cs (RtoC 1) (RtoC 0)) /\
    (forall h, analog_value p (RtoC 0) h -> cascade_value cs (RtoC (-1)) h).
Proof.
  intros H1 H2 HB. destruct facts as (L1 & L2 & L3 & L4 & FR & FP & RF). destruct (tan_margin (/ 10000000000) fc fs HF ltac:(lra) H1 H2) as (T1 & T2). set (t := tan (PI * fc / fs)) in *.
  assert (E : design_highpass ex qsort f fc fs m = discretize_to_biquads ex qsort (highpassed f (2 * fs * t)) fs m).
  { unfold design_highpass. destruct (Rleb_spec 0 fc) as [_|X]; [|exfalso; lra]. destruct (Rltb_spec fc (fs / 2)) as [_|X]; [|exfalso; lra]. cbn [andb negb]. unfold prewarp. fold t. rewrite to_highpass_is by exact no_zero_root. reflexivity. }
  rewrite E. clear E. assert (KT : 0 < 2 * fs * t) by nra. destruct (high_lengths (2 * fs * t)) as (LZ & LP).
  destruct (discretize_ok ex qsort HQ (highpassed f (2 * fs * t)) fs m) as (cs & E & EL & S1 & V & N1 & N2).
  - exact HF.
  - now apply highpassed_real.
  - lia.
  - lia.
  - intros r Hr. apply high_roots in Hr as (w & -> & M & F & _). exists (Cmult (RtoC t) w). split; [apply injective_projections; cbn; ring|]. split; [apply scaled_plain; lra || exact M|]. cbn. nra.
  - intros r Hr. now apply (high_poles (2 * fs * t)).
  - rewrite LP, L4. exact HB.
  - exists cs. split; [exact E|]. split; [rewrite EL, LP, L4; reflexivity|]. split; [exact S1|]. split; [|split].
    + intros g h G G0. destruct (circle_high g fs t G G0) as (Z1 & Z2 & ES). assert (PN : Cplus (on_circle g fs) (RtoC 1) <> RtoC 0) by now apply plus_one_neq. assert (MN : Cminus (on_circle g fs) (RtoC 1) <> RtoC 0) by now apply Cminus_neq.
      assert (T0 : RtoC t <> RtoC 0) by (apply RtoC_neq; lra). assert (F0 : RtoC (2 * fs) <> RtoC 0) by (apply RtoC_neq; lra).
      rewrite (V _ h (circle_neq_0 g fs) Z2), highpassed_value; try assumption; [|exact no_zero_root|unfold Cdiv; apply Cmult_neq; [now apply Cmult_neq|now apply Cinv_neq]]. rewrite <- (stands_value f p) by exact HS.
      rewrite <- ES. replace (Cdiv (RtoC (2 * fs * t)) (Cdiv (Cmult (RtoC (2 * fs)) (Cminus (on_circle g fs) (RtoC 1))) (Cplus (on_circle g fs) (RtoC 1)))) with (Cdiv (Cmult (RtoC t) (Cplus (on_circle g fs) (RtoC 1))) (Cminus (on_circle g fs) (RtoC 1))); [reflexivity|]. rewrite (RtoC_mult (2 * fs)). field. repeat split; assumption.
    + intros LT. apply V; [apply RtoC_neq; lra|intros X; apply (f_equal fst) in X; cbn in X; lra|]. assert (S0 : Cdiv (Cmult (RtoC (2 * fs)) (Cminus (RtoC 1) (RtoC 1))) (Cplus (RtoC 1) (RtoC 1)) = RtoC 0) by (apply injective_projections; cbn; field). rewrite S0.
      assert (NP : po (fun p => Cminus (RtoC 0) p) (z_poles (highpassed f (2 * fs * t))) <> RtoC 0) by (apply po_minus_neq; intros r Hr ->; apply high_poles in Hr; [cbn in Hr; lra|lra]). split; [exact NP|].
      assert (Z0 : po (fun z => Cminus (RtoC 0) z) (z_zeros (highpassed f (2 * fs * t))) = RtoC 0).
      { unfold highpassed. cbn [z_zeros]. rewrite po_app, po_rep. match goal with |- context [cpow _ ?n] => assert (NN : n = S (n - 1)) by lia; rewrite NN end. cbn [cpow]. replace (Cminus (RtoC 0) (RtoC 0)) with (RtoC 0) by ring. ring. }
      rewrite Z0. field. exact NP.
    + intros h Hh. rewrite <- (gain_dc h Hh). change (cascade_value cs (RtoC (-1)) (RtoC (z_gain (highpassed f (2 * fs * t))))). apply N2. lia.
Qed.
End Design.
