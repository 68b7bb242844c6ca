(* The portable lowpass and highpass designs from prototypes whose roots may be far out or close in: like
   those of ZpkProofs5, with a wider range of roots and corner frequencies not as close to the ends. *)
From Verif Require Import Common ListLemmas RealUtil BiquadModel DesignModel DesignSpec DesignProofs DesignProofs3 CascadeModel CascadeSpec CascadeProofs CascadeProofs2 PoleZeroModel PoleZeroSpec PoleZeroProofs PoleZeroProofs3 PoleZeroProofs4 PoleZeroProofs5 PoleZeroProofs6 PoleZeroProofs7 PoleZeroProofs11 PoleZeroProofs12 PoleZeroProofs13 PoleZeroProofs14 PoleZeroProofs15 ComplexModel ComplexProofs ZpkModel ZpkSpec ZpkProofs ZpkProofs2 ZpkProofs3 ZpkProofs4 ZpkProofs5 EllipticStableProofs4.
From Coq Require Import Permutation Sorted.
From Coquelicot Require Import Complex.
Local Open Scope R_scope.
Local Notation C := Complex.C.

Lemma sized_plain t r : 3 / 1000000 <= t -> 3 / 1000000 * t <= 1 -> sized r -> plain (Cmult (RtoC t) r).
Proof.
  intros T1 T2 [M|(M1 & M2 & M3)]; [left; cbn; rewrite M; ring|right]. rewrite Cmod_mult, Cmod_R, Rabs_pos_eq by lra.
  replace (snd (Cmult (RtoC t) r)) with (t * snd r) by (cbn; ring). rewrite Rabs_mult, (Rabs_pos_eq t) by lra. set (q := Cmod r) in *. set (y := Rabs (snd r)) in *.
  assert (Q : tol * (1 + t * q * (t * q)) < / 10 * (t * q)).
  { unfold tol. set (x := t * q). assert (X1 : 3 / 4000000000000 <= x) by (unfold x; nra). assert (X2 : 3 / 4000000000000 * x <= 1).
    { unfold x. assert (t * q <= t * 4000000) by (apply Rmult_le_compat_l; lra). lra. }
    clearbody x. clear - X1 X2. assert (x * x <= x * (4000000000000 / 3)) by (apply Rmult_le_compat_l; lra). lra. }
  assert (t * q <= t * (20 * y)) by (apply Rmult_le_compat_l; lra). lra.
Qed.
Lemma inv_sized (r : C) : r <> RtoC 0 -> sized r -> sized (Cinv r).
Proof.
  intros N [M|(M1 & M2 & M3)].
  - left. destruct r as [x y]. cbn [snd] in M. subst. unfold Cinv. cbn. unfold Rdiv. ring.
  - right. rewrite inv_snd, Cmod_inv by exact N. set (q := Cmod r) in *. assert (Q : 0 < q) by lra. split.
    + rewrite Rinv_mult. apply (Rmult_le_reg_r (q * q)); [nra|]. replace (/ q * (q * q)) with q by (field; lra). replace (20 * (Rabs (snd r) * (/ q * / q)) * (q * q)) with (20 * Rabs (snd r)) by (field; lra). exact M1.
    + split; [apply Rinv_le_contravar; lra|]. rewrite <- (Rinv_inv 4000000). apply Rinv_le_contravar; lra.
Qed.

Section Design.
Variables (ex : R -> Z) (qsort : list C -> list C).
Hypothesis HQ : sorts qsort.
Variables (f : zpk) (p : pole_zero) (fs : R) (m : Z).
Hypotheses (HS : stands_for f p) (HP : lowpass_prototype p) (HM : forall r, In r (zeros p ++ poles p) -> sized r) (HF : 0 < fs).
Lemma facts : (length (z_zeros f) <= length (z_poles f))%nat /\ (1 <= length (z_poles f))%nat /\ length (z_zeros f) = length (zeros p) /\ length (z_poles f) = length (poles p) /\
  (forall r, In r (z_zeros f ++ z_poles f) -> sized r /\ fst r <= 0 /\ r <> RtoC 0) /\ (forall r, In r (z_poles f) -> fst r < 0) /\ real_filter f.
Proof.
  pose proof HS as (A & B & _). destruct HP as (P1 & P2 & P3 & P4 & P5). pose proof (Permutation_length A) as LA. pose proof (Permutation_length B) as LB. change cplx with C in *. split; [lia|]. split; [lia|]. split; [exact LA|]. split; [exact LB|].
  assert (IP : forall r, In r (z_poles f) -> In r (poles p)) by (intros r; now apply Permutation_in). assert (IZ : forall r, In r (z_zeros f) -> In r (zeros p)) by (intros r; now apply Permutation_in).
  split; [|split; [intros r Hr; apply P1, IP, Hr|now apply (stands_real f p)]].
  intros r Hr. apply in_app_iff in Hr as [Hr|Hr]; (split; [apply HM, in_or_app; auto|]).
  - apply P2. now apply IZ.
  - specialize (P1 r (IP r Hr)). split; [lra|]. intros ->. cbn in P1. lra.
Qed.
Lemma design_lowpass_ok fc : fs / 1000000 <= fc -> fc <= fs / 2 - fs / 1000000 -> (Z.of_nat (Nat.div2 (length (poles p) + 1)) <= m)%Z ->
  exists cs, design_lowpass ex qsort f fc fs m = Ok (Some cs) /\ length cs = Nat.div2 (length (poles p) + 1) /\ stable_cascade cs /\
    (forall g h, - (fs / 2) < g < fs / 2 -> cascade_value cs (on_circle g fs) h <-> analog_value p (0, tan (PI * g / fs) / tan (PI * fc / fs)) h) /\
    ((length (zeros p) < length (poles p))%nat -> cascade_value cs (RtoC (-1)) (RtoC 0)) /\
    (length (zeros p) = length (poles p) -> cascade_value cs (RtoC (-1)) (RtoC (pz_gain p))).
Proof.
  intros H1 H2 HB. destruct facts as (L1 & L2 & L3 & L4 & FR & FP & RF). destruct (tan_margin (/ 1000000) fc fs HF ltac:(lra) H1 H2) as (T1 & T2). set (t := tan (PI * fc / fs)) in *.
  assert (E : design_lowpass ex qsort f fc fs m = discretize_to_biquads ex qsort (lowpassed f (2 * fs * t)) fs m).
  { unfold design_lowpass. destruct (Rleb_spec 0 fc) as [_|X]; [|exfalso; lra]. destruct (Rltb_spec fc (fs / 2)) as [_|X]; [|exfalso; lra]. cbn [andb negb]. unfold prewarp. fold t. rewrite to_lowpass_is by now right. reflexivity. }
  rewrite E. clear E. assert (KT : 0 < 2 * fs * t) by nra.
  assert (LL : length (z_zeros (lowpassed f (2 * fs * t))) = length (z_zeros f) /\ length (z_poles (lowpassed f (2 * fs * t))) = length (z_poles f)) by (split; unfold lowpassed; cbn [z_zeros z_poles]; apply map_length).
  destruct LL as (LZ & LP). destruct (discretize_ok ex qsort HQ (lowpassed f (2 * fs * t)) fs m) as (cs & E & EL & S1 & V & N1 & N2).
  - exact HF.
  - now apply lowpassed_real.
  - lia.
  - lia.
  - intros r Hr. unfold lowpassed in Hr. cbn [z_zeros z_poles] in Hr. rewrite <- map_app in Hr. apply in_map_iff in Hr as (x & <- & Hx). destruct (FR x Hx) as (M & F & _). exists (Cmult (RtoC t) x). split; [apply injective_projections; cbn; ring|]. split; [apply sized_plain; lra || exact M|]. cbn. nra.
  - intros r Hr. unfold lowpassed in Hr. cbn [z_poles] in Hr. apply in_map_iff in Hr as (x & <- & Hx). specialize (FP x Hx). cbn. nra.
  - rewrite LP, L4. exact HB.
  - exists cs. split; [exact E|]. split; [rewrite EL, LP, L4; reflexivity|]. split; [exact S1|]. split; [|split].
    + intros g h G. destruct (circle_low g fs 1 G ltac:(lra)) as (Z1 & _). rewrite (V _ h (circle_neq_0 g fs) Z1), lowpassed_value by lra. rewrite <- (stands_value f p) by exact HS.
      assert (PN : Cplus (on_circle g fs) (RtoC 1) <> RtoC 0) by now apply plus_one_neq. assert (T0 : RtoC t <> RtoC 0) by (apply RtoC_neq; lra). assert (F0 : RtoC (2 * fs) <> RtoC 0) by (apply RtoC_neq; lra).
      replace (Cdiv (Cdiv (Cmult (RtoC (2 * fs)) (Cminus (on_circle g fs) (RtoC 1))) (Cplus (on_circle g fs) (RtoC 1))) (RtoC (2 * fs * t))) with ((0, tan (PI * g / fs) / t) : C); [reflexivity|].
      destruct (circle_low g fs t G ltac:(lra)) as (_ & <-). rewrite (RtoC_mult (2 * fs)). field. repeat split; assumption.
    + intros LT. apply N1. lia.
    + intros EQ. replace (pz_gain p) with (z_gain (lowpassed f (2 * fs * t))); [apply N2; lia|]. unfold lowpassed. cbn [z_gain]. assert (EX : excess f = 0%Z) by (unfold excess; lia). rewrite EX. cbn. rewrite Rmult_1_r. apply HS.
Qed.
Lemma gain_dc h : analog_value p (RtoC 0) h -> RtoC (fst (value_of f (RtoC 0))) = h.
Proof.
  intros H. apply (stands_value f p) in H; [|exact HS]. destruct H as (A & ->). rewrite value_real; [reflexivity|apply facts|exact A].
Qed.
Lemma no_zero_root : no_root_at (RtoC 0) f.
Proof. intros r Hr. now apply facts. Qed.
Lemma high_lengths c : length (z_zeros (highpassed f c)) = length (z_poles f) /\ length (z_poles (highpassed f c)) = length (z_poles f).
Proof. destruct facts as (L1 & _). unfold highpassed. cbn [z_zeros z_poles]. rewrite app_length, !map_length, repeat_length. change (@length cplx) with (@length C) in *. lia. Qed.
(* the roots of the highpass filter *)
Lemma high_roots c r : In r (z_zeros (highpassed f c) ++ z_poles (highpassed f c)) -> exists w, r = Cmult (RtoC c) w /\ sized w /\ fst w <= 0 /\ (w = RtoC 0 \/ exists x, In x (z_zeros f ++ z_poles f) /\ w = Cinv x).
Proof.
  intros Hr. destruct facts as (_ & _ & _ & _ & FR & _). assert (Q : r = RtoC 0 \/ exists x, In x (z_zeros f ++ z_poles f) /\ r = Cdiv (RtoC c) x).
  { unfold highpassed in Hr. cbn [z_zeros z_poles] in Hr. rewrite !in_app_iff in Hr. destruct Hr as [[Hr|Hr]|Hr].
    - right. apply in_map_iff in Hr as (x & <- & Hx). exists x. split; [apply in_or_app; now left|reflexivity].
    - left. now apply repeat_spec in Hr.
    - right. apply in_map_iff in Hr as (x & <- & Hx). exists x. split; [apply in_or_app; now right|reflexivity]. }
  destruct Q as [->|(x & Hx & ->)].
  - exists (RtoC 0). split; [apply injective_projections; cbn; ring|]. split; [left; reflexivity|]. split; [cbn; lra|now left].
  - destruct (FR x Hx) as (M & F & N). exists (Cinv x). split; [reflexivity|]. split; [now apply inv_sized|]. split; [|right; now exists x]. replace (fst (Cinv x)) with (fst (Cdiv (RtoC 1) x)) by (cbn; ring). rewrite inv_re by exact N. apply Cmod_gt_0 in N. assert (0 < / (Cmod x * Cmod x)) by (apply Rinv_0_lt_compat; nra). unfold Rdiv. nra.
Qed.
Lemma high_poles c r : 0 < c -> In r (z_poles (highpassed f c)) -> fst r < 0.
Proof.
  intros HC Hr. unfold highpassed in Hr. cbn [z_poles] in Hr. apply in_map_iff in Hr as (x & <- & Hx). destruct facts as (_ & _ & _ & _ & FR & FP & _). destruct (FR x (in_or_app _ _ _ (or_intror Hx))) as (_ & _ & N). specialize (FP x Hx).
  rewrite inv_re by exact N. apply Cmod_gt_0 in N. assert (0 < / (Cmod x * Cmod x)) by (apply Rinv_0_lt_compat; nra). assert (c * fst x < 0) by nra. unfold Rdiv. nra.
Qed.
Lemma design_highpass_ok fc : fs / 1000000 <= fc -> fc <= fs / 2 - fs / 1000000 -> (Z.of_nat (Nat.div2 (length (poles p) + 1)) <= m)%Z ->
  exists cs, design_highpass ex qsort f fc fs m = Ok (Some cs) /\ length cs = Nat.div2 (length (poles p) + 1) /\ stable_cascade cs /\
    (forall g h, - (fs / 2) < g < fs / 2 -> g <> 0 -> cascade_value cs (on_circle g fs) h <-> analog_value p (0, - (tan (PI * fc / fs) / tan (PI * g / fs))) h) /\
    ((length (zeros p) < length (poles p))%nat -> cascade_value cs (RtoC 1) (RtoC 0)) /\
    (forall h, analog_value p (RtoC 0) h -> cascade_value cs (RtoC (-1)) h).
Proof.
  intros H1 H2 HB. destruct facts as (L1 & L2 & L3 & L4 & FR & FP & RF). destruct (tan_margin (/ 1000000) fc fs HF ltac:(lra) H1 H2) as (T1 & T2). set (t := tan (PI * fc / fs)) in *.
  assert (E : design_highpass ex qsort f fc fs m = discretize_to_biquads ex qsort (highpassed f (2 * fs * t)) fs m).
  { unfold design_highpass. destruct (Rleb_spec 0 fc) as [_|X]; [|exfalso; lra]. destruct (Rltb_spec fc (fs / 2)) as [_|X]; [|exfalso; lra]. cbn [andb negb]. unfold prewarp. fold t. rewrite to_highpass_is by exact no_zero_root. reflexivity. }
  rewrite E. clear E. assert (KT : 0 < 2 * fs * t) by nra. destruct (high_lengths (2 * fs * t)) as (LZ & LP).
  destruct (discretize_ok ex qsort HQ (highpassed f (2 * fs * t)) fs m) as (cs & E & EL & S1 & V & N1 & N2).
  - exact HF.
  - now apply highpassed_real.
  - lia.
  - lia.
  - intros r Hr. apply high_roots in Hr as (w & -> & M & F & _). exists (Cmult (RtoC t) w). split; [apply injective_projections; cbn; ring|]. split; [apply sized_plain; lra || exact M|]. cbn. nra.
  - intros r Hr. now apply (high_poles (2 * fs * t)).
  - rewrite LP, L4. exact HB.
  - exists cs. split; [exact E|]. split; [rewrite EL, LP, L4; reflexivity|]. split; [exact S1|]. split; [|split].
    + intros g h G G0. destruct (circle_high g fs t G G0) as (Z1 & Z2 & ES). assert (PN : Cplus (on_circle g fs) (RtoC 1) <> RtoC 0) by now apply plus_one_neq. assert (MN : Cminus (on_circle g fs) (RtoC 1) <> RtoC 0) by now apply Cminus_neq.
      assert (T0 : RtoC t <> RtoC 0) by (apply RtoC_neq; lra). assert (F0 : RtoC (2 * fs) <> RtoC 0) by (apply RtoC_neq; lra).
      rewrite (V _ h (circle_neq_0 g fs) Z2), highpassed_value; try assumption; [|exact no_zero_root|unfold Cdiv; apply Cmult_neq; [now apply Cmult_neq|now apply Cinv_neq]]. rewrite <- (stands_value f p) by exact HS.
      rewrite <- ES. replace (Cdiv (RtoC (2 * fs * t)) (Cdiv (Cmult (RtoC (2 * fs)) (Cminus (on_circle g fs) (RtoC 1))) (Cplus (on_circle g fs) (RtoC 1)))) with (Cdiv (Cmult (RtoC t) (Cplus (on_circle g fs) (RtoC 1))) (Cminus (on_circle g fs) (RtoC 1))); [reflexivity|]. rewrite (RtoC_mult (2 * fs)). field. repeat split; assumption.
    + intros LT. apply V; [apply RtoC_neq; lra|intros X; apply (f_equal fst) in X; cbn in X; lra|]. assert (S0 : Cdiv (Cmult (RtoC (2 * fs)) (Cminus (RtoC 1) (RtoC 1))) (Cplus (RtoC 1) (RtoC 1)) = RtoC 0) by (apply injective_projections; cbn; field). rewrite S0.
      assert (NP : po (fun p => Cminus (RtoC 0) p) (z_poles (highpassed f (2 * fs * t))) <> RtoC 0) by (apply po_minus_neq; intros r Hr ->; apply high_poles in Hr; [cbn in Hr; lra|lra]). split; [exact NP|].
      assert (Z0 : po (fun z => Cminus (RtoC 0) z) (z_zeros (highpassed f (2 * fs * t))) = RtoC 0).
      { unfold highpassed. cbn [z_zeros]. rewrite po_app, po_rep. match goal with |- context [cpow _ ?n] => assert (NN : n = S (n - 1)) by lia; rewrite NN end. cbn [cpow]. replace (Cminus (RtoC 0) (RtoC 0)) with (RtoC 0) by ring. ring. }
      rewrite Z0. field. exact NP.
    + intros h Hh. rewrite <- (gain_dc h Hh). change (cascade_value cs (RtoC (-1)) (RtoC (z_gain (highpassed f (2 * fs * t))))). apply N2. lia.
Qed.
End Design.
