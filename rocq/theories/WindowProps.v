(* Properties C46, C56 and C57: window functions, Bessel functions and the
   Fourier transforms of windows. *)
From Verif Require Import Common ListLemmas NthLemmas RealUtil BesselModel BesselSpec BesselProofs
  WindowModel WindowSpec WindowProofs WindowProofs2 WindowProofs3 WindowProofs4 WindowProofs5.
From Coquelicot Require Rcomplements.
From Coq Require Import Lia.
Local Open Scope R_scope.

(* Which parameters the constructors accept, and what Eval returns for an
   accepted window: 1 at the center, even, the documented formula for
   |x| <= radius, nonnegative there and zero outside (beyond a relative margin
   of 1e-12), zero at the endpoints when zero_at_endpoints() says so. *)
Theorem C46_eval : forall k r,
  ((exists w, make_window k r = Ok w) <-> valid k r) /\
  (forall w, make_window k r = Ok w ->
     eval_w w 0 = 1 /\
     (forall x, eval_w w (- x) = eval_w w x) /\
     (forall x, Rabs x <= r -> documented k r x (eval_w w x)) /\
     (forall x, Rabs x <= r -> 0 <= eval_w w x) /\
     (forall x, (1 + / 10 ^ 12) * r <= Rabs x -> eval_w w x = 0) /\
     (zero_at_endpoints k = true -> eval_w w r = 0 /\ eval_w w (- r) = 0)).
Proof.
  intros k r. split; [apply make_iff|]. intros w H.
  destruct (make_ok _ _ _ H) as (V & Ek & Er & _). unfold eval_w. rewrite Ek, Er.
  split; [apply eval_center, V|]. split; [intros; apply even|].
  split; [intros; apply eval_documented; assumption|].
  split; [intros; apply eval_nonneg; assumption|].
  split; [intros; apply eval_support; assumption|].
  intros Z. rewrite even. split; apply eval_endpoint; auto; apply Rle_abs.
Qed.
Print Assumptions C46_eval.

(* On its support a window never exceeds 1 and falls monotonically from the
   center; for the Kaiser window, when beta is below 21 (where BesselI0 uses
   its power series). *)
Theorem C46_unimodal_partial : forall k r w, make_window k r = Ok w -> series_range k ->
  (forall x, Rabs x <= r -> eval_w w x <= 1) /\
  (forall x1 x2, Rabs x1 <= Rabs x2 -> Rabs x2 <= r -> eval_w w x2 <= eval_w w x1).
Proof.
  intros k r w H S. destruct (make_ok _ _ _ H) as (V & Ek & Er & _). unfold eval_w. rewrite Ek, Er.
  split; intros; [apply eval_le1|apply eval_anti]; assumption.
Qed.
Print Assumptions C46_unimodal_partial.

Example C46_eval_example : exists w, make_window (Quartic (-6/5) (2/5)) 2 = Ok w /\
  eval_w w 1 = 29 / 40 /\ series_range (wi_kind w) /\
  make_window (Kaiser 4) 1 = Ok (mkWindow (Kaiser 4) 1 []) /\
  make_window Hann (-1) = CheckFail /\ make_window (PlanckTaper 2) 1 = CheckFail.
Proof.
  exists (mkWindow (Quartic (-6/5) (2/5)) 2 []).
  split; [unfold make_window; rewrite (Rltb_true 0 2) by lra; cbn [ocheck];
          rewrite (Rleb_true (-2)) by lra; rewrite (Rleb_true (-6/5) 0) by lra;
          rewrite (Rleb_true _ (2/5)) by lra; rewrite (Rleb_true (2/5)) by lra; reflexivity|].
  split; [unfold eval_w; cbn [wi_kind wi_radius eval]; rewrite Rltb_true;
          [lra|pose proof kTol_pos; lra]|].
  split; [exact I|].
  split; [unfold make_window; rewrite (Rltb_true 0 1) by lra; cbn [ocheck]; rewrite (Rleb_true 0 4) by lra; reflexivity|].
  split; [unfold make_window; rewrite Rltb_false by lra; reflexivity|].
  unfold make_window. rewrite (Rltb_true 0 1) by lra. cbn [ocheck].
  rewrite (Rleb_true 0 2) by lra. rewrite (Rleb_false 2 1) by lra. reflexivity.
Qed.

(* GetSymmetricSamples: num samples; sample i is the window at the i-th of num
   uniformly spaced points of [-radius, radius] (for a window that is zero at
   its endpoints, the inner points of num + 2); the samples are symmetric and an
   odd count has a 1 in the middle.  Fewer than two samples are rejected. *)
Theorem C46_symmetric_samples : forall k r w num, make_window k r = Ok w ->
  ((num < 2)%nat -> symmetric_samples w num = CheckFail) /\
  ((2 <= num)%nat -> exists s, symmetric_samples w num = Ok s /\ length s = num /\
    (forall i, (i < num)%nat -> nth i s 0 =
       eval k r (if zero_at_endpoints k then grid r (num + 2) (i + 1) else grid r num i)) /\
    rev s = s /\
    (forall i, (i < num)%nat -> 0 <= nth i s 0 /\ (series_range k -> nth i s 0 <= 1)) /\
    ((num mod 2 = 1)%nat -> nth (num / 2) s 0 = 1)).
Proof.
  intros k r w num H. destruct (make_ok _ _ _ H) as (V & Ek & Er & _). split.
  - intros L. unfold symmetric_samples. destruct (Nat.leb_spec 2 num); [lia|reflexivity].
  - intros Hn. destruct (symmetric_ok w num Hn) as (s & Hs & Ls & Ns). exists s.
    assert (Hr : 0 < wi_radius w) by (rewrite Er; apply V).
    split; [exact Hs|]. split; [exact Ls|].
    split; [intros i Hi; rewrite Ns by exact Hi; unfold eval_w, sym_pos; rewrite Ek, Er; reflexivity|].
    split.
    { apply (samples_ext _ _ num); [rewrite rev_length; exact Ls|exact Ls|]. intros i Hi.
      rewrite rev_nth by lia. rewrite Ls. rewrite Ns by lia. rewrite Ns by exact Hi.
      replace (num - S i)%nat with (num - 1 - i)%nat by lia. rewrite sym_pos_mirror by assumption.
      apply even. }
    split.
    { intros i Hi. rewrite Ns by exact Hi. pose proof (sym_pos_range w num i Hr Hn Hi) as P.
      unfold eval_w. rewrite Ek, Er in *. split; [apply eval_nonneg|intros S; apply eval_le1]; assumption. }
    intros Ho. rewrite Ns by (apply Nat.div_lt; lia). rewrite sym_pos_center by assumption.
    unfold eval_w. rewrite Ek, Er. apply eval_center, V.
Qed.
Print Assumptions C46_symmetric_samples.

(* GetPeriodicSamples: the first num of num + 1 uniformly spaced points. *)
Theorem C46_periodic_samples : forall k r w num, make_window k r = Ok w ->
  ((num < 2)%nat -> periodic_samples w num = CheckFail) /\
  ((2 <= num)%nat -> exists s, periodic_samples w num = Ok s /\ length s = num /\
    (forall i, (i < num)%nat -> nth i s 0 = eval k r (grid r (num + 1) i)) /\
    (forall i, (0 < i < num)%nat -> nth (num - i) s 0 = nth i s 0)).
Proof.
  intros k r w num H. destruct (make_ok _ _ _ H) as (V & Ek & Er & _). split.
  - intros L. unfold periodic_samples. destruct (Nat.leb_spec 2 num); [lia|reflexivity].
  - intros Hn. assert (V' : valid (wi_kind w) (wi_radius w)) by (rewrite Ek, Er; exact V).
    destruct (periodic_ok w num V' Hn) as (s & Hs & Ls & Ns). exists s.
    split; [exact Hs|]. split; [exact Ls|].
    unfold eval_w in Ns. rewrite Ek, Er in Ns. split; [exact Ns|].
    intros i Hi. rewrite !Ns by lia.
    replace (grid r (num + 1) (num - i)) with (- grid r (num + 1) i); [apply even|].
    unfold grid. rewrite minus_INR, plus_INR by lia. change (INR 1) with 1.
    assert (2 <= INR num) by (change 2 with (INR 2); apply le_INR; exact Hn). field. lra.
Qed.
Print Assumptions C46_periodic_samples.

(* Overlap at 50%: a periodic Hann window of any even length sums to one with
   its half-shifted copy, and the squares of a periodic cosine window do. *)
Theorem C46_overlap : forall r m n s t, 0 < r -> (1 <= n)%nat ->
  periodic_samples (mkWindow Hann r m) (2 * n) = Ok s ->
  periodic_samples (mkWindow Cosine r m) (2 * n) = Ok t ->
  forall i, (i < n)%nat -> nth i s 0 + nth (i + n) s 0 = 1 /\
                           nth i t 0 ^ 2 + nth (i + n) t 0 ^ 2 = 1.
Proof.
  intros r m n s t Hr Hn Hs Ht i Hi.
  destruct (periodic_ok (mkWindow Hann r m) (2 * n) (conj Hr I) ltac:(lia)) as (s' & Hs' & _ & Ns).
  destruct (periodic_ok (mkWindow Cosine r m) (2 * n) (conj Hr I) ltac:(lia)) as (t' & Ht' & _ & Nt).
  rewrite Hs in Hs'. rewrite Ht in Ht'. assert (s' = s) as -> by congruence.
  assert (t' = t) as -> by congruence.
  rewrite !Ns, !Nt by lia. unfold eval_w; cbn [wi_kind wi_radius].
  rewrite grid_half by assumption.
  assert (G : - r <= grid r (2 * n + 1) i <= 0).
  { pose proof (grid_range r (2 * n + 1) i Hr ltac:(lia) ltac:(lia)) as G1.
    pose proof (grid_range r (2 * n + 1) (i + n) Hr ltac:(lia) ltac:(lia)) as G2.
    rewrite grid_half in G2 by assumption.
    apply Rcomplements.Rabs_le_between in G1. apply Rcomplements.Rabs_le_between in G2. lra. }
  split; [apply hann_pair|apply cosine_pair]; assumption.
Qed.
Print Assumptions C46_overlap.

(* The cosine window is the square root of the Hann window everywhere. *)
Theorem C46_sqrt_hann : forall r x, 0 < r -> eval Cosine r x = sqrt (eval Hann r x).
Proof. exact cosine_sqrt_hann. Qed.
Print Assumptions C46_sqrt_hann.

(* Sampled windows do not depend on the radius, except for the Planck taper,
   whose epsilon is an absolute length. *)
Theorem C46_radius_partial : forall k r1 r2 w1 w2 num,
  make_window k r1 = Ok w1 -> make_window k r2 = Ok w2 ->
  (forall e, k <> PlanckTaper e) ->
  symmetric_samples w1 num = symmetric_samples w2 num /\
  periodic_samples w1 num = periodic_samples w2 num /\
  symmetric_samples (set_radius w1 r2) num = symmetric_samples w1 num.
Proof.
  intros k r1 r2 w1 w2 num H1 H2 NP.
  assert (NP' : ~ is_planck k) by (destruct k; cbn; auto; intros _; exact (NP _ eq_refl)).
  destruct (make_ok _ _ _ H1) as (V1 & K1 & R1 & _). destruct (make_ok _ _ _ H2) as (V2 & K2 & R2 & _).
  destruct w1 as [k1 r1' m1]. destruct w2 as [k2 r2' m2]. cbn [wi_kind wi_radius] in *. subst k1 k2 r1' r2'.
  split; [apply symmetric_scale; [apply V1|apply V2|exact NP']|].
  split; [apply periodic_scale; assumption|].
  unfold set_radius; cbn [wi_kind wi_memo]. apply symmetric_scale; [apply V2|apply V1|exact NP'].
Qed.
Print Assumptions C46_radius_partial.

Theorem C46_radius_refuted : exists w1 w2 s1 s2,
  make_window (PlanckTaper 1) 1 = Ok w1 /\ make_window (PlanckTaper 1) 2 = Ok w2 /\
  symmetric_samples w1 3 = Ok s1 /\ symmetric_samples w2 3 = Ok s2 /\ s1 <> s2.
Proof.
  destruct (planck_sampled 1 ltac:(lra)) as (s1 & H1 & N1).
  destruct (planck_sampled 2 ltac:(lra)) as (s2 & H2 & N2).
  exists (mkWindow (PlanckTaper 1) 1 []), (mkWindow (PlanckTaper 1) 2 []), s1, s2.
  split; [unfold make_window; rewrite (Rltb_true 0 1) by lra; cbn [ocheck];
          rewrite (Rleb_true 0 1) by lra; rewrite (Rleb_true 1 1) by lra; reflexivity|].
  split; [unfold make_window; rewrite (Rltb_true 0 2) by lra; cbn [ocheck];
          rewrite (Rleb_true 0 1) by lra; rewrite (Rleb_true 1 2) by lra; reflexivity|].
  split; [exact H1|]. split; [exact H2|]. intros E. rewrite E in N1. rewrite N1 in N2.
  rewrite planck_half in N2. rewrite planck_one in N2 by lra. lra.
Qed.
Print Assumptions C46_radius_refuted.

(* "All windows satisfy Eval(0) == 1" fails after a set_radius below the
   taper's epsilon, which no check prevents. *)
Theorem C46_set_radius_refuted : exists w, make_window (PlanckTaper 1) 1 = Ok w /\
  eval_w (set_radius w (1 / 2)) 0 = 1 / 2.
Proof.
  exists (mkWindow (PlanckTaper 1) 1 []).
  split; [unfold make_window; rewrite (Rltb_true 0 1) by lra; cbn [ocheck];
          rewrite (Rleb_true 0 1) by lra; rewrite (Rleb_true 1 1) by lra; reflexivity|].
  unfold eval_w, set_radius; cbn [wi_kind wi_radius wi_memo]. rewrite eval_planck by lra.
  rewrite Rabs_R0. replace ((1 / 2 - 0) / 1) with (1 / 2) by field. apply planck_half.
Qed.
Print Assumptions C46_set_radius_refuted.

(* The quartic window is documented as nonnegative, with support |x| <= radius;
   just outside the radius it is negative.  With c_4 = -(1 + c_2) it is zero at
   the endpoints although zero_at_endpoints() returns false. *)
Theorem C46_quartic_refuted : exists w, make_window (Quartic (-1) 0) 1 = Ok w /\
  eval_w w (1 + / 10 ^ 13) < 0 /\
  eval_w w 1 = 0 /\ zero_at_endpoints (wi_kind w) = false.
Proof.
  exists (mkWindow (Quartic (-1) 0) 1 []).
  split; [unfold make_window; rewrite (Rltb_true 0 1) by lra; cbn [ocheck];
          rewrite (Rleb_true (-2)) by lra; rewrite (Rleb_true (-1) 0) by lra;
          rewrite (Rleb_true _ 0) by lra; rewrite (Rleb_true 0) by lra; reflexivity|].
  split; [|split; [|reflexivity]]; unfold eval_w; cbn [wi_kind wi_radius eval].
  - rewrite Rltb_true; [lra|unfold kTol; lra].
  - rewrite Rltb_true; [lra|pose proof kTol_pos; lra].
Qed.
Print Assumptions C46_quartic_refuted.

(* Evaluating Fourier transforms, in any number and order, changes neither
   Eval nor later Fourier transforms... *)
Theorem C46_history : forall w fs,
  (forall f, snd (eval_ft (after_fts w fs) f) = snd (eval_ft w f)) /\
  (forall x, eval_w (after_fts w fs) x = eval_w w x).
Proof.
  intros w fs. destruct (fts_keep fs w) as (A & B). split; [exact A|].
  intros x. rewrite B. reflexivity.
Qed.
Print Assumptions C46_history.

(* ... unless the radius is changed in between: the memoized samples of the
   Planck taper are kept. *)
Theorem C46_history_refuted : exists w, make_window (PlanckTaper 1) 1 = Ok w /\
  snd (eval_ft (set_radius (fst (eval_ft w 0)) 2) 0) <> snd (eval_ft (set_radius w 2) 0).
Proof.
  exists (mkWindow (PlanckTaper 1) 1 []).
  split; [unfold make_window; rewrite (Rltb_true 0 1) by lra; cbn [ocheck];
          rewrite (Rleb_true 0 1) by lra; rewrite (Rleb_true 1 1) by lra; reflexivity|].
  pose proof stale_memo as S. cbv zeta in S. lra.
Qed.
Print Assumptions C46_history_refuted.

(* ---- C56: Bessel functions ---- *)

(* BesselI0 is even, BesselI1 odd; I0 is positive everywhere, I0(0) = 1, and
   both increase on [0, 21). *)
Theorem C56_shape : 
  (forall x, bessel_i0 (- x) = bessel_i0 x) /\ (forall x, bessel_i1 (- x) = - bessel_i1 x) /\
  (forall x, 0 < bessel_i0 x) /\ bessel_i0 0 = 1 /\ bessel_i1 0 = 0 /\
  (forall x y, 0 <= x <= y -> y < 21 -> bessel_i0 x <= bessel_i0 y /\ bessel_i1 x <= bessel_i1 y).
Proof.
  split; [exact i0_even|]. split; [exact i1_odd|]. split; [exact i0_pos|].
  split; [exact i0_0|]. split; [exact i1_0|].
  intros x y H L. split; [apply i0_mono; lra|].
  unfold bessel_i1. rewrite (Rltb_false x 0), (Rltb_false y 0) by lra.
  rewrite (Rabs_right x), (Rabs_right y) by lra. rewrite (Rltb_true x 21), (Rltb_true y 21) by lra.
  rewrite !Rmult_1_l. apply series_mono'; lra.
Qed.
Print Assumptions C56_shape.

(* For |x| < 21 the truncated series is below the true value and within two
   units of DBL_EPSILON of it, relatively; the true value exists.  (Rounding of
   the additions themselves is not counted; nor is |x| >= 21.) *)
Theorem C56_accuracy_partial : forall x, 0 <= x < 21 ->
  exists l0 l1, is_bessel_i 0 x l0 /\ is_bessel_i 1 x l1 /\
    bessel_i0 x <= l0 <= (1 + 2 * / 2 ^ 52) * bessel_i0 x /\
    bessel_i1 x <= l1 <= (1 + 2 * / 2 ^ 52) * bessel_i1 x.
Proof.
  intros x H. destruct (bessel_exists 0 x ltac:(lia) H) as (l0 & H0).
  destruct (bessel_exists 1 x ltac:(lia) H) as (l1 & H1). exists l0, l1.
  split; [exact H0|]. split; [exact H1|].
  pose proof (series_accuracy 0 x l0 ltac:(lia) H H0) as A0.
  pose proof (series_accuracy 1 x l1 ltac:(lia) H H1) as A1.
  unfold bessel_i0, bessel_i1. rewrite (Rabs_right x) by lra. rewrite (Rltb_true x 21) by lra.
  rewrite (Rltb_false x 0) by lra. rewrite Rmult_1_l. split; [exact A0|exact A1].
Qed.
Print Assumptions C56_accuracy_partial.

Example C56_example : exists l, is_bessel_i 0 1 l /\ 5 / 4 <= l.
Proof.
  destruct (C56_accuracy_partial 1 ltac:(lra)) as (l & _ & H & _ & _). exists l. split; [exact H|].
  apply (cv_ge _ _ _ 2 H). intros k Hk.
  apply Rle_trans with (bessel_partial 0 1 2).
  - cbn [bessel_partial]. unfold bessel_term. cbn. lra.
  - apply ps_mono; [lra|exact Hk].
Qed.

(* ---- C57: Fourier transforms ---- *)

(* EvalFourierTransform of the rectangular, cosine, Hamming, Hann, Nuttall and
   quartic windows is the Fourier integral of Eval, at every frequency that is
   not strictly within the 1e-8 tolerance of a removable singularity, the
   singularities themselves included. *)
Theorem C57_fourier_partial : forall k r w f, make_window k r = Ok w -> closed_form k ->
  Forall off_tolerance (singular k r f) ->
  fourier (eval_w w) r f (snd (eval_ft w f)).
Proof.
  intros k r w f H C S. destruct (make_ok _ _ _ H) as (V & Ek & Er & _).
  destruct w as [k' r' m]. cbn [wi_kind wi_radius] in *. subst k' r'.
  unfold eval_w; cbn [wi_kind wi_radius]. apply ft_all; assumption.
Qed.
Print Assumptions C57_fourier_partial.

(* The frequencies covered: a singular one and an ordinary one. *)
Example C57_example : Forall off_tolerance (singular Hann 1 (1 / 2)) /\
  Forall off_tolerance (singular Hann 1 3) /\
  fourier (eval Hann 1) 1 (1 / 2) (1 / 2).
Proof.
  pose proof PI2_3_2. pose proof PI_RGT_0.
  assert (A : Forall off_tolerance (singular Hann 1 (1 / 2))).
  { cbn [singular]. apply Forall_cons; [|apply Forall_cons; [|apply Forall_nil]].
    - right. rewrite Rabs_right by lra. lra.
    - left. lra. }
  split; [exact A|]. split.
  - cbn [singular]. apply Forall_cons; [|apply Forall_cons; [|apply Forall_nil]]; right.
    + rewrite Rabs_right by lra. lra.
    + rewrite Rabs_left by lra. lra.
  - assert (M : make_window Hann 1 = Ok (mkWindow Hann 1 [])).
    { unfold make_window. rewrite Rltb_true by lra. reflexivity. }
    pose proof (C57_fourier_partial Hann 1 _ (1 / 2) M I A) as F.
    cbn [eval_ft wi_kind wi_radius snd] in F. rewrite Rleb_false in F.
    + replace (1 * (1 / 2)) with (1 / 2) in F by lra. exact F.
    + replace (1 - 2 * (1 / 2) * 1 * (2 * (1 / 2) * 1)) with 0 by lra. rewrite Rabs_R0.
      unfold sincTol. apply Rinv_0_lt_compat, pow_lt. lra.
Qed.

(* The generic transform, used by the Planck taper, is the 512-point quadrature
   of the Fourier integral of the even function Eval. *)
Theorem C57_quadrature : forall e r f,
  snd (eval_ft (mkWindow (PlanckTaper e) r []) f) =
  r / 512 * (1 + 2 * fold_right Rplus 0
    (map (fun n => cos (2 * PI * f * (INR n * (r / 512))) * eval (PlanckTaper e) r (INR n * (r / 512)))
         (seq 1 512))).
Proof. exact generic_value. Qed.
Print Assumptions C57_quadrature.
