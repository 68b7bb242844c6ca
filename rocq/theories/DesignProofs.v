From Verif Require Import Common RealUtil BiquadModel DesignModel DesignSpec.
From Coquelicot Require Import Complex.
From Coq Require Import Psatz.
Local Open Scope R_scope.

Ltac creal := apply injective_projections; cbn; ring.

(* Jury's criterion. *)
Lemma Cmod_lt_1 (z : C) : fst z * fst z + snd z * snd z < 1 -> Cmod z < 1.
Proof.
  intros H. unfold Cmod. rewrite <- sqrt_1. apply sqrt_lt_1; cbn; nra.
Qed.
Lemma Cmod_lt_1_inv (z : C) : Cmod z < 1 -> fst z * fst z + snd z * snd z < 1.
Proof.
  intros H. unfold Cmod in H. rewrite <- sqrt_1 in H. apply sqrt_lt_0_alt in H. cbn in H. nra.
Qed.

Lemma jury c : a0 c > 0 -> Rabs (a2 c) < a0 c -> a0 c + a1 c + a2 c > 0 -> a0 c - a1 c + a2 c > 0 -> stable c.
Proof.
  intros H0 H2 Hp Hm. split; [lra|]. intros [x y] HD. apply Cmod_lt_1. cbn [fst snd].
  unfold denominator in HD. apply (f_equal (fun z : C => (fst z, snd z))) in HD. cbn in HD.
  injection HD as HR HI. apply Rabs_def2 in H2.
  destruct (Req_dec y 0) as [E|E].
  - subst y.
    assert (HR' : a0 c * x * x + a1 c * x + a2 c = 0) by lra. clear HR HI.
    assert (x < 1).
    { apply Rnot_le_lt. intros L. assert (a0 c * x * x + a1 c * x + a2 c - (a0 c + a1 c + a2 c) = (x - 1) * (a0 c * (x + 1) + a1 c)) by ring.
      assert (a0 c * (x + 1) + a1 c > 0) by nra. nra. }
    assert (- 1 < x).
    { apply Rnot_le_lt. intros L. assert (a0 c * x * x + a1 c * x + a2 c - (a0 c - a1 c + a2 c) = (x + 1) * (a0 c * (x - 1) + a1 c)) by ring.
      assert (a0 c * (x - 1) + a1 c < 0) by nra. nra. }
    nra.
  - assert (HP : 2 * a0 c * x + a1 c = 0).
    { apply (Rmult_eq_reg_r y); [|exact E]. lra. }
    assert (HN : a0 c * (x * x + y * y) = a2 c).
    { assert (a1 c = - 2 * a0 c * x) by lra. rewrite H in HR. lra. }
    apply (Rmult_lt_reg_l (a0 c)); [lra|]. rewrite HN. lra.
Qed.

Lemma jury_inv c : a0 c > 0 -> stable c ->
  Rabs (a2 c) < a0 c /\ a0 c + a1 c + a2 c > 0 /\ a0 c - a1 c + a2 c > 0.
Proof.
  intros H0 [_ HS].
  destruct (Rle_dec 0 (a1 c * a1 c - 4 * a0 c * a2 c)) as [HD|HD].
  - set (d := sqrt (a1 c * a1 c - 4 * a0 c * a2 c)).
    assert (D2 : d * d = a1 c * a1 c - 4 * a0 c * a2 c) by (apply sqrt_sqrt; exact HD).
    assert (R : forall x, a0 c * x * x + a1 c * x + a2 c = 0 -> -1 < x < 1).
    { intros x Hx. assert (L : Cmod (RtoC x) < 1).
      { apply HS. unfold denominator. apply injective_projections; cbn; [|ring]. lra. }
      apply Cmod_lt_1_inv in L. cbn in L. split; nra. }
    assert (R1 : -1 < (- a1 c + d) / (2 * a0 c) < 1).
    { apply R. match goal with |- ?l = _ => replace l with ((d * d - (a1 c * a1 c - 4 * a0 c * a2 c)) / (4 * a0 c)) by (field; lra) end.
      rewrite D2. field. lra. }
    assert (R2 : -1 < (- a1 c - d) / (2 * a0 c) < 1).
    { apply R. match goal with |- ?l = _ => replace l with ((d * d - (a1 c * a1 c - 4 * a0 c * a2 c)) / (4 * a0 c)) by (field; lra) end.
      rewrite D2. field. lra. }
    set (r1 := (- a1 c + d) / (2 * a0 c)) in *. set (r2 := (- a1 c - d) / (2 * a0 c)) in *.
    assert (E1 : a1 c = - a0 c * (r1 + r2)) by (unfold r1, r2; field; lra).
    assert (E2 : a2 c = a0 c * (r1 * r2)).
    { unfold r1, r2. match goal with |- _ = ?l => replace l with ((a1 c * a1 c - d * d) / (4 * a0 c)) by (field; lra) end.
      rewrite D2. field. lra. }
    rewrite E1, E2. repeat split.
    + assert (0 < (1 - r1) * (1 + r2)) by (apply Rmult_lt_0_compat; lra).
      assert (0 < (1 + r1) * (1 - r2)) by (apply Rmult_lt_0_compat; lra).
      assert (0 < (1 - r1) * (1 - r2)) by (apply Rmult_lt_0_compat; lra).
      assert (0 < (1 + r1) * (1 + r2)) by (apply Rmult_lt_0_compat; lra).
      assert (-1 < r1 * r2 < 1) by (split; lra).
      assert (0 < a0 c * (1 - r1 * r2)) by (apply Rmult_lt_0_compat; lra).
      assert (0 < a0 c * (1 + r1 * r2)) by (apply Rmult_lt_0_compat; lra).
      apply Rabs_def1; lra.
    + replace (a0 c + - a0 c * (r1 + r2) + a0 c * (r1 * r2)) with (a0 c * ((1 - r1) * (1 - r2))) by ring.
      apply Rmult_lt_0_compat; [lra|]. apply Rmult_lt_0_compat; lra.
    + replace (a0 c - - a0 c * (r1 + r2) + a0 c * (r1 * r2)) with (a0 c * ((1 + r1) * (1 + r2))) by ring.
      apply Rmult_lt_0_compat; [lra|]. apply Rmult_lt_0_compat; lra.
  - set (e := sqrt (4 * a0 c * a2 c - a1 c * a1 c)).
    assert (E2 : e * e = 4 * a0 c * a2 c - a1 c * a1 c) by (apply sqrt_sqrt; lra).
    assert (L : Cmod (- a1 c / (2 * a0 c), e / (2 * a0 c)) < 1).
    { apply HS. unfold denominator. apply injective_projections; cbn; [|field; lra].
      match goal with |- ?l = _ => replace l with ((4 * a0 c * a2 c - a1 c * a1 c - e * e) / (4 * a0 c)) by (field; lra) end.
      rewrite E2. field. lra. }
    apply Cmod_lt_1_inv in L. cbn [fst snd] in L.
    assert (Q : - a1 c / (2 * a0 c) * (- a1 c / (2 * a0 c)) + e / (2 * a0 c) * (e / (2 * a0 c)) = a2 c / a0 c).
    { match goal with |- ?l = _ => replace l with ((a1 c * a1 c + e * e) / (4 * a0 c * a0 c)) by (field; lra) end.
      rewrite E2. field. lra. }
    rewrite Q in L.
    assert (A2 : a2 c < a0 c). { apply (Rmult_lt_reg_r (/ a0 c)); [apply Rinv_0_lt_compat; lra|]. rewrite Rinv_r by lra. exact L. }
    assert (P2 : 0 < a2 c) by nra.
    assert (B : a1 c * a1 c < (a0 c + a2 c) * (a0 c + a2 c)) by nra.
    repeat split; [apply Rabs_def1; lra|nra|nra].
Qed.

(* normalisation *)
Lemma normalize_denominator c z : a0 c <> 0 -> denominator c z = Cmult (RtoC (a0 c)) (denominator (normalize c) z).
Proof. intros H. unfold denominator, normalize. cbn [a0 a1 a2]. apply injective_projections; cbn; field; exact H. Qed.
Lemma normalize_numerator c z : a0 c <> 0 -> numerator c z = Cmult (RtoC (a0 c)) (numerator (normalize c) z).
Proof. intros H. unfold numerator, normalize. cbn [b0 b1 b2]. apply injective_projections; cbn; field; exact H. Qed.

Lemma RtoC_neq x : x <> 0 -> RtoC x <> RtoC 0.
Proof. intros H E. apply H. now apply (f_equal fst) in E. Qed.

Lemma has_value_intro c z h : denominator c z <> RtoC 0 -> numerator c z = Cmult h (denominator c z) -> has_value c z h.
Proof. intros H E. split; [exact H|]. rewrite E. field. exact H. Qed.

Lemma normalize_value c z h : a0 c <> 0 -> has_value c z h -> has_value (normalize c) z h.
Proof.
  intros H [HD HE]. assert (HD' : denominator (normalize c) z <> RtoC 0).
  { intros E. apply HD. rewrite normalize_denominator, E by exact H. ring. }
  apply has_value_intro; [exact HD'|].
  rewrite normalize_denominator, normalize_numerator in HE by exact H. rewrite <- HE. field.
  split; [exact HD'|apply RtoC_neq, H].
Qed.
Lemma normalize_stable c : a0 c <> 0 -> stable c -> stable (normalize c).
Proof.
  intros H [_ HS]. split; [cbn [normalize a0]; unfold Rdiv; rewrite Rinv_r by exact H; lra|].
  intros z HD. apply HS. rewrite normalize_denominator, HD by exact H. ring.
Qed.

(* the bilinear map *)
Definition analog (q : poly) (s : C) : C :=
  Cplus (Cplus (Cmult (Cmult (RtoC (fst (fst q))) s) s) (Cmult (RtoC (snd (fst q))) s)) (RtoC (snd q)).
Definition zpoly (q : poly) (z : C) : C :=
  Cplus (Cplus (Cmult (Cmult (RtoC (fst (fst q))) z) z) (Cmult (RtoC (snd (fst q))) z)) (RtoC (snd q)).

Lemma bilinear_identity q K z : zpoly (bilinear_map q K) z
  = Cplus (Cplus (Cmult (RtoC (fst (fst q))) (Cmult (Cmult (RtoC K) (Cminus z (RtoC 1))) (Cmult (RtoC K) (Cminus z (RtoC 1)))))
                 (Cmult (RtoC (snd (fst q))) (Cmult (Cmult (RtoC K) (Cminus z (RtoC 1))) (Cplus z (RtoC 1)))))
          (Cmult (RtoC (snd q)) (Cmult (Cplus z (RtoC 1)) (Cplus z (RtoC 1)))).
Proof. destruct q as [[q0 q1] q2]. destruct z as [x y]. unfold zpoly, bilinear_map. cbn [fst snd]. creal. Qed.

(* at angle 2 h: q(s) with s = i K tan h, times 4 e^(2ih) cos^2 h *)
Lemma bilinear_circle q K w h : K * sin h = w * cos h ->
  zpoly (bilinear_map q K) (cos (2 * h), sin (2 * h))
  = Cmult (Cmult (Cmult (cos h, sin h) (cos h, sin h)) (RtoC (4 * (cos h * cos h)))) (analog q (0, w)).
Proof.
  intros HK. rewrite bilinear_identity.
  assert (HU : sin h * sin h + cos h * cos h = 1) by (pose proof (sin2_cos2 h) as U; unfold Rsqr in U; exact U).
  assert (E1 : Cplus (cos (2 * h), sin (2 * h)) (RtoC 1) = Cmult (RtoC (2 * cos h)) (cos h, sin h)).
  { rewrite cos_2a, sin_2a. apply injective_projections; cbn; [|ring].
    lra. }
  assert (E2 : Cmult (RtoC K) (Cminus (cos (2 * h), sin (2 * h)) (RtoC 1)) = Cmult (0, 2 * (w * cos h)) (cos h, sin h)).
  { rewrite <- HK, cos_2a, sin_2a. apply injective_projections; cbn; [|ring].
    assert (K * (sin h * sin h + cos h * cos h) = K * 1) by now rewrite HU. lra. }
  rewrite E1, E2. destruct q as [[q0 q1] q2]. unfold analog. cbn [fst snd]. creal.
Qed.

(* consequences for a discretised section *)
Definition digital (num den : poly) (K : R) : coeffs R :=
  make_coeffs (bilinear_map num K) (bilinear_map den K).

Lemma numerator_zpoly num den K z : numerator (digital num den K) z = zpoly (bilinear_map num K) z.
Proof. reflexivity. Qed.
Lemma denominator_zpoly num den K z : denominator (digital num den K) z = zpoly (bilinear_map den K) z.
Proof. reflexivity. Qed.

Lemma Cmult_neq (a b : C) : a <> RtoC 0 -> b <> RtoC 0 -> Cmult a b <> RtoC 0.
Proof.
  intros HA HB E. apply HB. transitivity (Cmult (Cinv a) (Cmult a b)); [field; exact HA|]. rewrite E. ring.
Qed.
Lemma pair_neq_l x y : x <> 0 -> (x, y) <> RtoC 0.
Proof. intros H E. injection E as E _. contradiction. Qed.
Lemma pair_neq_r x y : y <> 0 -> (x, y) <> RtoC 0.
Proof. intros H E. injection E as _ E. contradiction. Qed.

Lemma value_at_match num den K w h : K * sin h = w * cos h -> cos h <> 0 ->
  analog den (0, w) <> RtoC 0 ->
  has_value (digital num den K) (cos (2 * h), sin (2 * h)) (Cdiv (analog num (0, w)) (analog den (0, w))).
Proof.
  intros HK HC HD.
  assert (N : Cmult (Cmult (cos h, sin h) (cos h, sin h)) (RtoC (4 * (cos h * cos h))) <> RtoC 0).
  { apply Cmult_neq; [apply Cmult_neq; apply pair_neq_l; exact HC|]. apply RtoC_neq. nra. }
  apply has_value_intro.
  - rewrite denominator_zpoly, (bilinear_circle den K w h HK). apply Cmult_neq; assumption.
  - rewrite denominator_zpoly, numerator_zpoly, !(bilinear_circle _ K w h HK). field. exact HD.
Qed.

Lemma value_at_dc num den K : snd den <> 0 ->
  has_value (digital num den K) (RtoC 1) (RtoC (snd num / snd den)).
Proof.
  intros H. destruct num as [[n0 n1] n2], den as [[d0 d1] d2]. cbn [snd] in *. apply has_value_intro.
  - intros E. apply (f_equal fst) in E. cbn in E. apply H. lra.
  - apply injective_projections; cbn; field; exact H.
Qed.
Lemma value_at_nyquist num den K : fst (fst den) <> 0 -> K <> 0 ->
  has_value (digital num den K) (RtoC (-1)) (RtoC (fst (fst num) / fst (fst den))).
Proof.
  intros H HK. destruct num as [[n0 n1] n2], den as [[d0 d1] d2]. cbn [fst snd] in *. apply has_value_intro.
  - intros E. apply (f_equal fst) in E. cbn in E.
    assert (d0 * (K * K) = 0) by lra. apply Rmult_integral in H0. destruct H0; [contradiction|].
    apply Rmult_integral in H0. destruct H0; contradiction.
  - apply injective_projections; cbn; field; exact H.
Qed.
Lemma digital_a0 num d1 d2 K : 0 < K -> 0 < d1 -> 0 < d2 -> 0 < a0 (digital num (1, d1, d2) K).
Proof. intros. cbn. nra. Qed.
Lemma digital_stable num d1 d2 K : 0 < K -> 0 < d1 -> 0 < d2 -> stable (digital num (1, d1, d2) K).
Proof.
  intros HK H1 H2. assert (0 < K * K) by nra. assert (0 < d1 * K) by nra.
  apply jury; cbn; [lra| |lra|lra]. apply Rabs_def1; lra.
Qed.

(* angles *)
Lemma half_angle f fs : 0 < f -> f < fs / 2 -> 0 < fs /\ 0 < PI * f / fs < PI / 2 /\
  0 < sin (PI * f / fs) /\ 0 < cos (PI * f / fs) /\ 0 < tan (PI * f / fs).
Proof.
  intros Hf Hfs. assert (P : 0 < fs) by lra. pose proof PI_RGT_0 as HP.
  assert (A : 0 < PI * f / fs) by (apply Rmult_lt_0_compat; [nra|apply Rinv_0_lt_compat; lra]).
  assert (B : PI * f / fs < PI / 2).
  { apply (Rmult_lt_reg_r fs); [lra|]. unfold Rdiv. rewrite Rmult_assoc, Rinv_l by lra. nra. }
  split; [lra|]. split; [lra|]. assert (S : 0 < sin (PI * f / fs)) by (apply sin_gt_0; lra).
  assert (C : 0 < cos (PI * f / fs)) by (apply cos_gt_0; lra). split; [exact S|]. split; [exact C|].
  unfold tan. apply Rdiv_lt_0_compat; assumption.
Qed.

Lemma compute_K_pos f fs : 0 < f -> f < fs / 2 -> 0 < compute_K f fs.
Proof.
  intros Hf Hfs. destruct (half_angle f fs Hf Hfs) as (P & _ & _ & _ & T). pose proof PI_RGT_0 as HP.
  unfold compute_K. destruct (Rltb_spec f (fs * / 10000000)); [lra|].
  apply Rdiv_lt_0_compat; [nra|exact T].
Qed.

Lemma compute_K_match f fs : 0 < f -> f < fs / 2 -> fs / 10000000 <= f ->
  compute_K f fs * sin (PI * f / fs) = 2 * PI * f * cos (PI * f / fs).
Proof.
  intros Hf Hfs Hm. destruct (half_angle f fs Hf Hfs) as (P & _ & S & C & _).
  unfold compute_K. destruct (Rltb_spec f (fs * / 10000000)); [lra|].
  unfold tan. field. split; lra.
Qed.

Lemma on_circle_half f fs : fs <> 0 -> on_circle f fs = (cos (2 * (PI * f / fs)), sin (2 * (PI * f / fs))).
Proof. intros H. unfold on_circle. replace (2 * PI * f / fs) with (2 * (PI * f / fs)) by (field; exact H). reflexivity. Qed.

Lemma design_ok num d1 d2 fs f : 0 < f -> f < fs / 2 -> 0 < d1 -> 0 < d2 ->
  exists c, bilinear_transform num (1, d1, d2) fs f = Ok c /\ stable c /\
    has_value c (RtoC 1) (RtoC (snd num / d2)) /\
    has_value c (RtoC (-1)) (RtoC (fst (fst num))) /\
    (fs / 10000000 <= f -> analog (1, d1, d2) (0, 2 * PI * f) <> RtoC 0 ->
     has_value c (on_circle f fs) (Cdiv (analog num (0, 2 * PI * f)) (analog (1, d1, d2) (0, 2 * PI * f)))).
Proof.
  intros Hf Hfs H1 H2. destruct (half_angle f fs Hf Hfs) as (P & _ & S & C & _).
  pose proof (compute_K_pos f fs Hf Hfs) as HK.
  pose proof (digital_a0 num d1 d2 _ HK H1 H2) as HA.
  unfold bilinear_transform. rewrite Rltb_true by lra. rewrite Rleb_true by lra. rewrite Rltb_true by lra.
  cbn [ocheck]. fold (digital num (1, d1, d2) (compute_K f fs)).
  eexists. split; [reflexivity|].
  split; [apply normalize_stable; [lra|]; now apply digital_stable|].
  split; [apply normalize_value; [lra|]; apply (value_at_dc num (1, d1, d2)); cbn; lra|].
  split.
  - apply normalize_value; [lra|].
    pose proof (value_at_nyquist num (1, d1, d2) (compute_K f fs)) as V. cbn [fst] in V.
    replace (fst (fst num) / 1) with (fst (fst num)) in V by field. apply V; lra.
  - intros Hm HD. apply normalize_value; [lra|]. rewrite on_circle_half by lra.
    apply value_at_match; [now apply compute_K_match|lra|exact HD].
Qed.

Lemma analog_at_w w q : 0 < w -> 0 < q ->
  analog (1, w / q, w * w) (0, w) = (0, w * w / q) /\ analog (1, w / q, w * w) (0, w) <> RtoC 0.
Proof.
  intros Hw Hq. assert (E : analog (1, w / q, w * w) (0, w) = (0, w * w / q)).
  { unfold analog. cbn [fst snd]. apply injective_projections; cbn; field; lra. }
  split; [exact E|]. rewrite E. apply pair_neq_r.
  assert (0 < w * w / q) by (apply Rdiv_lt_0_compat; nra). lra.
Qed.

Lemma check_arguments_ok {A} fs f q (k : outcome A) : 0 < f -> f < fs / 2 -> 0 < q -> check_arguments fs f q k = k.
Proof. intros. unfold check_arguments. rewrite !Rltb_true by lra. reflexivity. Qed.
Lemma check_arguments_inv {A} fs f q (k : outcome A) c : check_arguments fs f q k = Ok c ->
  0 < f /\ f < fs / 2 /\ 0 < q /\ k = Ok c.
Proof.
  unfold check_arguments. destruct (Rltb_spec f (fs / 2)); [|discriminate].
  destruct (Rltb_spec 0 f); [|discriminate]. destruct (Rltb_spec 0 q); [|discriminate]. cbn. auto.
Qed.


Lemma w_pos f : 0 < f -> 0 < 2 * PI * f.
Proof. intros. pose proof PI_RGT_0. nra. Qed.

Lemma has_value_eq c z h k : has_value c z h -> h = k -> has_value c z k.
Proof. now intros H <-. Qed.

Ltac design num :=
  match goal with |- context [check_arguments ?fs ?f ?q _] =>
    intros (Hf & Hfs & Hq); pose proof (w_pos f Hf) as Hw;
    rewrite check_arguments_ok by assumption; cbv zeta;
    destruct (analog_at_w (2 * PI * f) q Hw Hq) as [EA NA];
    destruct (design_ok num (2 * PI * f / q) (2 * PI * f * (2 * PI * f)) fs f Hf Hfs) as (c & E & S & D & N & M);
      [apply Rdiv_lt_0_compat; lra|nra|]
  end.
Ltac value := match goal with
  | H : has_value ?c ?z ?h |- has_value ?c ?z ?k => apply (has_value_eq c z h k H) end.

Lemma lowpass_props fs f q : valid_design fs f q ->
  exists c, lowpass fs f q = Ok c /\ stable c /\ has_value c (RtoC 1) (RtoC 1) /\ has_value c (RtoC (-1)) (RtoC 0) /\
  (fs / 10000000 <= f -> has_value c (on_circle f fs) (0, - q)).
Proof.
  unfold lowpass. design (0, 0, 2 * PI * f * (2 * PI * f)).
  exists c. split; [exact E|]. split; [exact S|].
  split; [value; cbn [snd]; f_equal; field; split; [lra|apply PI_neq0]|]. split; [exact N|].
  intros Hm. specialize (M Hm NA). value. rewrite EA. unfold analog. cbn [fst snd].
  apply injective_projections; cbn; field; repeat split; try lra; apply PI_neq0.
Qed.

Lemma highpass_props fs f q : valid_design fs f q ->
  exists c, highpass fs f q = Ok c /\ stable c /\ has_value c (RtoC 1) (RtoC 0) /\ has_value c (RtoC (-1)) (RtoC 1) /\
  (fs / 10000000 <= f -> has_value c (on_circle f fs) (0, q)).
Proof.
  unfold highpass. design (1, 0, 0).
  exists c. split; [exact E|]. split; [exact S|].
  split; [value; cbn [snd]; f_equal; field; split; [lra|apply PI_neq0]|]. split; [exact N|].
  intros Hm. specialize (M Hm NA). value. rewrite EA. unfold analog. cbn [fst snd].
  apply injective_projections; cbn; field; repeat split; try lra; apply PI_neq0.
Qed.

Lemma bandpass_props fs f q : valid_design fs f q ->
  exists c, bandpass fs f q = Ok c /\ stable c /\ has_value c (RtoC 1) (RtoC 0) /\ has_value c (RtoC (-1)) (RtoC 0) /\
  (fs / 10000000 <= f -> has_value c (on_circle f fs) (RtoC 1)).
Proof.
  unfold bandpass. design (0, 2 * PI * f / q, 0).
  exists c. split; [exact E|]. split; [exact S|].
  split; [value; cbn [snd]; f_equal; field; split; [lra|apply PI_neq0]|]. split; [exact N|].
  intros Hm. specialize (M Hm NA). value. rewrite EA. unfold analog. cbn [fst snd].
  apply injective_projections; cbn; field; repeat split; try lra; apply PI_neq0.
Qed.

Lemma bandstop_props fs f q : valid_design fs f q ->
  exists c, bandstop fs f q = Ok c /\ stable c /\ has_value c (RtoC 1) (RtoC 1) /\ has_value c (RtoC (-1)) (RtoC 1) /\
  (fs / 10000000 <= f -> has_value c (on_circle f fs) (RtoC 0)).
Proof.
  unfold bandstop. design (1, 0, 2 * PI * f * (2 * PI * f)).
  exists c. split; [exact E|]. split; [exact S|].
  split; [value; cbn [snd]; f_equal; field; split; [lra|apply PI_neq0]|]. split; [exact N|].
  intros Hm. specialize (M Hm NA). value. rewrite EA. unfold analog. cbn [fst snd].
  apply injective_projections; cbn; field; repeat split; try lra; apply PI_neq0.
Qed.

Lemma peak_props fs f q g : valid_design fs f q -> 0 <= g ->
  exists c, peak fs f q g = Ok c /\ stable c /\ has_value c (RtoC 1) (RtoC 1) /\ has_value c (RtoC (-1)) (RtoC 1) /\
  (fs / 10000000 <= f -> has_value c (on_circle f fs) (RtoC g)).
Proof.
  unfold peak. intros HV Hg. revert HV. rewrite Rleb_true by exact Hg. cbn [ocheck].
  design (0 + 1, g * (2 * PI * f / q), 0 + 2 * PI * f * (2 * PI * f)).
  exists c. split; [exact E|]. split; [exact S|].
  split; [value; cbn [snd]; f_equal; field; split; [lra|apply PI_neq0]|].
  split; [value; cbn [fst]; f_equal; ring|].
  intros Hm. specialize (M Hm NA). value. rewrite EA. unfold analog. cbn [fst snd].
  apply injective_projections; cbn; field; repeat split; try lra; apply PI_neq0.
Qed.
