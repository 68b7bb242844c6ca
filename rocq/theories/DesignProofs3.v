From Verif Require Import Common RealUtil BiquadModel DesignModel DesignSpec DesignProofs DesignProofs2.
From Coquelicot Require Import Complex Derive Hierarchy ElemFct AutoDerive Continuity Rcomplements.
From Coq Require Import Psatz.
Local Open Scope R_scope.

Definition allpass_form (Q p : R) : coeffs R := normalize (digital (Q, - p, Q * (p * p)) (Q, p, Q * (p * p)) 1).

Lemma allpass_form_a0 Q p : 0 < Q -> 0 < p -> 0 < a0 (digital (Q, - p, Q * (p * p)) (Q, p, Q * (p * p)) 1).
Proof. intros. cbn. assert (0 < Q * (p * p)) by (apply Rmult_lt_0_compat; nra). lra. Qed.
Lemma allpass_form_stable Q p : 0 < Q -> 0 < p -> stable (allpass_form Q p).
Proof.
  intros HQ Hp. pose proof (allpass_form_a0 Q p HQ Hp) as HA. apply normalize_stable; [lra|].
  assert (0 < Q * (p * p)) by (apply Rmult_lt_0_compat; nra).
  apply jury; cbn; [lra|apply Rabs_def1; lra|lra|lra].
Qed.
Lemma allpass_form_value Q p h : 0 < Q -> 0 < p -> cos h <> 0 -> sin h <> 0 ->
  let t := tan h in
  has_value (allpass_form Q p) (cos (2 * h), sin (2 * h))
    (Cdiv (Q * (p * p - t * t), - (p * t)) (Q * (p * p - t * t), p * t)).
Proof.
  intros HQ Hp HC HS t. pose proof (allpass_form_a0 Q p HQ Hp) as HA.
  assert (T : t <> 0). { unfold t, tan. intros E. apply HS. apply (Rmult_eq_reg_r (/ cos h)); [|now apply Rinv_neq_0_compat]. unfold Rdiv in E. lra. }
  assert (D : (Q * (p * p - t * t), p * t) <> RtoC 0) by (apply pair_neq_r; nra).
  apply normalize_value; [lra|].
  assert (E1 : (Q * (p * p - t * t), p * t) = analog (Q, p, Q * (p * p)) (0, t)) by (unfold analog; cbn [fst snd]; creal).
  assert (E2 : (Q * (p * p - t * t), - (p * t)) = analog (Q, - p, Q * (p * p)) (0, t)) by (unfold analog; cbn [fst snd]; creal).
  rewrite E2, E1. apply value_at_match; [unfold t, tan; field; exact HC|exact HC|]. rewrite <- E1. exact D.
Qed.

Lemma Cmod_Cconj z : Cmod (Cconj z) = Cmod z.
Proof. unfold Cmod, Cconj. cbn. f_equal. ring. Qed.

(* unit magnitude for every mirrored polynomial *)
Lemma mirror_magnitude c : stable c -> b0 c = a2 c -> b1 c = a1 c -> b2 c = a0 c ->
  forall z h, Cmod z = 1 -> has_value c z h -> Cmod h = 1.
Proof.
  intros [_ HS] H0 H1 H2 z h Hz [HD HE]. rewrite <- HE.
  assert (U : fst z * fst z + snd z * snd z = 1).
  { assert (L : Cmod z * Cmod z = 1) by (rewrite Hz; ring). unfold Cmod in L. rewrite sqrt_sqrt in L; [|nra]. cbn in L. lra. }
  assert (N : numerator c z = Cmult (Cmult z z) (Cconj (denominator c z))).
  { unfold numerator, denominator. rewrite H0, H1, H2. destruct z as [x y]. cbn [fst snd] in U. apply injective_projections; cbn.
    - assert (U2 : (x * x + y * y) * (x * x + y * y) = 1) by (rewrite U; ring). rewrite <- (Rmult_1_r (a0 c)) at 1.
      transitivity (a2 c * (x * x - y * y) + a1 c * x * (x * x + y * y) + a0 c * ((x * x + y * y) * (x * x + y * y))); [rewrite U2, U; ring|ring].
    - transitivity (a2 c * (2 * (x * y)) + a1 c * y * (x * x + y * y)); [rewrite U; ring|ring]. }
  unfold Cdiv. rewrite N, !Cmod_mult, Hz, Cmod_Cconj, Cmod_inv by exact HD.
  rewrite !Rmult_1_l. apply Rinv_r. intros E. apply HD. now apply Cmod_eq_0.
Qed.

Lemma sin_full f fs : fs <> 0 -> sin (2 * PI * f / fs) = 2 * sin (PI * f / fs) * cos (PI * f / fs).
Proof. intros H. replace (2 * PI * f / fs) with (2 * (PI * f / fs)) by (field; exact H). apply sin_2a. Qed.

Lemma allpass_shape fs f phase delay : valid_allpass fs f phase delay ->
  let t := tan (PI * f / fs) in
  exists Q p, 0 < Q /\ 0 < p /\ allpass fs f phase delay = Ok (allpass_form Q p) /\ t * t - p * p <> 0 /\
    Q * (t * t - p * p) * sin phase = (1 + cos phase) * p * t /\
    (t * t + p * p) * sin phase = delay * fs * sin (2 * PI * f / fs) * (t * t - p * p).
Proof.
  intros (Hf & Hfs & Hph & Hs & Hd) t. fold (infimal_group_delay fs f phase) in Hd.
  destruct (half_angle f fs Hf Hfs) as (P & A & S & C & T). destruct (full_angle f fs Hf Hfs) as (S2 & _).
  fold t in T. set (st := sin (2 * PI * f / fs)) in *.
  assert (HI : 0 < infimal_group_delay fs f phase).
  { unfold infimal_group_delay. fold st. apply Rdiv_lt_0_compat; [|exact S2]. apply Rdiv_lt_0_compat; lra. }
  set (sp := sin phase) in *.
  assert (NS : sp <> 0). { intros E. rewrite E, Rabs_R0 in Hs. lra. }
  unfold allpass. rewrite !Rltb_true by (try lra; assumption). cbn [ocheck].
  assert (CH : check_allpass fs f phase delay = true).
  { unfold check_allpass. rewrite !Rltb_false; [apply Rleb_true; lra|fold sp; lra|lra]. }
  rewrite CH. cbn [ocheck]. cbv zeta. fold sp st.
  set (k := delay * fs * st / sp).
  assert (Hk : (0 < sp /\ 1 < k) \/ (sp < 0 /\ k < -1)).
  { unfold infimal_group_delay in Hd. fold st sp in Hd.
    assert (Hd' : Rabs sp < delay * fs * st).
    { apply (Rmult_lt_compat_r (fs * st)) in Hd; [|nra].
      replace (Rabs sp / fs / st * (fs * st)) with (Rabs sp) in Hd by (field; split; lra). lra. }
    assert (EK : k * sp = delay * fs * st) by (unfold k; field; exact NS).
    destruct (Rlt_dec 0 sp) as [L|L].
    - left. split; [exact L|]. rewrite Rabs_right in Hd' by lra. nra.
    - right. assert (sp < 0) by lra. split; [lra|]. rewrite Rabs_left in Hd' by lra. nra. }
  assert (NK : k + 1 <> 0) by (destruct Hk; lra).
  assert (E0 : forall x, x <> 0 -> Reqb x 0 = false) by (intros x Hx; destruct (Reqb_spec x 0); [contradiction|reflexivity]).
  rewrite (E0 _ NK). cbn [negb oguard].
  assert (HR : 0 < (k - 1) / (k + 1)).
  { destruct Hk as [[_ L]|[_ L]]; [apply Rdiv_lt_0_compat; lra|].
    replace ((k - 1) / (k + 1)) with ((1 - k) / (- 1 - k)) by (field; lra). apply Rdiv_lt_0_compat; lra. }
  set (r := (k - 1) / (k + 1)) in *.
  assert (Rk : r * (k + 1) = k - 1) by (unfold r; field; exact NK).
  set (wh := bilinear_prewarp f fs). assert (Ewh : wh = 2 * fs * t) by reflexivity.
  set (q := sqrt r). assert (Hq : 0 < q) by (apply sqrt_lt_R0; exact HR).
  assert (Qq : q * q = r) by (apply sqrt_sqrt; lra).
  set (p := t * q). assert (Hp : 0 < p) by (unfold p; nra).
  assert (Ew0 : wh * q = 2 * fs * p) by (rewrite Ewh; unfold p; ring).
  rewrite Ew0, Ewh.
  assert (R1 : (0 < sp /\ r < 1) \/ (sp < 0 /\ 1 < r)).
  { destruct Hk as [[L1 L2]|[L1 L2]]; [left|right]; split; try exact L1; nra. }
  assert (PP : p * p = t * t * r) by (unfold p; rewrite <- Qq; ring).
  assert (Ht2 : 0 < t * t) by nra.
  assert (DD : (0 < sp /\ 0 < t * t - p * p) \/ (sp < 0 /\ t * t - p * p < 0)).
  { rewrite PP. destruct R1 as [[L1 L2]|[L1 L2]]; [left|right]; split; try exact L1; nra. }
  assert (ND : t * t - p * p <> 0) by (destruct DD; lra).
  assert (W : 2 * fs * t * (2 * fs * t) - 2 * fs * p * (2 * fs * p) = 4 * (fs * fs) * (t * t - p * p)) by ring.
  rewrite W. assert (Hff : 0 < fs * fs) by nra.
  assert (NW : 4 * (fs * fs) * (t * t - p * p) <> 0) by (apply Rmult_integral_contrapositive; split; [lra|exact ND]).
  rewrite (E0 _ NW). cbn [negb oguard].
  set (Q := (1 + cos phase) * p * t / sp / (t * t - p * p)).
  assert (EQ : (1 + cos phase) / sp * (2 * fs * p) * (2 * fs * t) / (4 * (fs * fs) * (t * t - p * p)) = Q).
  { unfold Q. field. repeat split; try assumption; lra. }
  rewrite EQ.
  assert (Ep : 2 * fs * p / fs / 2 = p) by (field; lra). rewrite Ep.
  assert (C1 : 0 < 1 + cos phase).
  { pose proof (COS_bound phase) as [B _]. destruct (Req_dec (cos phase) (-1)) as [E|E]; [|lra].
    exfalso. apply NS. pose proof (sin2_cos2 phase) as U. unfold Rsqr in U. fold sp in U. rewrite E in U. nra. }
  assert (HQ : 0 < Q).
  { unfold Q. destruct DD as [[L1 L2]|[L1 L2]].
    - apply Rdiv_lt_0_compat; [|lra]. apply Rdiv_lt_0_compat; [|lra]. apply Rmult_lt_0_compat; [|lra]. now apply Rmult_lt_0_compat.
    - replace ((1 + cos phase) * p * t / sp / (t * t - p * p)) with ((1 + cos phase) * p * t / - sp / - (t * t - p * p)) by (field; split; lra).
      apply Rdiv_lt_0_compat; [|lra]. apply Rdiv_lt_0_compat; [|lra]. apply Rmult_lt_0_compat; [|lra]. now apply Rmult_lt_0_compat. }
  assert (HS' : 0 < Q * (p * p + 1) + p) by nra.
  rewrite (E0 (Q * (p * p + 1) + p)) by lra. cbn [negb oguard].
  exists Q, p. split; [exact HQ|]. split; [exact Hp|]. split; [|split; [exact ND|split]].
  - f_equal. unfold allpass_form, normalize, digital, make_coeffs, bilinear_map. cbn. f_equal; field; lra.
  - unfold Q. field. split; assumption.
  - rewrite PP. assert (EK : k * sp = delay * fs * st) by (unfold k; field; exact NS). rewrite <- EK.
    transitivity (t * t * sp * (1 + r)); [ring|]. transitivity (t * t * sp * (k * (1 - r))); [|ring]. f_equal. lra.
Qed.

Lemma atan_rotation g : Cdiv (1, - g) (1, g) = (cos (-2 * atan g), sin (-2 * atan g)).
Proof.
  assert (H : 1 + g * g <> 0) by nra.
  replace (-2 * atan g) with (- (2 * atan g)) by ring. rewrite cos_neg, sin_neg, cos_2a, sin_2a.
  assert (EC : cos (atan g) * cos (atan g) = 1 / (1 + g * g)).
  { rewrite cos_atan. unfold Rsqr. transitivity (1 / (sqrt (1 + g * g) * sqrt (1 + g * g))).
    - assert (0 < sqrt (1 + g * g)) by (apply sqrt_lt_R0; nra). field. lra.
    - rewrite sqrt_sqrt by nra. reflexivity. }
  assert (ES : sin (atan g) = g * cos (atan g)).
  { rewrite sin_atan, cos_atan. unfold Rdiv. ring. }
  rewrite ES. apply injective_projections; cbn.
  - transitivity ((1 - g * g) * (cos (atan g) * cos (atan g))); [rewrite EC; field; nra|ring].
  - transitivity (- (2 * g * (cos (atan g) * cos (atan g)))); [rewrite EC; field; nra|ring].
Qed.

Section Phase.
Variables (Q p fs : R).
Hypotheses (HQ : 0 < Q) (Hp : 0 < p) (Hfs : 0 < fs).
Let G (w : R) : R :=
  p * (sin (w / (2 * fs)) * cos (w / (2 * fs))) /
  (Q * (p * p * (cos (w / (2 * fs)) * cos (w / (2 * fs))) - sin (w / (2 * fs)) * sin (w / (2 * fs)))).

Lemma allpass_phase_value w : let h := w / (2 * fs) in sin h <> 0 -> cos h <> 0 ->
  p * p * (cos h * cos h) - sin h * sin h <> 0 ->
  has_value (allpass_form Q p) (cos (w / fs), sin (w / fs)) (cos (-2 * atan (G w)), sin (-2 * atan (G w))).
Proof.
  intros h Hs Hc HD. pose proof (allpass_form_value Q p h HQ Hp Hc Hs) as V. cbv zeta in V.
  replace (2 * h) with (w / fs) in V by (unfold h; field; lra).
  refine (has_value_eq _ _ _ _ V _). rewrite <- atan_rotation.
  set (t := tan h) in *. assert (Et : t * cos h = sin h) by (unfold t, tan; field; exact Hc).
  assert (X : p * p - t * t <> 0).
  { intros E. apply HD. rewrite <- Et. transitivity ((p * p - t * t) * (cos h * cos h)); [ring|]. rewrite E. ring. }
  assert (EG : G w = p * t / (Q * (p * p - t * t))).
  { unfold G. fold h. rewrite <- Et. field. repeat split; try assumption; [lra|].
    rewrite <- Et in HD. intros E. apply HD. lra. }
  rewrite EG. set (u := Q * (p * p - t * t)).
  assert (U : u <> 0) by (unfold u; apply Rmult_integral_contrapositive; split; [lra|exact X]).
  assert (u * u + (p * t) * (p * t) <> 0) by nra.
  unfold Cdiv, Cinv. apply injective_projections; cbn; field; repeat split; try assumption; nra.
Qed.

Lemma allpass_phase_derive w : let s := sin (w / (2 * fs)) in let c := cos (w / (2 * fs)) in
  p * p * (c * c) - s * s <> 0 ->
  is_derive (fun w => -2 * atan (G w)) w
    (-2 / (1 + G w * G w) * (p * (p * p * (c * c) + s * s) / (2 * fs * Q * ((p * p * (c * c) - s * s) * (p * p * (c * c) - s * s))))).
Proof.
  intros s c HD.
  assert (DG : is_derive G w (p * (p * p * (c * c) + s * s) / (2 * fs * Q * ((p * p * (c * c) - s * s) * (p * p * (c * c) - s * s))))).
  { unfold G. auto_derive.
    - change (cos (w * / (2 * fs))) with c. change (sin (w * / (2 * fs))) with s.
      try (split; [|exact I]). apply Rmult_integral_contrapositive; split; [lra|].
      exact HD.
    - change (w * / (2 * fs)) with (w / (2 * fs)). fold s c.
      assert (U : s * s + c * c = 1) by (unfold s, c; pose proof (sin2_cos2 (w / (2 * fs))) as U; unfold Rsqr in U; exact U).
      assert (N1 : p * p * (c * c) + - (s * s) <> 0) by (intros E; apply HD; lra).
      clearbody s c.
      transitivity (p * ((p * p * (c * c) + s * s) * (s * s + c * c)) / (2 * fs * Q * ((p * p * (c * c) - s * s) * (p * p * (c * c) - s * s)))).
      + field. repeat split; try assumption; try lra; intros E; apply HD; lra.
      + rewrite U, Rmult_1_r. reflexivity. }
  replace (-2 / (1 + G w * G w) * (p * (p * p * (c * c) + s * s) / (2 * fs * Q * ((p * p * (c * c) - s * s) * (p * p * (c * c) - s * s)))))
    with (scal (-2) (scal (p * (p * p * (c * c) + s * s) / (2 * fs * Q * ((p * p * (c * c) - s * s) * (p * p * (c * c) - s * s)))) (/ (1 + Rsqr (G w))))).
  - apply (is_derive_scal (fun w => atan (G w))). apply (is_derive_comp atan G); [apply is_derive_atan|exact DG].
  - unfold scal; cbn; unfold mult; cbn. unfold Rdiv, Rsqr. ring.
Qed.
End Phase.

Lemma continuous_nonzero_locally (F : R -> R) x : continuous F x -> F x <> 0 -> locally x (fun w => F w <> 0).
Proof.
  intros HC HN. destruct (Rdichotomy _ _ HN) as [L|L].
  - apply (filter_imp (fun w => F w < 0)); [intros y Hy; lra|].
    apply (HC (fun y => y < 0)). apply (open_lt 0). exact L.
  - apply (filter_imp (fun w => 0 < F w)); [intros y Hy; lra|].
    apply (HC (fun y => 0 < y)). apply (open_gt 0). exact L.
Qed.
Lemma derive_continuous (F : R -> R) x : ex_derive F x -> continuous F x.
Proof. intros H. apply (ex_derive_continuous F x H). Qed.

Lemma allpass_props fs f phase delay : valid_allpass fs f phase delay ->
  exists c, allpass fs f phase delay = Ok c /\ stable c /\
    (forall z, Cmod z = 1 -> exists h, has_value c z h /\ Cmod h = 1) /\
    has_value c (on_circle f fs) (cos phase, sin phase) /\
    phase_at c fs (2 * PI * f) phase (- delay).
Proof.
  intros HV. destruct (allpass_shape fs f phase delay HV) as (Q & p & HQ & Hp & E & ND & EQ & ED).
  destruct HV as (Hf & Hfs & _ & Hs & _).
  destruct (half_angle f fs Hf Hfs) as (P & A & S & C & T). destruct (full_angle f fs Hf Hfs) as (S2 & _).
  set (t := tan (PI * f / fs)) in *.
  set (w := 2 * PI * f). assert (EH : w / (2 * fs) = PI * f / fs) by (unfold w; field; lra).
  assert (Et : t * cos (PI * f / fs) = sin (PI * f / fs)) by (unfold t, tan; field; lra).
  set (c := cos (PI * f / fs)) in *. set (s := sin (PI * f / fs)) in *.
  assert (ES : sin (2 * PI * f / fs) = 2 * s * c) by (apply sin_full; lra).
  assert (NS : sin phase <> 0). { intros E0. rewrite E0, Rabs_R0 in Hs. lra. }
  assert (U : s * s + c * c = 1) by (unfold s, c; pose proof (sin2_cos2 (PI * f / fs)) as U; unfold Rsqr in U; exact U).
  assert (UP : sin phase * sin phase + cos phase * cos phase = 1) by (pose proof (sin2_cos2 phase) as V; unfold Rsqr in V; exact V).
  assert (C1 : 0 < 1 + cos phase).
  { pose proof (COS_bound phase) as [B _]. destruct (Req_dec (cos phase) (-1)) as [E0|E0]; [|lra].
    exfalso. apply NS. rewrite E0 in UP. nra. }
  set (d := t * t - p * p) in *.
  assert (ND' : p * p * (c * c) - s * s = - (d * (c * c))) by (unfold d; rewrite <- Et; ring).
  assert (NC : c * c <> 0) by nra.
  assert (NDc : p * p * (c * c) - s * s <> 0).
  { rewrite ND'. apply Ropp_neq_0_compat. apply Rmult_integral_contrapositive. split; assumption. }
  assert (Q1 : Q = (1 + cos phase) * p * t / (d * sin phase)).
  { apply (Rmult_eq_reg_r (d * sin phase)); [|apply Rmult_integral_contrapositive; split; assumption].
    transitivity (Q * d * sin phase); [ring|]. rewrite EQ. field. split; assumption. }
  set (G := p * (s * c) / (Q * (p * p * (c * c) - s * s))).
  assert (EG : G = - (sin phase / (1 + cos phase))).
  { unfold G. rewrite ND', Q1. rewrite <- Et. field. repeat split; lra || assumption || nra. }
  assert (E2 : 1 + G * G = 2 / (1 + cos phase)).
  { rewrite EG. transitivity (((1 + cos phase) * (1 + cos phase) + sin phase * sin phase) / ((1 + cos phase) * (1 + cos phase))); [field; lra|].
    replace (sin phase * sin phase) with (1 - cos phase * cos phase) by lra. field. lra. }
  assert (RG : Cdiv (1, - G) (1, G) = (cos phase, sin phase)).
  { assert (NG : 1 + G * G <> 0) by (rewrite E2; apply Rgt_not_eq; apply Rdiv_lt_0_compat; lra).
    unfold Cdiv, Cinv. apply injective_projections; cbn.
    - transitivity ((1 - G * G) / (1 + G * G)); [field; repeat split; intros X; apply NG; lra|]. rewrite E2, EG.
      transitivity (((1 + cos phase) * (1 + cos phase) - sin phase * sin phase) / (2 * (1 + cos phase))); [field; lra|].
      replace (sin phase * sin phase) with ((1 - cos phase) * (1 + cos phase)) by lra. field. lra.
    - transitivity (- 2 * G / (1 + G * G)); [field; repeat split; intros X; apply NG; lra|]. rewrite E2, EG. field. lra. }
  assert (ST : stable (allpass_form Q p)) by (apply allpass_form_stable; assumption).
  pose proof (allpass_phase_value Q p fs HQ Hp P w) as PV. cbv beta zeta in PV. rewrite EH in PV. fold s c G in PV.
  assert (VAL : has_value (allpass_form Q p) (cos (w / fs), sin (w / fs)) (cos (-2 * atan G), sin (-2 * atan G))).
  { apply PV; lra. }
  exists (allpass_form Q p). split; [exact E|]. split; [exact ST|]. split; [|split].
  - intros z Hz. assert (ND0 : denominator (allpass_form Q p) z <> RtoC 0).
    { intros E0. apply (proj2 ST) in E0. lra. }
    eexists. split; [split; [exact ND0|reflexivity]|].
    pose proof (allpass_form_a0 Q p HQ Hp) as HA. cbn in HA.
    apply (mirror_magnitude (allpass_form Q p) ST) with (z := z); [..|exact Hz|split; [exact ND0|reflexivity]];
      cbn; unfold Rdiv; f_equal; ring.
  - refine (has_value_eq _ _ _ _ VAL _). rewrite <- atan_rotation. exact RG.
  - exists (fun w => -2 * atan (p * (sin (w / (2 * fs)) * cos (w / (2 * fs))) /
  (Q * (p * p * (cos (w / (2 * fs)) * cos (w / (2 * fs))) - sin (w / (2 * fs)) * sin (w / (2 * fs)))))).
    rewrite atan_rotation in RG. injection RG as RG1 RG2.
    split; [|split; [|split]].
    + assert (L1 : locally w (fun w => sin (w / (2 * fs)) <> 0)).
      { apply continuous_nonzero_locally; [apply derive_continuous; auto_derive; lra|rewrite EH; fold s; lra]. }
      assert (L2 : locally w (fun w => cos (w / (2 * fs)) <> 0)).
      { apply continuous_nonzero_locally; [apply derive_continuous; auto_derive; lra|rewrite EH; fold c; lra]. }
      assert (L3 : locally w (fun w => p * p * (cos (w / (2 * fs)) * cos (w / (2 * fs))) - sin (w / (2 * fs)) * sin (w / (2 * fs)) <> 0)).
      { apply (continuous_nonzero_locally (fun w => p * p * (cos (w / (2 * fs)) * cos (w / (2 * fs))) - sin (w / (2 * fs)) * sin (w / (2 * fs)))).
        - apply derive_continuous. auto_derive. exact I.
        - rewrite EH. exact NDc. }
      generalize (filter_and _ _ L1 (filter_and _ _ L2 L3)). apply filter_imp.
      intros y (Y1 & Y2 & Y3). now apply allpass_phase_value.
    + rewrite EH. exact RG1.
    + rewrite EH. exact RG2.
    + pose proof (allpass_phase_derive Q p fs HQ P w) as PD. cbv beta zeta in PD. rewrite EH in PD. fold s c G in PD.
      specialize (PD NDc). refine (eq_ind _ (fun v => is_derive _ w v) PD _ _).
      rewrite E2, ND', Q1.
      assert (EN : p * p * (c * c) + s * s = (t * t + p * p) * (c * c)) by (rewrite <- Et; ring).
      rewrite EN. rewrite ES in ED.
      assert (ED' : t * t + p * p = delay * fs * (2 * (t * c) * c) * d / sin phase).
      { rewrite Et. rewrite <- ED. field. exact NS. }
      rewrite ED'. match goal with |- ?a = ?b => change (@eq R a b) end. field. repeat split; lra || assumption || nra.
Qed.

(* The minimal group delay is accepted by the check only if it is attained; at exactly the
   infimum the coefficients are 0/0. *)
Lemma allpass_infimum_degenerate fs f phase : 0 < f -> f < fs / 2 -> / 100000 < Rabs phase -> / 100000 < Rabs (sin phase) ->
  check_allpass fs f phase (infimal_group_delay fs f phase) = true /\
  allpass fs f phase (infimal_group_delay fs f phase) = Undef.
Proof.
  intros Hf Hfs Hph Hs. destruct (full_angle f fs Hf Hfs) as (S2 & _). assert (P : 0 < fs) by lra.
  set (d := infimal_group_delay fs f phase).
  assert (HI : 0 < d).
  { unfold d, infimal_group_delay. apply Rdiv_lt_0_compat; [|exact S2]. apply Rdiv_lt_0_compat; lra. }
  assert (CH : check_allpass fs f phase d = true).
  { unfold check_allpass. rewrite !Rltb_false; [apply Rleb_true; unfold d; lra|lra|lra]. }
  split; [exact CH|]. unfold allpass. rewrite !Rltb_true by lra. rewrite CH. cbn [ocheck]. cbv zeta.
  assert (EK : d * fs * sin (2 * PI * f / fs) = Rabs (sin phase)) by (unfold d, infimal_group_delay; field; split; lra).
  rewrite EK.
  assert (NS : sin phase <> 0). { intros E0. rewrite E0, Rabs_R0 in Hs. lra. }
  destruct (Rlt_dec 0 (sin phase)) as [L|L].
  - rewrite Rabs_right by lra. replace (sin phase / sin phase) with 1 by (field; exact NS).
    destruct (Reqb_spec (1 + 1) 0); [lra|]. cbn [negb oguard].
    replace ((1 - 1) / (1 + 1)) with 0 by field. rewrite sqrt_0, Rmult_0_r.
    destruct (Reqb_spec (bilinear_prewarp f fs * bilinear_prewarp f fs - 0 * 0) 0); cbn [negb oguard]; [reflexivity|].
    match goal with |- oguard (negb (Reqb ?x 0)) _ = _ => replace x with 0 end.
    + destruct (Reqb_spec 0 0); [reflexivity|lra].
    + unfold Rdiv. ring.
  - rewrite Rabs_left by lra. replace (- sin phase / sin phase) with (-1) by (field; exact NS).
    destruct (Reqb_spec (-1 + 1) 0); [reflexivity|lra].
Qed.

(* tan x > x, so without prewarping the centre moves *)
Lemma tan_gt x : 0 < x -> x < PI / 2 -> x < tan x.
Proof.
  intros H0 H1. assert (C : 0 < cos x) by (apply cos_gt_0; lra).
  assert (D : forall y, is_derive (fun y => sin y - y * cos y) y (y * sin y)) by (intros y; auto_derive; [exact I|ring]).
  assert (P : 0 < sin x - x * cos x).
  { destruct (MVT_gen (fun y => sin y - y * cos y) 0 x (fun y => y * sin y)) as (y & Hy & E).
    - intros y _. apply D.
    - intros y _. apply continuity_pt_filterlim. apply (ex_derive_continuous (fun y => sin y - y * cos y)).
      exists (y * sin y). apply D.
    - rewrite Rmin_left, Rmax_right in Hy by lra. rewrite sin_0 in E.
      assert (NN : sin x - x * cos x = y * sin y * x) by lra. 
      destruct (Req_dec y 0) as [Y0|Y0].
      + (* the mean point cannot be 0: use the second half *)
        exfalso. subst y. rewrite Rmult_0_l, Rmult_0_l in NN.
        pose proof (sin_lt_x x H0).
        destruct (MVT_gen (fun y => sin y - y * cos y) 0 (x / 2) (fun y => y * sin y)) as (y1 & Hy1 & E1);
          [intros; apply D|intros y _; apply continuity_pt_filterlim; apply (ex_derive_continuous (fun y => sin y - y * cos y)); exists (y * sin y); apply D|].
        destruct (MVT_gen (fun y => sin y - y * cos y) (x / 2) x (fun y => y * sin y)) as (y2 & Hy2 & E2);
          [intros; apply D|intros y _; apply continuity_pt_filterlim; apply (ex_derive_continuous (fun y => sin y - y * cos y)); exists (y * sin y); apply D|].
        rewrite Rmin_left, Rmax_right in Hy1 by lra. rewrite Rmin_left, Rmax_right in Hy2 by lra. rewrite sin_0 in E1.
        assert (0 <= sin y1) by (apply sin_ge_0; lra). assert (0 < sin y2) by (apply sin_gt_0; lra).
        assert (0 <= y1 * sin y1) by nra. assert (0 < y2 * sin y2) by nra.
        assert (0 < y2 * sin y2 * (x - x / 2)) by (apply Rmult_lt_0_compat; lra).
        assert (0 <= y1 * sin y1 * (x / 2 - 0)) by (apply Rmult_le_pos; lra). lra.
      + assert (0 < y) by lra. assert (0 < sin y) by (apply sin_gt_0; lra).
        assert (0 < y * sin y) by nra. rewrite NN. apply Rmult_lt_0_compat; lra. }
  unfold tan. apply (Rmult_lt_reg_r (cos x)); [exact C|]. replace (sin x / cos x * cos x) with (sin x) by (field; lra). lra.
Qed.

Lemma bandpass_low_centre fs f q c : 0 < f -> f < fs * / 10000000 -> 0 < q -> bandpass fs f q = Ok c ->
  ~ has_value c (on_circle f fs) (RtoC 1).
Proof.
  intros Hf Hl Hq H [HD HE].
  assert (Hfs : f < fs / 2) by lra.
  destruct (half_angle f fs Hf Hfs) as (P & A & S & C & T).
  unfold bandpass in H. apply check_arguments_inv in H. destruct H as (_ & _ & _ & H).
  unfold bilinear_transform in H. rewrite Rltb_true in H by lra. rewrite Rleb_true in H by lra. rewrite Rltb_true in H by lra.
  cbn [ocheck] in H. cbv zeta in H.
  assert (EK : compute_K f fs = 2 * fs) by (unfold compute_K; rewrite Rltb_true by lra; reflexivity).
  set (w := 2 * PI * f) in *. assert (HW : 0 < w) by (apply w_pos; exact Hf).
  fold (digital (0, w / q, 0) (1, w / q, w * w) (compute_K f fs)) in H. rewrite EK in H.
  assert (H' : c = normalize (digital (0, w / q, 0) (1, w / q, w * w) (2 * fs))) by congruence. clear H. subst c.
  set (c := digital (0, w / q, 0) (1, w / q, w * w) (2 * fs)) in *.
  assert (HB : 0 < w / q) by (apply Rdiv_lt_0_compat; lra).
  assert (HA : 0 < a0 c) by (apply digital_a0; [lra|exact HB|nra]).
  set (v := 2 * fs * tan (PI * f / fs)).
  assert (HV : w < v).
  { unfold v, w. pose proof (tan_gt (PI * f / fs)) as TG. apply (Rmult_lt_compat_l (2 * fs)) in TG; [|lra|lra|lra].
    replace (2 * fs * (PI * f / fs)) with (2 * PI * f) in TG by (field; lra). exact TG. }
  assert (HDV : analog (1, w / q, w * w) (0, v) <> RtoC 0).
  { unfold analog. cbn [fst snd]. intros E. apply (f_equal snd) in E. cbn in E. nra. }
  pose proof (value_at_match (0, w / q, 0) (1, w / q, w * w) (2 * fs) v (PI * f / fs)) as V.
  assert (V0 : 2 * fs * sin (PI * f / fs) = v * cos (PI * f / fs)) by (unfold v, tan; field; lra).
  specialize (V V0 ltac:(lra) HDV). fold c in V. rewrite <- on_circle_half in V by lra.
  assert (HA0 : a0 c <> 0) by lra.
  destruct (normalize_value c _ _ HA0 V) as [_ V2]. rewrite V2 in HE.
  assert (X : analog (0, w / q, 0) (0, v) = analog (1, w / q, w * w) (0, v)).
  { transitivity (Cmult (Cdiv (analog (0, w / q, 0) (0, v)) (analog (1, w / q, w * w) (0, v))) (analog (1, w / q, w * w) (0, v))).
    - field. exact HDV.
    - rewrite HE. ring. }
  unfold analog in X. cbn [fst snd] in X. apply (f_equal fst) in X. cbn in X. nra.
Qed.
