From Verif Require Import Common ListLemmas RealUtil BiquadModel DesignModel DesignSpec DesignProofs DesignProofs3 CascadeModel CascadeSpec CascadeProofs2 ComplexModel PoleZeroModel PoleZeroSpec PoleZeroProofs PoleZeroProofs4 PoleZeroProofs6 PoleZeroProofs7 LadderModel MultiCrossModel MultiCrossSpec MultiCrossProofs MultiCrossProofs2 MultiCrossProofs3 MultiCrossProofs4 MultiCrossProofs6 MultiCrossProofs7.
From Coquelicot Require Import Complex.
Local Open Scope R_scope.

Lemma cos_3PI4' : cos (PI - PI / 4) = - / sqrt 2 /\ sin (PI - PI / 4) = / sqrt 2.
Proof. rewrite Rtrigo_facts.cos_pi_minus, Rtrigo_facts.sin_pi_minus, cos_PI4, sin_PI4. split; unfold Rdiv; ring. Qed.
Lemma cos_2PI3' : cos (PI - PI / 3) = - (1 / 2) /\ sin (PI - PI / 3) = sqrt 3 / 2.
Proof. rewrite Rtrigo_facts.cos_pi_minus, Rtrigo_facts.sin_pi_minus, cos_PI3, sin_PI3. split; reflexivity. Qed.
Lemma butterworth_2 W : analog_value (butterworth 2) (0, W) (Cinv (1 - W * W, sqrt 2 * W)).
Proof.
  assert (R2 : 0 < sqrt 2) by (apply sqrt_lt_R0; lra). pose proof (sqrt_sqrt 2 ltac:(lra)) as S2.
  assert (E : product_over (fun p => Cminus (0, W) p) (poles (butterworth 2)) = (1 - W * W, sqrt 2 * W)).
  { unfold poles, roots. cbn [butterworth lone_poles paired_poles Nat.odd Nat.even negb Nat.div2 seq map app product_over]. unfold pole_angle. cbn [Nat.odd Nat.even negb].
    match goal with |- context [PoleZeroProofs6.cis ?a] => replace a with (PI - PI / 4) by (cbn [INR]; field) end. unfold PoleZeroProofs6.cis. destruct cos_3PI4' as [-> ->]. set (q := / sqrt 2). assert (Q : q * q = 1 / 2). { unfold q. rewrite <- Rinv_mult, S2. lra. }
    assert (QS : sqrt 2 = 2 * q) by (unfold q; rewrite <- S2 at 2; field; lra). rewrite QS. clearbody q. clear QS.
    apply injective_projections; cbn; [|ring]. match goal with |- ?l = _ => transitivity (q * q + q * q - W * W); [ring|lra] end. }
  split; [rewrite E|rewrite E; unfold zeros, roots; cbn [butterworth lone_zeros paired_zeros map app product_over pz_gain]].
  - intros X. pose proof (f_equal fst X) as X1. pose proof (f_equal snd X) as X2. cbn in X1, X2. assert (W = 0) by nra. subst W. lra.
  - unfold Cdiv. ring.
Qed.
Lemma butterworth_3 W : analog_value (butterworth 3) (0, W) (Cinv (Cmult (1, W) (1 - W * W, W))).
Proof.
  pose proof (sqrt_sqrt 3 ltac:(lra)) as S3.
  assert (E : product_over (fun p => Cminus (0, W) p) (poles (butterworth 3)) = Cmult (1, W) (1 - W * W, W)).
  { unfold poles, roots. cbn [butterworth lone_poles paired_poles Nat.odd Nat.even negb Nat.div2 seq map app product_over]. unfold pole_angle. cbn [Nat.odd Nat.even negb].
    match goal with |- context [PoleZeroProofs6.cis ?a] => replace a with (PI - PI / 3) by (cbn [INR]; field) end. unfold PoleZeroProofs6.cis. destruct cos_2PI3' as [-> ->]. set (q := sqrt 3) in *. clearbody q.
    assert (Q : product_over (fun p => Cminus (0, W) p) ((- (1 / 2), q / 2) :: Cconj (- (1 / 2), q / 2) :: nil) = (1 - W * W, W)).
    { cbn [product_over]. apply injective_projections; cbn; [|field]. match goal with |- ?l = _ => transitivity (1 / 4 + q * q / 4 - W * W); [field|lra] end. }
    cbn [product_over] in Q. rewrite Q. f_equal. apply injective_projections; cbn; ring. }
  split; [rewrite E|rewrite E; unfold zeros, roots; cbn [butterworth lone_zeros paired_zeros map app product_over pz_gain]].
  - apply Cmult_neq.
    + intros X. apply (f_equal fst) in X. cbn in X. lra.
    + intros X. pose proof (f_equal fst X) as X1. pose proof (f_equal snd X) as X2. cbn in X1, X2. subst W. lra.
  - unfold Cdiv. ring.
Qed.
(* the phase of the square of the inverse *)
Lemma inverse_square x y : x * x + y * y <> 0 -> let h := Cinv (x, y) in Rabs (snd (Cmult h h)) / Cmod (Cmult h h) = Rabs (2 * x * y) / (x * x + y * y).
Proof.
  intros N h. assert (P : 0 < x * x + y * y) by nra. set (r := x * x + y * y) in *.
  assert (E : Cmult h h = ((x * x - y * y) / (r * r), - (2 * x * y) / (r * r))).
  { unfold h, Cinv. cbn [fst snd]. replace (x ^ 2 + y ^ 2) with r by (unfold r; ring). apply injective_projections; cbn; field; exact N. }
  assert (M : Cmod (Cmult h h) = / r).
  { rewrite Cmod_mult. assert (HN : (x, y) <> RtoC 0) by (intros X; injection X as -> ->; apply N; unfold r; ring). unfold h. rewrite Cmod_inv by exact HN. rewrite <- Rinv_mult. f_equal. unfold Cmod. cbn [fst snd]. rewrite sqrt_sqrt by nra. unfold r. ring. }
  rewrite M, E. cbn [snd]. unfold Rdiv at 2. rewrite Rabs_mult, Rabs_Ropp, Rabs_inv, (Rabs_pos_eq (r * r)) by nra. field. exact N.
Qed.
Lemma order_4 W : let h := Cinv (1 - W * W, sqrt 2 * W) in Rabs (snd (Cmult h h)) / Cmod (Cmult h h) = 2 * sqrt 2 * Rabs W * Rabs (1 - W * W) / (1 + W ^ 4).
Proof.
  assert (R2 : 0 < sqrt 2) by (apply sqrt_lt_R0; lra). pose proof (sqrt_sqrt 2 ltac:(lra)) as S2. cbv zeta.
  assert (Q : (1 - W * W) * (1 - W * W) + sqrt 2 * W * (sqrt 2 * W) = 1 + W ^ 4) by (replace (sqrt 2 * W * (sqrt 2 * W)) with (sqrt 2 * sqrt 2 * (W * W)) by ring; rewrite S2; ring).
  assert (P : 0 < 1 + W ^ 4) by (assert (0 <= (W ^ 2) ^ 2) by apply pow2_ge_0; replace (W ^ 4) with ((W ^ 2) ^ 2) by ring; lra).
  rewrite inverse_square by (rewrite Q; lra). rewrite Q. f_equal. replace (2 * (1 - W * W) * (sqrt 2 * W)) with (2 * sqrt 2 * (W * (1 - W * W))) by ring. rewrite !Rabs_mult, (Rabs_pos_eq 2), (Rabs_pos_eq (sqrt 2)) by lra. ring.
Qed.
Lemma order_6 : let W := / sqrt 2 in let h := Cinv (Cmult (1, W) (1 - W * W, W)) in Rabs (snd (Cmult h h)) / Cmod (Cmult h h) = 0.
Proof.
  intros W. assert (R2 : 0 < sqrt 2) by (apply sqrt_lt_R0; lra). pose proof (sqrt_sqrt 2 ltac:(lra)) as S2. assert (W2 : W * W = 1 / 2) by (unfold W; rewrite <- Rinv_mult, S2; lra). assert (WP : 0 < W) by (unfold W; now apply Rinv_0_lt_compat). clearbody W.
  replace (Cmult (1, W) (1 - W * W, W)) with (0, 3 / 2 * W) by (apply injective_projections; cbn; rewrite W2; lra). cbv zeta. rewrite inverse_square by nra. replace (2 * 0 * (3 / 2 * W)) with 0 by ring. rewrite Rabs_R0. unfold Rdiv. ring.
Qed.
(* frequencies given by their bilinear image *)
Definition at_tan (fs t : R) : R := fs / PI * atan t.
Lemma at_tan_ok fs t : 0 < fs -> 0 < t -> tan (PI * at_tan fs t / fs) = t /\ 0 < at_tan fs t /\ at_tan fs t < fs / 2.
Proof.
  intros F T. pose proof PI_RGT_0 as P. unfold at_tan. split.
  - replace (PI * (fs / PI * atan t) / fs) with (atan t) by (field; lra). apply tan_atan.
  - destruct (atan_bound t) as [_ B]. assert (A : 0 < atan t) by (rewrite <- atan_0; now apply atan_increasing). assert (FP : 0 < fs / PI) by (apply Rdiv_lt_0_compat; lra). split; [nra|]. apply Rlt_le_trans with (fs / PI * (PI / 2)); [nra|]. right. field. lra.
Qed.
Lemma at_tan_lt fs t t' : 0 < fs -> t < t' -> at_tan fs t < at_tan fs t'.
Proof. intros F T. pose proof PI_RGT_0 as P. unfold at_tan. apply Rmult_lt_compat_l; [apply Rdiv_lt_0_compat; lra|now apply atan_increasing]. Qed.
Lemma fine_at n fs t : 0 < fs -> 1 / 100 <= t <= 1 -> (n = 1 \/ n = 2 \/ n = 3)%nat -> t <= 99 / 100 \/ t = 1 -> fine_crossover n fs (at_tan fs t).
Proof.
  intros F [T1 T2] N C. destruct (at_tan_ok fs t F ltac:(lra)) as [E _]. unfold fine_crossover, lowpass_gain, highpass_gain, lone_clear. rewrite E.
  assert (B2 : (1 + t) ^ 2 <= 2 ^ 2) by (apply pow_incr; lra). assert (B3 : (1 + t) ^ 3 <= 2 ^ 3) by (apply pow_incr; lra).
  assert (L2 : (1 / 100) ^ 2 <= t ^ 2) by (apply pow_incr; lra). assert (L3 : (1 / 100) ^ 3 <= t ^ 3) by (apply pow_incr; lra).
  split; [|split].
  - destruct N as [-> |[-> | ->]]; cbn [Nat.max]; lra.
  - destruct N as [-> |[-> | ->]]; cbn [Nat.max]; lra.
  - intros _. destruct C as [C|C]; [right|now left]. rewrite Rabs_pos_eq by lra. lra.
Qed.
