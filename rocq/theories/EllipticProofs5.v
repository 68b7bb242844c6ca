(* Small arguments, and the accuracy of the functions. *)
From Coq Require Import ZArith Reals Lra Lia List Bool.
From Coquelicot Require Import Coquelicot.
From Verif Require Import Common RealUtil CInt ComplexModel ComplexProofs EllipticModel EllipticSpec EllipticProofs EllipticProofs2 EllipticProofs3 EllipticProofs4.
Import ListNotations.
Local Open Scope R_scope.

Lemma sin_lower x : 0 <= x <= 1 -> x - x * x * x / 6 <= sin x.
Proof. intros H. destruct (pre_sin_bound x 0) as [A _]; [lra|lra|]. unfold sin_approx, sin_term in A. cbn [sum_f_R0 Nat.mul Nat.add pow] in A. cbn [fact Nat.mul Nat.add INR] in A. lra. Qed.
Lemma inv_sqrt_series z : 0 <= z <= 1 / 2 -> 1 + z / 2 <= / sqrt (1 - z) <= 1 + z / 2 + z * z.
Proof.
  intros Z. assert (P : 0 < sqrt (1 - z)) by (apply sqrt_lt_R0; lra). assert (Q : sqrt (1 - z) * sqrt (1 - z) = 1 - z) by (apply sqrt_sqrt; lra).
  set (s := sqrt (1 - z)) in *. clearbody s. assert (U : s * (1 + z / 2) <= 1).
  { destruct (Rle_dec (s * (1 + z / 2)) 1) as [L|N]; [exact L|exfalso]. assert (1 < s * (1 + z / 2) * (s * (1 + z / 2))) as B by nra.
    replace (s * (1 + z / 2) * (s * (1 + z / 2))) with (s * s * ((1 + z / 2) * (1 + z / 2))) in B by ring. rewrite Q in B. nra. }
  assert (L : 1 <= s * (1 + z / 2 + z * z)).
  { destruct (Rle_dec 1 (s * (1 + z / 2 + z * z))) as [L|N]; [exact L|exfalso]. assert (0 <= s * (1 + z / 2 + z * z)) as A by (apply Rmult_le_pos; nra).
    set (t := s * (1 + z / 2 + z * z)) in *. assert (t * t < 1) as B by nra. unfold t in B.
    replace (s * (1 + z / 2 + z * z) * (s * (1 + z / 2 + z * z))) with (s * s * ((1 + z / 2 + z * z) * (1 + z / 2 + z * z))) in B by ring. rewrite Q in B.
    assert (0 <= z * z * (1 - z)) by (apply Rmult_le_pos; nra). assert (z * z * z <= z * z * (1 / 2)) by nra. assert (0 <= z * z * z) by nra. assert (0 <= z * z * z * z) by nra. assert (z * z * z * z * z <= 1 / 2 * (z * z * z * z)) by nra. nra. }
  split; apply (Rmult_le_reg_l s); try exact P; rewrite ?Rinv_r by lra; assumption.
Qed.
Lemma integrand_small m t : 0 <= m < 1 -> 0 <= t <= / 1000 -> 1 + m * (t * t) / 2 - t * t * (t * t) <= integrand m t <= 1 + m * (t * t) / 2 + t * t * (t * t).
Proof.
  intros M T. unfold integrand. assert (S1 : 0 <= sin t) by (apply sin_ge_0; [lra|pose proof PI2_1; lra]).
  assert (S2 : sin t <= t). { destruct (Req_dec t 0) as [->|N]; [rewrite sin_0; lra|]. left. apply sin_lt_x. lra. }
  pose proof (sin_lower t ltac:(lra)) as S3. set (s := sin t) in *. clearbody s.
  assert (T3 : 0 <= t * t * t / 6 <= t) by (split; [nra|]; assert (t * t <= 1) by nra; nra).
  assert (SS : t * t - t * t * (t * t) / 3 <= s * s <= t * t).
  { split; [|nra]. apply Rle_trans with ((t - t * t * t / 6) * (t - t * t * t / 6)); [nra|]. apply Rmult_le_compat; lra. }
  assert (Q : 0 <= t * t <= / 1000) by nra. set (q := t * t) in *. clearbody q. set (z := m * (s * s)).
  assert (Z : m * q - m * (q * q) / 3 <= z <= m * q) by (unfold z; nra). assert (Z0 : 0 <= z) by (unfold z; nra).
  assert (QQ : 0 <= q * q) by nra. assert (MQ : 0 <= m * (q * q) <= q * q) by nra. assert (ZZ : z * z <= q * q) by (assert (z <= q) by nra; nra).
  pose proof (inv_sqrt_series z ltac:(nra)). lra.
Qed.
Lemma F_small m x : 0 <= m < 1 -> 0 <= x <= / 1000 -> Rabs (x * (1 + x * x * (m / 6)) - F x m) <= x * x * (x * x) * x / 5.
Proof.
  intros M X. set (g := fun s t => t + m * (t * t * t) / 6 + s * (t * t * t * t * t) / 5).
  assert (GD : forall s t, is_derive (g s) t (1 + m * (t * t) / 2 + s * (t * t * (t * t)))).
  { intros s t. unfold g. auto_derive; [exact I|]. field. }
  assert (Le : forall s, (forall t, 0 <= t <= x -> 0 <= 1 + m * (t * t) / 2 + s * (t * t * (t * t)) - integrand m t) -> F x m <= g s x).
  { intros s H. destruct (MVT_gen (fun t => g s t - F t m) 0 x (fun t => 1 + m * (t * t) / 2 + s * (t * t * (t * t)) - integrand m t)) as (c & Hc & E).
    - intros t _. apply (is_derive_minus (K := R_AbsRing) (V := R_NormedModule)); [apply GD|now apply F_derive].
    - intros t _. apply continuity_pt_minus; [|now apply F_cont]. apply derivable_continuous_pt. eexists. apply is_derive_Reals. apply GD.
    - rewrite Rmin_left, Rmax_right in Hc by lra. specialize (H c Hc). rewrite F_0 in E. unfold g in E at 2. cbv beta in E.
      assert (0 <= (1 + m * (c * c) / 2 + s * (c * c * (c * c)) - integrand m c) * (x - 0)) by (apply Rmult_le_pos; lra). lra. }
  assert (Ge : forall s, (forall t, 0 <= t <= x -> 1 + m * (t * t) / 2 + s * (t * t * (t * t)) - integrand m t <= 0) -> g s x <= F x m).
  { intros s H. destruct (MVT_gen (fun t => F t m - g s t) 0 x (fun t => integrand m t - (1 + m * (t * t) / 2 + s * (t * t * (t * t))))) as (c & Hc & E).
    - intros t _. apply (is_derive_minus (K := R_AbsRing) (V := R_NormedModule)); [now apply F_derive|apply GD].
    - intros t _. apply continuity_pt_minus; [now apply F_cont|]. apply derivable_continuous_pt. eexists. apply is_derive_Reals. apply GD.
    - rewrite Rmin_left, Rmax_right in Hc by lra. specialize (H c Hc). rewrite F_0 in E. unfold g in E at 2. cbv beta in E.
      assert (0 <= (integrand m c - (1 + m * (c * c) / 2 + s * (c * c * (c * c)))) * (x - 0)) by (apply Rmult_le_pos; lra). lra. }
  specialize (Le 1 ltac:(intros t T; pose proof (integrand_small m t M ltac:(lra)); lra)). specialize (Ge (-1) ltac:(intros t T; pose proof (integrand_small m t M ltac:(lra)); lra)).
  unfold g in Le, Ge. apply Rabs_le. split; lra.
Qed.

Lemma F_abs m x : 0 <= m < 1 -> Rabs (F x m) = F (Rabs x) m.
Proof.
  intros M. unfold Rabs at 2. destruct (Rcase_abs x) as [L|L].
  - rewrite F_odd by exact M. pose proof (F_pos m (- x) M ltac:(lra)) as P. rewrite F_odd in P by exact M. rewrite Rabs_left1; lra.
  - apply Rabs_pos_eq. pose proof (F_pos m x M ltac:(lra)). lra.
Qed.
Lemma descend_odd ks : forall k x, descend_all k ks (- x) = - descend_all k ks x.
Proof.
  induction ks as [|k1 r IH]; intros k x; cbn [descend_all]; [reflexivity|]. rewrite <- IH. f_equal. unfold descend_real. replace (- x * k * (- x * k)) with (x * k * (x * k)) by ring. unfold Rdiv. ring.
Qed.
Lemma m_lt m : 0 <= m <= 1 - / 2 ^ 53 -> 0 <= m < 1.
Proof. assert (0 < / 2 ^ 53) by (apply Rinv_0_lt_compat; lra). lra. Qed.
Lemma small_abs2 phi : Rltb (cabs2 (phi, 0)) (/ 10 ^ 6) = Rltb (Rabs phi) (/ 1000).
Proof.
  unfold cabs2. cbn [fst snd]. destruct (Rltb_spec (Rabs phi) (/ 1000)) as [L|L].
  - apply Rltb_true. unfold Rabs in L. destruct (Rcase_abs phi); nra.
  - apply Rltb_false. unfold Rabs in L. destruct (Rcase_abs phi); nra.
Qed.
(* EllipticF *)
Lemma elliptic_f_large ex m k ks phi : moduli m k ks -> landen_sequence m = Ok (k, ks) -> - (PI / 2) <= phi <= PI / 2 -> / 1000 <= Rabs phi ->
  elliptic_f ex (phi, 0) m = Ok (asin (descend_all k ks (sin phi)) * product ks, 0).
Proof.
  intros H S P L. unfold elliptic_f. rewrite small_abs2, Rltb_false by lra. rewrite S. cbn [obind]. destruct H as [_ R1 C _].
  assert (SB := SIN_bound phi). rewrite csin_real, descend_is_real by assumption. cbn [obind]. destruct (descend_F ks k (sin phi) R1 C SB) as (B & _).
  rewrite casin_real by exact B. cbn [obind]. unfold cmul_real. cbn [fst snd]. rewrite k_from_landen_eq. f_equal. f_equal; [|ring]. field. pose proof PI_RGT_0. lra.
Qed.
Lemma elliptic_f_small ex m phi : Rabs phi < / 1000 -> elliptic_f ex (phi, 0) m = Ok (phi * (1 + phi * phi * (m / 6)), 0).
Proof.
  intros L. unfold elliptic_f. rewrite small_abs2, Rltb_true by lra. f_equal. unfold cmul, cadd, cmul_real, csquare. cbn [fst snd]. f_equal; ring.
Qed.
Lemma F_close_abs m k ks phi : moduli m k ks -> - (PI / 2) <= phi <= PI / 2 ->
  Rabs (asin (descend_all k ks (sin phi)) * product ks - F phi m) <= / 2 ^ 104 * Rabs (F phi m).
Proof.
  intros H P. assert (M : 0 <= m < 1) by (destruct H as [<- R1 _ _]; nra).
  assert (Q : forall phi, 0 <= phi <= PI / 2 -> Rabs (asin (descend_all k ks (sin phi)) * product ks - F phi m) <= / 2 ^ 104 * Rabs (F phi m)).
  { clear phi P. intros phi P. assert (S : 0 <= sin phi <= 1) by (split; [apply sin_ge_0; lra|apply SIN_bound]).
    destruct (F_close m k ks (sin phi) H S) as (V & B). rewrite asin_sin in B by lra. set (v := _ * product ks) in *.
    rewrite (Rabs_pos_eq (F phi m)) by lra. rewrite Rabs_left1 by lra. assert (0 < / 2 ^ 104) by (apply Rinv_0_lt_compat; lra). nra. }
  destruct (Rle_dec 0 phi) as [L|L]; [apply Q; lra|]. specialize (Q (- phi) ltac:(lra)).
  rewrite sin_neg, descend_odd, asin_opp, F_odd in Q by exact M. rewrite Rabs_Ropp in Q.
  replace (- asin (descend_all k ks (sin phi)) * product ks - - F phi m) with (- (asin (descend_all k ks (sin phi)) * product ks - F phi m)) in Q by ring. now rewrite Rabs_Ropp in Q.
Qed.
Lemma small_close m phi : 0 <= m < 1 -> Rabs phi < / 1000 -> Rabs (phi * (1 + phi * phi * (m / 6)) - F phi m) <= 3 / 10 ^ 13 * Rabs (F phi m).
Proof.
  intros M L. assert (Q : forall x, 0 <= x < / 1000 -> Rabs (x * (1 + x * x * (m / 6)) - F x m) <= 3 / 10 ^ 13 * Rabs (F x m)).
  { intros x X. apply Rle_trans with (1 := F_small m x M ltac:(lra)). pose proof (F_pos m x M ltac:(lra)) as P. rewrite (Rabs_pos_eq (F x m)) by lra.
    assert (A : 0 <= x * x <= / 10 ^ 6) by nra. assert (B : 0 <= x * x * (x * x) <= / 10 ^ 12) by nra. set (r := x * x * (x * x)) in *. clearbody r.
    apply Rle_trans with (3 / 10 ^ 13 * x); nra. }
  destruct (Rle_dec 0 phi) as [G|G].
  - apply Q. rewrite Rabs_pos_eq in L by lra. lra.
  - rewrite Rabs_left1 in L by lra. specialize (Q (- phi) ltac:(lra)). rewrite F_odd in Q by exact M. rewrite Rabs_Ropp in Q.
    replace (- phi * (1 + - phi * - phi * (m / 6)) - - F phi m) with (- (phi * (1 + phi * phi * (m / 6)) - F phi m)) in Q by ring. now rewrite Rabs_Ropp in Q.
Qed.
(* JacobiAmplitude *)
Lemma amplitude_eq ex m k ks u : moduli m k ks -> landen_sequence m = Ok (k, ks) ->
  let y := sin (u / product ks) in -1 <= y <= 1 /\ jacobi_amplitude ex (u, 0) m = Ok (asin (ascend_all ks y), 0).
Proof.
  intros H S. cbv zeta. assert (B := SIN_bound (u / product ks)). split; [exact B|]. unfold jacobi_amplitude. rewrite S. cbn [obind]. destruct H as [_ R1 C _].
  pose proof (product_pos ks k R1 C) as P. pose proof PI_RGT_0.
  replace (cmul_real (u, 0) (PI / 2 / k_from_landen ks)) with (u / product ks, 0) by (unfold cmul_real; cbn [fst snd]; rewrite k_from_landen_eq; f_equal; field; lra).
  rewrite csin_real, (ascend_is_real ex ks k) by assumption. cbn [obind]. apply casin_real. now apply (ascend_range ks k).
Qed.
Lemma amplitude_back m k ks a : moduli m k ks -> - (PI / 2) <= a <= PI / 2 ->
  Rabs (F (asin (ascend_all ks (sin a))) m - product ks * a) <= / 2 ^ 104 * (product ks * Rabs a).
Proof.
  intros H A. destruct (final_sq m k ks H) as (U & B). destruct H as [<- R1 C E]. pose proof (product_pos ks k R1 C) as P.
  rewrite (ascend_F ks k (sin a) R1 C (SIN_bound a)), asin_sin by lra. set (e := final k ks * final k ks) in *.
  assert (Q : Rabs (F a e - a) <= / 2 ^ 104 * Rabs a).
  { assert (0 < / 2 ^ 104) by (apply Rinv_0_lt_compat; lra). destruct (Rle_dec 0 a) as [G|G].
    - specialize (B a G). rewrite (Rabs_pos_eq a) by lra. rewrite Rabs_pos_eq by lra. lra.
    - specialize (B (- a) ltac:(lra)). rewrite F_odd in B by exact U. rewrite (Rabs_left1 a) by lra. rewrite Rabs_left1; lra. }
  rewrite <- Rmult_minus_distr_l, Rabs_mult, (Rabs_pos_eq (product ks)) by lra. replace (/ 2 ^ 104 * (product ks * Rabs a)) with (product ks * (/ 2 ^ 104 * Rabs a)) by ring. apply Rmult_le_compat_l; lra.
Qed.
Lemma F_apart m a b : 0 <= m < 1 -> Rabs (a - b) <= Rabs (F a m - F b m).
Proof.
  intros M. destruct (Rle_dec a b) as [L|L].
  - pose proof (F_step m a b M L). rewrite !Rabs_left1 by lra. lra.
  - pose proof (F_step m b a M ltac:(lra)). rewrite !Rabs_pos_eq by lra. lra.
Qed.
Lemma K_pos m : 0 <= m < 1 -> PI / 2 <= K m.
Proof. intros M. pose proof PI_RGT_0. apply (F_pos m (PI / 2) M). lra. Qed.
Lemma amplitude_close ex m u : 0 <= m <= 1 - / 2 ^ 53 -> Rabs u <= K m ->
  exists phi, jacobi_amplitude ex (u, 0) m = Ok (phi, 0) /\ - (PI / 2) <= phi <= PI / 2 /\ Rabs (F phi m - u) <= / 2 ^ 102 * K m.
Proof.
  intros M HU. destruct (sequence_ok m M) as (k & ks & S & H). destruct (amplitude_eq ex m k ks u H S) as (Y & E). exists (asin (ascend_all ks (sin (u / product ks)))).
  split; [exact E|]. split; [apply asin_bound|]. pose proof (K_close m k ks H) as KC. rewrite k_from_landen_eq in KC. assert (P : 1 <= product ks) by (destruct H as [_ R1 C _]; now apply (product_pos ks k)).
  set (p := product ks) in *. pose proof PI_RGT_0 as PP. set (a := u / p). assert (UA : u = p * a) by (unfold a; field; lra). assert (E104 : 0 < / 2 ^ 104) by (apply Rinv_0_lt_compat; lra).
  assert (T : / 2 ^ 102 = 4 * / 2 ^ 104) by lra. set (e := / 2 ^ 104) in *. 
  assert (AB : Rabs a <= PI / 2 * (1 + e)).
  { apply (Rmult_le_reg_l p); [lra|]. replace (p * Rabs a) with (Rabs u) by (rewrite UA, Rabs_mult, (Rabs_pos_eq p) by lra; reflexivity). apply Rle_trans with (1 := HU). lra. }
  assert (PE : PI / 2 * e <= PI / 2). { assert (e <= 1) by (unfold e; lra). nra. }
  destruct (Rle_dec (Rabs a) (PI / 2)) as [L|L].
  - assert (- (PI / 2) <= a <= PI / 2) as A by (unfold Rabs in L; destruct (Rcase_abs a); lra). pose proof (amplitude_back m k ks a H A) as B. fold p e in B. rewrite <- UA in B.
    apply Rle_trans with (1 := B). rewrite T. assert (p * Rabs a <= K m) by (rewrite <- (Rabs_pos_eq p), <- Rabs_mult, <- UA by lra; exact HU). nra.
  - set (b := if Rle_dec 0 a then PI - a else - PI - a). assert (SB : sin a = sin b). { unfold b. destruct (Rle_dec 0 a); [rewrite sin_PI_x; reflexivity|]. replace (- PI - a) with (- (PI - (- a))) by ring. rewrite sin_neg, sin_PI_x, sin_neg. ring. }
    assert (A : - (PI / 2) <= b <= PI / 2). { unfold b, Rabs in *. destruct (Rle_dec 0 a), (Rcase_abs a); lra. }
    assert (D : Rabs (b - a) <= PI * e). { unfold b, Rabs in AB, L |- *. destruct (Rle_dec 0 a), (Rcase_abs a); try lra; destruct (Rcase_abs _); lra. }
    rewrite SB. pose proof (amplitude_back m k ks b H A) as B. fold p e in B.
    replace (F (asin (ascend_all ks (sin b))) m - u) with (F (asin (ascend_all ks (sin b))) m - p * b + p * (b - a)) by (rewrite UA; ring).
    eapply Rle_trans; [apply Rabs_triang|]. rewrite Rabs_mult, (Rabs_pos_eq p) by lra.
    assert (Rabs b <= PI / 2) by (unfold Rabs; destruct (Rcase_abs b); lra). assert (X1 : e * (p * Rabs b) <= e * K m).
    { apply Rmult_le_compat_l; [lra|]. apply Rle_trans with (PI / 2 * p); [rewrite Rmult_comm; apply Rmult_le_compat_r; lra|lra]. }
    assert (X2 : p * Rabs (b - a) <= 2 * e * K m). { apply Rle_trans with (p * (PI * e)); [apply Rmult_le_compat_l; lra|]. replace (p * (PI * e)) with (2 * e * (PI / 2 * p)) by field. apply Rmult_le_compat_l; lra. }
    rewrite T. assert (0 < e * K m) by (apply Rmult_lt_0_compat; [exact E104|pose proof (K_pos m (m_lt m M)); lra]). lra.
Qed.
