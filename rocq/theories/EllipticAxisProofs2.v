(* EllipticF and JacobiAmplitude on the imaginary axis. *)
From Coq Require Import ZArith Reals Lra Lia List Bool.
From Coquelicot Require Import Coquelicot.
From Verif Require Import Common RealUtil CInt ComplexModel ComplexProofs EllipticModel EllipticSpec EllipticAxisSpec EllipticProofs EllipticProofs2 EllipticProofs4 EllipticProofs5 EllipticProofs6 EllipticAxisProofs.
Import ListNotations.
Local Open Scope R_scope.

Lemma csin_axis b : csin (0, b) = (0, sinh b).
Proof. unfold csin. cbn [fst snd]. rewrite sin_0, cos_0. f_equal; ring. Qed.
Lemma casin_axis ex y : casin ex (0, y) = Ok (0, arcsinh y).
Proof. rewrite <- (sinh_arcsinh y) at 1. rewrite <- csin_axis. apply casin_sin. pose proof PI_RGT_0. lra. Qed.
(* ---------- the short series ---------- *)
Lemma sinh_ge t : 0 <= t -> t <= sinh t.
Proof.
  intros T. destruct (MVT_gen sinh 0 t cosh) as (c & B & E).
  - intros. apply sinh_derive.
  - intros. apply derivable_continuous_pt. exists (cosh x). apply derivable_pt_lim_sinh.
  - rewrite sinh_0, !Rminus_0_r in E. rewrite E. assert (1 <= cosh c) by (destruct (Req_dec c 0) as [-> |N]; [rewrite cosh_0'; lra|pose proof (cosh_gt c N); lra]). nra.
Qed.
Lemma sinh_le_lin x : 0 <= x <= / 1000 -> sinh x <= 101 / 100 * x.
Proof.
  intros X. unfold sinh. assert (A : exp x <= 1 + x + 2 / 1000 * x).
  { rewrite <- (Ropp_involutive x) at 1. rewrite exp_Ropp. assert (B : 1 - x <= exp (- x)) by (pose proof (exp_ineq1_le (- x)); lra). apply Rle_trans with (/ (1 - x)); [apply Rinv_le_contravar; lra|].
    apply (Rmult_le_reg_r (1 - x)); [lra|]. rewrite Rinv_l by lra. nra. }
  pose proof (exp_ineq1_le (- x)). lra.
Qed.
Lemma cosh_le t : 0 <= t <= / 1000 -> cosh t <= 1 + 52 / 100 * (t * t).
Proof.
  intros T. assert (E : cosh t = 1 + 2 * (sinh (t / 2) * sinh (t / 2))).
  { unfold cosh, sinh. pose proof (exp_neg (t / 2)) as N. replace (exp t) with (exp (t / 2) * exp (t / 2)) by (rewrite <- exp_plus; f_equal; field). replace (exp (- t)) with (exp (- (t / 2)) * exp (- (t / 2))) by (rewrite <- exp_plus; f_equal; field). nra. }
  rewrite E. pose proof (sinh_le_lin (t / 2) ltac:(lra)). pose proof (sinh_pos (t / 2) ltac:(lra)). assert (sinh (t / 2) * sinh (t / 2) <= 101 / 100 * (t / 2) * (101 / 100 * (t / 2))) by nra. nra.
Qed.
Lemma sinh_cube t : 0 <= t <= / 1000 -> sinh t <= t + 18 / 100 * (t * t * t).
Proof.
  intros T. destruct (MVT_gen (fun t => t + 18 / 100 * (t * t * t) - sinh t) 0 t (fun t => 1 + 54 / 100 * (t * t) - cosh t)) as (c & B & E).
  - intros x _. apply (is_derive_minus (K := R_AbsRing) (V := R_NormedModule)); [|apply sinh_derive]. auto_derive; [exact I|]. field.
  - intros x _. apply continuity_pt_minus; [|apply derivable_continuous_pt; exists (cosh x); apply derivable_pt_lim_sinh]. apply derivable_continuous_pt. exists (1 + 54 / 100 * (x * x)). apply is_derive_Reals. auto_derive; [exact I|]. field.
  - cbv beta in E. rewrite sinh_0 in E. rewrite Rmin_left, Rmax_right in B by lra. pose proof (cosh_le c ltac:(lra)). pose proof (sq_pos c). assert (0 <= (1 + 54 / 100 * (c * c) - cosh c) * (t - 0)) by (apply Rmult_le_pos; lra). lra.
Qed.
Lemma inv_sqrt_plus z : 0 <= z <= 1 / 2 -> 1 - z / 2 <= / sqrt (1 + z) <= 1 - z / 2 + 3 / 8 * (z * z).
Proof.
  intros Z. assert (S1 : 1 <= sqrt (1 + z)) by (rewrite <- sqrt_1 at 1; apply sqrt_le_1_alt; lra). assert (SS : sqrt (1 + z) * sqrt (1 + z) = 1 + z) by (apply sqrt_sqrt; lra). set (s := sqrt (1 + z)) in *. clearbody s.
  assert (E : z = s * s - 1) by lra. assert (s <= 5 / 4) by nra. subst z. split; apply (Rmult_le_reg_r s); try lra; rewrite Rinv_l by lra.
  - assert (0 <= (s - 1) * (s - 1) * (s + 2)) by (apply Rmult_le_pos; nra). nra.
  - (* 1 <= s (1 - z/2 + 3/8 z^2) *)
    replace ((1 - (s * s - 1) / 2 + 3 / 8 * ((s * s - 1) * (s * s - 1))) * s) with (1 + (s - 1) * (s - 1) * (s - 1) * ((3 * (s * s) + 9 * s + 8) / 8)) by field.
    assert (0 <= (s - 1) * (s - 1) * (s - 1)) by (apply Rmult_le_pos; nra). assert (0 <= (3 * (s * s) + 9 * s + 8) / 8) by nra. nra.
Qed.
Lemma integrand_i_small m t : 0 <= m < 1 -> 0 <= t <= / 1000 -> 1 - m * (t * t) / 2 - t * t * (t * t) <= integrand_i m t <= 1 - m * (t * t) / 2 + t * t * (t * t).
Proof.
  intros M T. pose proof (sinh_ge t ltac:(lra)) as L. pose proof (sinh_cube t T) as U. unfold integrand_i. set (s := sinh t) in *. clearbody s.
  assert (TT : 0 <= t * t <= / 10 ^ 6) by nra. assert (S1 : t * t <= s * s) by nra. assert (S2 : s * s <= t * t + 4 / 10 * (t * t * (t * t))).
  { assert (s * s <= (t + 18 / 100 * (t * t * t)) * (t + 18 / 100 * (t * t * t))) by nra. replace ((t + 18 / 100 * (t * t * t)) * (t + 18 / 100 * (t * t * t))) with (t * t + 36 / 100 * (t * t * (t * t)) + 324 / 10000 * (t * t) * (t * t * (t * t))) in H by field. assert (0 <= t * t * (t * t)) by nra. nra. }
  assert (Q : 0 <= t * t * (t * t) <= / 10 ^ 6 * (t * t)) by nra. pose proof (inv_sqrt_plus (m * (s * s)) ltac:(nra)) as (A & B). split.
  - apply Rle_trans with (2 := A). nra.
  - apply Rle_trans with (1 := B). assert (X1 : 0 <= m * (s * s) <= 11 / 10 * (t * t)) by nra. assert (X2 : m * (s * s) * (m * (s * s)) <= 11 / 10 * (t * t) * (11 / 10 * (t * t))) by nra. nra.
Qed.
Lemma F_i_small m x : 0 <= m < 1 -> 0 <= x <= / 1000 -> Rabs (x * (1 - x * x * (m / 6)) - F_i x m) <= x * x * (x * x) * x / 5.
Proof.
  intros M X. set (g := fun s t => t - m * (t * t * t) / 6 + s * (t * t * t * t * t) / 5).
  assert (GD : forall s t, is_derive (g s) t (1 - m * (t * t) / 2 + s * (t * t * (t * t)))).
  { intros s t. unfold g. auto_derive; [exact I|]. field. }
  assert (Le : forall s, (forall t, 0 <= t <= x -> 0 <= 1 - m * (t * t) / 2 + s * (t * t * (t * t)) - integrand_i m t) -> F_i x m <= g s x).
  { intros s H. destruct (MVT_gen (fun t => g s t - F_i t m) 0 x (fun t => 1 - m * (t * t) / 2 + s * (t * t * (t * t)) - integrand_i m t)) as (c & Hc & E).
    - intros t _. apply (is_derive_minus (K := R_AbsRing) (V := R_NormedModule)); [apply GD|now apply F_i_derive].
    - intros t _. apply continuity_pt_minus; [|now apply F_i_cont]. apply derivable_continuous_pt. eexists. apply is_derive_Reals. apply GD.
    - rewrite Rmin_left, Rmax_right in Hc by lra. specialize (H c Hc). rewrite F_i_0 in E. unfold g in E at 2. cbv beta in E.
      assert (0 <= (1 - m * (c * c) / 2 + s * (c * c * (c * c)) - integrand_i m c) * (x - 0)) by (apply Rmult_le_pos; lra). lra. }
  assert (Ge : forall s, (forall t, 0 <= t <= x -> 1 - m * (t * t) / 2 + s * (t * t * (t * t)) - integrand_i m t <= 0) -> g s x <= F_i x m).
  { intros s H. destruct (MVT_gen (fun t => F_i t m - g s t) 0 x (fun t => integrand_i m t - (1 - m * (t * t) / 2 + s * (t * t * (t * t))))) as (c & Hc & E).
    - intros t _. apply (is_derive_minus (K := R_AbsRing) (V := R_NormedModule)); [now apply F_i_derive|apply GD].
    - intros t _. apply continuity_pt_minus; [now apply F_i_cont|]. apply derivable_continuous_pt. eexists. apply is_derive_Reals. apply GD.
    - rewrite Rmin_left, Rmax_right in Hc by lra. specialize (H c Hc). rewrite F_i_0 in E. unfold g in E at 2. cbv beta in E.
      assert (0 <= (integrand_i m c - (1 - m * (c * c) / 2 + s * (c * c * (c * c)))) * (x - 0)) by (apply Rmult_le_pos; lra). lra. }
  specialize (Le 1 ltac:(intros t T; pose proof (integrand_i_small m t M ltac:(lra)); lra)). specialize (Ge (-1) ltac:(intros t T; pose proof (integrand_i_small m t M ltac:(lra)); lra)).
  unfold g in Le, Ge. apply Rabs_le. split; lra.
Qed.
Lemma small_close_i m y : 0 <= m < 1 -> Rabs y < / 1000 -> Rabs (y * (1 - y * y * (m / 6)) - F_i y m) <= 3 / 10 ^ 13 * Rabs (F_i y m).
Proof.
  intros M L. assert (Q : forall x, 0 <= x < / 1000 -> Rabs (x * (1 - x * x * (m / 6)) - F_i x m) <= 3 / 10 ^ 13 * Rabs (F_i x m)).
  { intros x X. apply Rle_trans with (1 := F_i_small m x M ltac:(lra)). assert (P : 9 / 10 * x <= F_i x m).
    { pose proof (sinh_le_lin x ltac:(lra)). pose proof (sinh_pos x ltac:(lra)). pose proof (F_i_bounds m x (/ 10) ltac:(lra) ltac:(lra)) as B. assert (sinh x * sinh x <= / 100) by nra. specialize (B ltac:(nra) ltac:(lra)). lra. }
    rewrite (Rabs_pos_eq (F_i x m)) by lra.
    assert (A : 0 <= x * x <= / 10 ^ 6) by nra. assert (B : 0 <= x * x * (x * x) <= / 10 ^ 12) by nra. set (r := x * x * (x * x)) in *. clearbody r.
    apply Rle_trans with (3 / 10 ^ 13 * (9 / 10 * x)); nra. }
  destruct (Rle_dec 0 y) as [G|G].
  - apply Q. rewrite Rabs_pos_eq in L by lra. lra.
  - rewrite Rabs_left1 in L by lra. specialize (Q (- y) ltac:(lra)). rewrite F_i_odd in Q by lra. rewrite Rabs_Ropp in Q.
    replace (- y * (1 - - y * - y * (m / 6)) - - F_i y m) with (- (y * (1 - y * y * (m / 6)) - F_i y m)) in Q by ring. now rewrite Rabs_Ropp in Q.
Qed.
(* ---------- EllipticF ---------- *)
Lemma small_abs2_i y : Rltb (cabs2 (0, y)) (/ 10 ^ 6) = Rltb (Rabs y) (/ 1000).
Proof. rewrite <- small_abs2. f_equal. unfold cabs2. cbn [fst snd]. ring. Qed.
Lemma elliptic_f_small_i ex m y : Rabs y < / 1000 -> elliptic_f ex (0, y) m = Ok (0, y * (1 - y * y * (m / 6))).
Proof.
  intros L. unfold elliptic_f. rewrite small_abs2_i, Rltb_true by lra. f_equal. unfold cmul, cadd, cmul_real, csquare. cbn [fst snd]. f_equal; ring.
Qed.
Lemma elliptic_f_large_i ex m k ks y : 0 <= k < 1 -> chain k ks -> landen_sequence m = Ok (k, ks) -> / 1000 <= Rabs y ->
  elliptic_f ex (0, y) m = Ok (0, arcsinh (descend_i_all k ks (sinh y)) * product ks).
Proof.
  intros K0 CH S L. unfold elliptic_f. rewrite small_abs2_i, Rltb_false by lra. rewrite S. cbn [obind]. rewrite csin_axis, descend_is_imag by assumption. cbn [obind]. rewrite casin_axis. cbn [obind]. unfold cmul_real. cbn [fst snd]. rewrite k_from_landen_eq. f_equal. f_equal; [ring|]. field. pose proof PI_RGT_0. lra.
Qed.
Lemma descend_i_odd ks : forall k x, descend_i_all k ks (- x) = - descend_i_all k ks x.
Proof.
  induction ks as [|k1 r IH]; intros k x; cbn [descend_i_all]; [reflexivity|]. rewrite <- IH. f_equal. unfold descend_i. replace (- x * k * (- x * k)) with (x * k * (x * k)) by ring. unfold Rdiv. ring.
Qed.
Lemma close_pos m k ks y : moduli m k ks -> 0 <= y -> ks <> [] \/ k * (sinh y * sinh y) < 1 ->
  let v := arcsinh (descend_i_all k ks (sinh y)) * product ks in 0 <= v /\ (1 - / 2 ^ 53) * v <= F_i y m <= v.
Proof.
  intros H Y L. cbv zeta. destruct H as [<- R1 CH E]. pose proof (sinh_pos y Y) as SP. destruct (descend_i_F ks k (sinh y) R1 CH SP) as (D0 & D1 & D). rewrite arcsinh_sinh in D. specialize (D1 L). rewrite D. pose proof (product_pos ks k R1 CH) as P.
  set (x := descend_i_all k ks (sinh y)) in *. set (e := final k ks) in *. assert (A0 : 0 <= arcsinh x) by (rewrite <- arcsinh_0; now apply arcsinh_le).
  assert (DE : dbl_epsilon = / 2 ^ 52) by reflexivity. assert (V : 0 < / 2 ^ 52 <= 1) by lra.
  pose proof (F_i_bounds (e * e) (arcsinh x) (/ 2 ^ 52) ltac:(nra) A0) as B. rewrite sinh_arcsinh in B. specialize (B ltac:(replace (e * e * (x * x)) with (e * (e * (x * x))) by ring; rewrite <- DE; pose proof (sq_pos x); nra) ltac:(lra)).
  replace (/ 2 ^ 52 / 2) with (/ 2 ^ 53) in B by lra. set (G := F_i (arcsinh x) (e * e)) in *. clearbody G. set (a := arcsinh x) in *. clearbody a. set (pr := product ks) in *. clearbody pr. split; [apply Rmult_le_pos; lra|].
  split; [replace ((1 - / 2 ^ 53) * (a * pr)) with (pr * ((1 - / 2 ^ 53) * a)) by ring; apply Rmult_le_compat_l; lra|rewrite (Rmult_comm a); apply Rmult_le_compat_l; lra].
Qed.
Lemma close_abs m k ks y : moduli m k ks -> ks <> [] \/ k * (sinh y * sinh y) < 1 ->
  Rabs (arcsinh (descend_i_all k ks (sinh y)) * product ks - F_i y m) <= / 2 ^ 52 * Rabs (F_i y m) /\
  Rabs (arcsinh (descend_i_all k ks (sinh y)) * product ks - F_i y m) <= / 2 ^ 53 * Rabs (arcsinh (descend_i_all k ks (sinh y)) * product ks).
Proof.
  intros H. assert (M : 0 <= m) by (destruct H as [<- R1 _ _]; nra).
  assert (Q : forall y, 0 <= y -> ks <> [] \/ k * (sinh y * sinh y) < 1 -> Rabs (arcsinh (descend_i_all k ks (sinh y)) * product ks - F_i y m) <= / 2 ^ 52 * Rabs (F_i y m) /\
    Rabs (arcsinh (descend_i_all k ks (sinh y)) * product ks - F_i y m) <= / 2 ^ 53 * Rabs (arcsinh (descend_i_all k ks (sinh y)) * product ks)).
  { clear y. intros y Y L. destruct (close_pos m k ks y H Y L) as (V & B). set (v := _ * product ks) in *. clearbody v. set (G := F_i y m) in *. clearbody G. assert (0 <= G) by lra. rewrite (Rabs_pos_eq G), (Rabs_pos_eq v), Rabs_pos_eq by lra. split; lra. }
  intros L. destruct (Rle_dec 0 y) as [Y|Y]; [now apply Q|]. specialize (Q (- y) ltac:(lra)). rewrite sinh_neg, descend_i_odd, arcsinh_neg, F_i_odd, !Rabs_Ropp in Q by exact M.
  replace (- arcsinh (descend_i_all k ks (sinh y)) * product ks - - F_i y m) with (- (arcsinh (descend_i_all k ks (sinh y)) * product ks - F_i y m)) in Q by ring. replace (- arcsinh (descend_i_all k ks (sinh y)) * product ks) with (- (arcsinh (descend_i_all k ks (sinh y)) * product ks)) in Q by ring. rewrite !Rabs_Ropp in Q. apply Q. destruct L as [L|L]; [now left|right]. replace (- sinh y * - sinh y) with (sinh y * sinh y) by ring. exact L.
Qed.
Lemma loop_nonempty m : / 2 ^ 104 < m -> landen_loop 9 (sqrt m) <> [].
Proof.
  intros M. cbn [landen_loop]. rewrite Rltb_true; [discriminate|]. unfold dbl_epsilon. replace (/ 2 ^ 52) with (sqrt (/ 2 ^ 104)); [apply sqrt_lt_1_alt; split; [|exact M]; lra|].
  replace (/ 2 ^ 104) with (/ 2 ^ 52 * / 2 ^ 52) by lra. apply sqrt_square. lra.
Qed.
Lemma sequence_full m : 0 <= m <= 1 - / 2 ^ 53 -> landen_sequence m = Ok (sqrt m, landen_loop 9 (sqrt m)) /\ moduli m (sqrt m) (landen_loop 9 (sqrt m)).
Proof.
  intros M. destruct (sequence_ok m M) as (k & ks & S & H). assert (E : landen_sequence m = Ok (sqrt m, landen_loop 9 (sqrt m))) by (unfold landen_sequence; assert (0 < / 2 ^ 53) by (apply Rinv_0_lt_compat; lra); rewrite !Rltb_false by lra; reflexivity). rewrite E in S. injection S as <- <-. now split.
Qed.
Theorem imaginary_f ex y m : 0 <= m <= 1 - / 2 ^ 53 -> / 2 ^ 104 < m \/ sqrt m * (sinh y * sinh y) < 1 ->
  exists v, elliptic_f ex (0, y) m = Ok (0, v) /\ Rabs (v - F_i y m) <= 3 / 10 ^ 13 * Rabs (F_i y m) /\
    (/ 1000 <= Rabs y -> Rabs (v - F_i y m) <= / 2 ^ 52 * Rabs (F_i y m)).
Proof.
  intros M L. destruct (Rlt_dec (Rabs y) (/ 1000)) as [Y|Y].
  - rewrite elliptic_f_small_i by exact Y. eexists. split; [reflexivity|]. split; [apply small_close_i; [now apply m_lt|exact Y]|intros; lra].
  - destruct (sequence_full m M) as (S & H). destruct (close_abs m _ _ y H) as (B & _). { destruct L as [L|L]; [left; now apply loop_nonempty|now right]. }
    destruct H as [_ R1 CH _]. rewrite (elliptic_f_large_i ex m _ _ y R1 CH S) by lra. eexists. split; [reflexivity|].
    split; [|intros _; exact B]. apply Rle_trans with (1 := B). apply Rmult_le_compat_r; [apply Rabs_pos|lra].
Qed.
