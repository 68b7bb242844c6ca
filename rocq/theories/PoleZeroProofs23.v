From Verif Require Import Common ListLemmas RealUtil BiquadModel DesignModel DesignSpec DesignProofs DesignProofs2 DesignProofs3 CascadeModel CascadeSpec CascadeProofs CascadeProofs2 PoleZeroModel PoleZeroSpec PoleZeroProofs PoleZeroProofs2 PoleZeroProofs3 PoleZeroProofs4 PoleZeroProofs5 PolyRoots PoleZeroProofs6 PoleZeroProofs7 PoleZeroProofs8 PoleZeroProofs11 PoleZeroProofs13 PoleZeroProofs15 PoleZeroProofs18.
From Coquelicot Require Import Complex.
Local Open Scope R_scope.

(* ---------- warped frequencies ---------- *)
Lemma tan_mono f g fs : - (fs / 2) < f -> f < g -> g < fs / 2 -> tan (PI * f / fs) < tan (PI * g / fs).
Proof.
  intros H1 H2 H3. pose proof PI_RGT_0. assert (E : forall a, PI * a / fs = a * (PI / fs)) by (intros; field; lra). assert (K : 0 < PI / fs) by (apply Rdiv_lt_0_compat; lra).
  assert (EH : fs / 2 * (PI / fs) = PI / 2) by (field; lra). apply tan_increasing; rewrite !E; nra.
Qed.
Lemma tan_le f g fs : - (fs / 2) < f -> f <= g -> g < fs / 2 -> tan (PI * f / fs) <= tan (PI * g / fs).
Proof. intros H1 [H2| ->] H3; [left; now apply tan_mono|lra]. Qed.
Lemma tan_at_0 fs : 0 < fs -> tan (PI * 0 / fs) = 0.
Proof. intros. replace (PI * 0 / fs) with 0 by (field; lra). apply tan_0. Qed.
Lemma tan_nonneg f fs : 0 <= f < fs / 2 -> 0 <= tan (PI * f / fs).
Proof. intros [[H| <-] H2]; [left; now apply tan_pos|rewrite tan_at_0; lra]. Qed.
Lemma ratio_lt a b t : 0 < t -> a < b -> a / t < b / t.
Proof. intros. apply Rmult_lt_compat_r; [now apply Rinv_0_lt_compat|assumption]. Qed.
Lemma ratio_inv a b t : 0 < t -> 0 < a -> a < b -> t / b < t / a.
Proof. intros. apply Rmult_lt_compat_l; [assumption|]. apply Rinv_lt_contravar; [nra|assumption]. Qed.

(* ---------- the shape of the magnitudes, as functions of the warped frequency ---------- *)
Lemma inv_sqrt_lt a b : 0 < a -> a < b -> / sqrt b < / sqrt a.
Proof. intros. apply Rinv_lt_contravar; [apply Rmult_lt_0_compat; apply sqrt_lt_R0; lra|]. apply sqrt_lt_1; lra. Qed.
Lemma inv_sqrt_le a b : 0 < a -> a <= b -> / sqrt b <= / sqrt a.
Proof. intros A [B| ->]; [left; now apply inv_sqrt_lt|lra]. Qed.
Lemma inv_sqrt_1 : / sqrt 1 = 1.
Proof. rewrite sqrt_1. apply Rinv_1. Qed.
Lemma even_pow_le w n : 0 <= w ^ (2 * n).
Proof. rewrite pow_mult. apply pow_le. nra. Qed.
Lemma even_pow_lt n u v : (1 <= n)%nat -> 0 <= u < v -> u ^ (2 * n) < v ^ (2 * n).
Proof.
  intros H [U V]. rewrite !pow_mult. assert (u ^ 2 < v ^ 2) by nra. assert (0 <= u ^ 2) by nra. set (a := u ^ 2) in *. set (b := v ^ 2) in *. clearbody a b. clear - H H0 H1.
  destruct n as [|n]; [lia|]. clear H. induction n as [|n IH]; [cbn; lra|]. rewrite <- !tech_pow_Rmult with (n := S n). assert (0 <= a ^ S n) by (apply pow_le; lra). nra.
Qed.
Lemma butterworth_mag_lt n u v : (1 <= n)%nat -> 0 <= u < v -> / sqrt (1 + v ^ (2 * n)) < / sqrt (1 + u ^ (2 * n)).
Proof. intros H U. pose proof (even_pow_lt n u v H U). pose proof (even_pow_le u n). apply inv_sqrt_lt; lra. Qed.
Lemma butterworth_mag_1 n : / sqrt (1 + 1 ^ (2 * n)) = / sqrt 2.
Proof. rewrite pow1. reflexivity. Qed.
Lemma butterworth_mag_0 n : (1 <= n)%nat -> / sqrt (1 + 0 ^ (2 * n)) = 1.
Proof. intros H. rewrite pow_i by lia. rewrite Rplus_0_r. apply inv_sqrt_1. Qed.

(* 10^(db/10) and 10^(-db/20) *)
Lemma db_power db : / sqrt (Rpower 10 (db / 10)) = Rpower 10 (- db / 20).
Proof.
  assert (P : 0 < Rpower 10 (db / 20)) by (unfold Rpower; apply exp_pos). replace (Rpower 10 (db / 10)) with (Rpower 10 (db / 20) * Rpower 10 (db / 20)) by (rewrite <- Rpower_plus; f_equal; field).
  rewrite sqrt_square by lra. rewrite <- Rpower_Ropp. f_equal. field.
Qed.
Lemma db_pos db : 0 < db -> 1 < Rpower 10 (db / 10).
Proof. intros H. rewrite <- (Rpower_O 10) by lra. apply Rpower_lt; lra. Qed.

Section Cheb.
  Variables (n : nat) (db : R).
  Hypotheses (HN : (1 <= n)%nat) (HD : 0 < db).
  Let E := Rpower 10 (db / 10).
  Let floor := Rpower 10 (- db / 20).
  Definition mag1 (w : R) : R := / sqrt (1 + (Rpower 10 (db / 10) - 1) * (T n w) ^ 2).
  Definition mag2 (v : R) : R := Rabs (T n v) / sqrt (Rpower 10 (db / 10) - 1 + (T n v) ^ 2).
  Lemma T_abs w : T n (Rabs w) ^ 2 = T n w ^ 2.
  Proof. cbn. rewrite !Rmult_1_r. unfold Rabs. destruct (Rcase_abs w); [apply T_sq_opp|reflexivity]. Qed.
  Lemma E_gt : 1 < E.
  Proof. apply db_pos; exact HD. Qed.
  Lemma mag1_in w : -1 <= w <= 1 -> floor <= mag1 w <= 1.
  Proof.
    intros W. pose proof E_gt as E1. pose proof (T_inside n w W) as I. assert (0 <= T n w * T n w) by nra. unfold mag1, floor. rewrite <- db_power. fold E. replace (T n w ^ 2) with (T n w * T n w) by ring. set (x := T n w * T n w) in *.
    clearbody E x. assert (0 <= (E - 1) * x) by (apply Rmult_le_pos; lra). assert ((E - 1) * x <= E - 1) by nra.
    split; [apply inv_sqrt_le; lra|]. apply Rle_trans with (/ sqrt 1); [apply inv_sqrt_le; lra|rewrite inv_sqrt_1; lra].
  Qed.
  Lemma mag1_edge w : Rabs w = 1 -> mag1 w = floor.
  Proof. intros W. unfold mag1, floor. rewrite <- db_power, <- T_abs, W, T_1. f_equal. f_equal. ring. Qed.
  Lemma T_more u v : 1 <= u -> u < v -> 1 <= T n u < T n v.
  Proof. intros H1 H2. destruct n as [|k]; [lia|]. destruct (T_incr k u v H1 H2) as [_ H]. destruct (T_grow (S k) u H1). lra. Qed.
  Lemma mag1_decr u v : 1 <= Rabs u -> Rabs u < Rabs v -> mag1 v < mag1 u.
  Proof.
    intros H1 H2. pose proof E_gt as E1. unfold mag1. rewrite <- (T_abs u), <- (T_abs v). fold E. destruct (T_more _ _ H1 H2) as [A B]. set (x := T n (Rabs u)) in *. set (y := T n (Rabs v)) in *. clearbody E x y. assert (1 <= x ^ 2 < y ^ 2) by nra. assert (0 <= (E - 1) * x ^ 2) by (apply Rmult_le_pos; lra). assert ((E - 1) * x ^ 2 < (E - 1) * y ^ 2) by (apply Rmult_lt_compat_l; lra). apply inv_sqrt_lt; lra.
  Qed.
  Lemma mag1_out w : 1 < Rabs w -> mag1 w < floor.
  Proof. intros W. rewrite <- (mag1_edge 1) by apply Rabs_R1. apply mag1_decr; rewrite Rabs_R1; lra. Qed.
  (* mag2 in terms of the square of the polynomial *)
  Lemma mag2_sq v : mag2 v = sqrt (T n v ^ 2 / (E - 1 + T n v ^ 2)).
  Proof.
    pose proof E_gt as E1. unfold mag2. fold E. assert (P : 0 < E - 1 + T n v ^ 2) by nra. rewrite sqrt_div by nra. f_equal. rewrite <- sqrt_Rsqr_abs. f_equal. unfold Rsqr. ring.
  Qed.
  Lemma frac_lt x y : 0 <= x < y -> x / (E - 1 + x) < y / (E - 1 + y).
  Proof. intros H. pose proof E_gt as E1. apply (Rmult_lt_reg_r ((E - 1 + x) * (E - 1 + y))); [nra|]. replace (x / (E - 1 + x) * ((E - 1 + x) * (E - 1 + y))) with (x * (E - 1 + y)) by (field; lra). replace (y / (E - 1 + y) * ((E - 1 + x) * (E - 1 + y))) with (y * (E - 1 + x)) by (field; lra). nra. Qed.
  Lemma frac_nonneg x : 0 <= x -> 0 <= x / (E - 1 + x).
  Proof. intros H. pose proof E_gt as E1. unfold Rdiv. apply Rmult_le_pos; [lra|]. left. apply Rinv_0_lt_compat. lra. Qed.
  Lemma frac_1 : sqrt (1 / (E - 1 + 1)) = floor.
  Proof. pose proof E_gt as E1. unfold floor. rewrite <- db_power. fold E. replace (1 / (E - 1 + 1)) with (/ E) by (field; lra). rewrite sqrt_inv. reflexivity. Qed.
  Lemma mag2_out v : -1 <= v <= 1 -> mag2 v <= floor.
  Proof.
    intros W. pose proof (T_inside n v W) as I. rewrite mag2_sq, <- frac_1. replace (T n v ^ 2) with (T n v * T n v) by ring. assert (0 <= T n v * T n v) by nra. set (x := T n v * T n v) in *.
    destruct I as [I| ->]; [|lra]. apply sqrt_le_1_alt. left. apply frac_lt. lra.
  Qed.
  Lemma mag2_edge v : Rabs v = 1 -> mag2 v = floor.
  Proof. intros W. rewrite mag2_sq, <- T_abs, W, T_1, <- frac_1. repeat f_equal; ring. Qed.
  Lemma mag2_incr u v : 1 <= Rabs u -> Rabs u < Rabs v -> mag2 u < mag2 v.
  Proof.
    intros H1 H2. rewrite !mag2_sq. rewrite <- (T_abs u), <- (T_abs v). destruct (T_more _ _ H1 H2) as [A B]. set (x := T n (Rabs u)) in *. set (y := T n (Rabs v)) in *.
    assert (0 <= x ^ 2 < y ^ 2) by nra. apply sqrt_lt_1_alt. split; [apply frac_nonneg; lra|now apply frac_lt].
  Qed.
  Lemma mag2_in v : 1 < Rabs v -> floor < mag2 v < 1.
  Proof.
    intros W. split; [rewrite <- (mag2_edge 1) by apply Rabs_R1; apply mag2_incr; rewrite Rabs_R1; lra|].
    rewrite mag2_sq. apply Rlt_le_trans with (sqrt 1); [|rewrite sqrt_1; lra]. pose proof E_gt as E1. assert (0 <= T n v ^ 2) by nra. set (x := T n v ^ 2) in *. apply sqrt_lt_1_alt. split; [now apply frac_nonneg|].
    apply (Rmult_lt_reg_r (E - 1 + x)); [lra|]. replace (x / (E - 1 + x) * (E - 1 + x)) with x by (field; lra). lra.
  Qed.
End Cheb.
