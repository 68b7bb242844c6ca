(* The short series of EllipticF at complex amplitudes, and the path integral on the axes. *)
From Coq Require Import ZArith Reals Lra Lia List Bool.
From Coquelicot Require Import Coquelicot.
From Verif Require Import Common RealUtil CInt ComplexModel ComplexProofs EllipticModel EllipticSpec EllipticAxisSpec EllipticProofs EllipticProofs2 EllipticProofs4 EllipticProofs5 EllipticAxisProofs EllipticAxisProofs2 EllipticPathSpec EllipticPathProofs EllipticPathProofs2 EllipticPathProofs3 EllipticPathProofs4 EllipticPathProofs5.
Import ListNotations.
Local Open Scope R_scope.
Local Notation C := Complex.C.

Lemma root_near (z : C) : slit (Cminus (RtoC 1) z) -> Cmod (Cminus (root (Cminus (RtoC 1) z)) (RtoC 1)) <= Cmod z.
Proof.
  intros S. destruct (root_ok _ S) as (Q & P). set (r := root _) in *. assert (X : Cmult (Cminus r (RtoC 1)) (Cplus r (RtoC 1)) = Copp z) by (transitivity (Cminus (Cmult r r) (RtoC 1)); [ring|]; rewrite Q; ring).
  apply (f_equal Cmod) in X. rewrite Cmod_opp, Cmod_mult in X. assert (O : 1 <= Cmod (Cplus r (RtoC 1))). { apply Rle_trans with (Rabs (fst (Cplus r (RtoC 1)))); [|apply comp_le]. rewrite Rabs_pos_eq; cbn [fst Cplus RtoC]; lra. }
  pose proof (Cmod_ge_0 (Cminus r (RtoC 1))). nra.
Qed.
Lemma Cmod_sub_le (a b : C) : Cmod (Cminus a b) <= Cmod a + Cmod b.
Proof. unfold Cminus. apply Rle_trans with (1 := Cmod_triangle _ _). rewrite Cmod_opp. lra. Qed.
Section Small.
Variables (phi : C) (m : R).
Hypothesis M : 0 <= m < 1.
Hypothesis N : Cmod phi <= / 1000.
Lemma small_strip : Rabs (fst phi) < PI / 2.
Proof. destruct (comp_le phi). pose proof PI2_1. lra. Qed.
Let half (t : R) : C := Cmult (RtoC (m / 2)) (Cmult (ray phi t) (ray phi t)).
Let d0 (t : R) : C := root (under (sqrt m) (w0 phi t)).
Let h (t : R) : C := Cmult (Cplus (RtoC 1) (half t)) (d0 t).
Let E (t : R) : C := Cmult (ray phi t) (Cplus (RtoC 1) (Cmult (RtoC (m / 6)) (Cmult (ray phi t) (ray phi t)))).
Lemma SM : sqrt m * sqrt m = m /\ 0 <= sqrt m < 1.
Proof. assert (Q : sqrt m * sqrt m = m) by (apply sqrt_sqrt; lra). pose proof (sqrt_pos m). split; [exact Q|nra]. Qed.
Lemma d0_ok t : 0 <= t <= 1 -> Cmult (d0 t) (d0 t) = Cminus (RtoC 1) (Cmult (RtoC m) (Cmult (w0 phi t) (w0 phi t))) /\ 0 < fst (d0 t).
Proof.
  intros T. destruct SM as (Q & R1). pose proof (root_ok _ (inside_slit (sqrt m) (w0 phi t) ltac:(lra) (proj1 (proj2 (w0_path phi) t (strip_01 phi small_strip t T))))) as (A & P). fold (d0 t) in A, P. split; [|exact P]. rewrite A. unfold under. rewrite Q. reflexivity.
Qed.
Lemma E_der t : 0 <= t <= 1 -> cder E t (Cmult (h t) (speed phi m t)).
Proof.
  intros T. destruct (d0_ok t T) as (_ & P). pose proof (re_nonzero _ P) as NZ. pose proof (ray_cder phi t) as RC. eapply cder_eq.
  - unfold E. apply cder_mult; [exact RC|]. apply cder_plus; [apply cder_const|]. apply cder_mult; [apply cder_const|]. apply cder_mult; exact RC.
  - cbv beta. destruct SM as (Q & _). rewrite (speed_is phi (sqrt m) m t Q). fold (d0 t). unfold h, half. set (z := ray phi t). clearbody z. replace (RtoC (m / 2)) with (Cmult (RtoC (m / 6)) (Cplus (RtoC 1) (Cplus (RtoC 1) (RtoC 1)))) by (rewrite <- !RtoC_plus, <- RtoC_mult; f_equal; field). field. exact NZ.
Qed.
Lemma h_near t : 0 <= t <= 1 -> Cmod (Cminus (h t) (RtoC 1)) <= 2 / 10 ^ 12.
Proof.
  intros T. destruct (d0_ok t T) as (Q & P). assert (RM : Cmod (ray phi t) = t * Cmod phi) by (apply ray_mod; lra). pose proof (Cmod_ge_0 phi) as P0. assert (NN : 0 <= t * Cmod phi <= / 1000) by (split; nra).
  pose proof (sine_small (ray phi t) ltac:(rewrite RM; lra)) as S1. pose proof (sine_cube (ray phi t) ltac:(rewrite RM; lra)) as S3. rewrite RM in S1, S3. change (csin (ray phi t)) with (w0 phi t) in S1, S3. set (n := t * Cmod phi) in *. set (y := ray phi t) in *. set (s := w0 phi t) in *. pose proof (Cmod_ge_0 s) as PS.
  set (z := Cmult (RtoC m) (Cmult s s)) in *. assert (ZM : Cmod z <= 10201 / 10000 * (n * n)) by (unfold z; rewrite !Cmod_mult, Cmod_R, Rabs_pos_eq by lra; assert (Cmod s * Cmod s <= 101 / 100 * n * (101 / 100 * n)) by nra; nra).
  set (a := half t). assert (AM : Cmod a <= n * n / 2) by (unfold a, half; fold y; rewrite !Cmod_mult, Cmod_R, RM, Rabs_pos_eq by lra; nra).
  assert (DM : Cmod (Cminus (d0 t) (RtoC 1)) <= Cmod z). { assert (DR : d0 t = root (Cminus (RtoC 1) z)) by (apply root_unique; [exact Q|exact P]). rewrite DR. apply root_near. rewrite <- Q. now apply square_slit. }
  (* 2 a - z is of fourth order *)
  assert (DZ : Cmod (Cminus (Cplus a a) z) <= 106 / 100 * (n * n * (n * n))).
  { replace (Cminus (Cplus a a) z) with (Copp (Cmult (RtoC m) (Cmult (Cminus s y) (Cplus s y)))) by (unfold a, half, z; fold y; replace (RtoC m) with (Cplus (RtoC (m / 2)) (RtoC (m / 2))) by (rewrite <- RtoC_plus; f_equal; field); ring).
    rewrite Cmod_opp, !Cmod_mult, Cmod_R, Rabs_pos_eq by lra. assert (S2 : Cmod (Cplus s y) <= 201 / 100 * n) by (apply Rle_trans with (1 := Cmod_triangle _ _); rewrite RM; lra). pose proof (Cmod_ge_0 (Cminus s y)). pose proof (Cmod_ge_0 (Cplus s y)).
    assert (X : Cmod (Cminus s y) * Cmod (Cplus s y) <= 52 / 100 * (n * n) * n * (201 / 100 * n)) by (apply Rmult_le_compat; assumption). replace (52 / 100 * (n * n) * n * (201 / 100 * n)) with (10452 / 10000 * (n * n * (n * n))) in X by field. assert (0 <= n * n * (n * n)) by nra. assert (0 <= Cmod (Cminus s y) * Cmod (Cplus s y)) by (apply Rmult_le_pos; assumption). nra. }
  pose proof (Cmod_ge_0 a) as PA. pose proof (Cmod_ge_0 z) as PZ. set (N2 := n * n) in *. assert (N2B : 0 <= N2 <= / 10 ^ 6) by (unfold N2; split; nra). clearbody N2.
  (* h^2 - 1 *)
  assert (HS : Cmult (Cminus (h t) (RtoC 1)) (Cplus (h t) (RtoC 1)) = Cminus (Cplus (Cminus (Cplus a a) z) (Cmult a a)) (Cplus (Cplus (Cmult a z) (Cmult a z)) (Cmult (Cmult a a) z))).
  { transitivity (Cminus (Cmult (Cmult (Cplus (RtoC 1) a) (Cplus (RtoC 1) a)) (Cmult (d0 t) (d0 t))) (RtoC 1)); [unfold h; fold a; ring|]. rewrite Q. ring. }
  apply (f_equal Cmod) in HS. rewrite Cmod_mult in HS. assert (RHS : Cmod (Cminus (Cplus (Cminus (Cplus a a) z) (Cmult a a)) (Cplus (Cplus (Cmult a z) (Cmult a z)) (Cmult (Cmult a a) z))) <= 24 / 10 * (N2 * N2)).
  { apply Rle_trans with (1 := Cmod_sub_le _ _). pose proof (Cmod_triangle (Cminus (Cplus a a) z) (Cmult a a)) as T1. pose proof (Cmod_triangle (Cplus (Cmult a z) (Cmult a z)) (Cmult (Cmult a a) z)) as T2. pose proof (Cmod_triangle (Cmult a z) (Cmult a z)) as T3. rewrite !Cmod_mult in *.
    assert (A2 : Cmod a * Cmod a <= N2 / 2 * (N2 / 2)) by (apply Rmult_le_compat; lra). assert (AZ : Cmod a * Cmod z <= N2 / 2 * (10201 / 10000 * N2)) by (apply Rmult_le_compat; lra). assert (AAZ : Cmod a * Cmod a * Cmod z <= N2 / 2 * (N2 / 2) * (10201 / 10000 * N2)) by (apply Rmult_le_compat; [nra|exact PZ|exact A2|exact ZM]). assert (0 <= N2 * N2) by nra. assert (N2 * N2 * N2 <= / 10 ^ 6 * (N2 * N2)) by nra. lra. }
  assert (HP : 19 / 10 <= Cmod (Cplus (h t) (RtoC 1))).
  { assert (HC : Cmod (Cminus (h t) (RtoC 1)) <= 1 / 10). { replace (Cminus (h t) (RtoC 1)) with (Cplus (Cplus (Cminus (d0 t) (RtoC 1)) a) (Cmult a (Cminus (d0 t) (RtoC 1)))) by (unfold h; fold a; ring). apply Rle_trans with (1 := Cmod_triangle _ _). pose proof (Cmod_triangle (Cminus (d0 t) (RtoC 1)) a). rewrite Cmod_mult. pose proof (Cmod_ge_0 (Cminus (d0 t) (RtoC 1))). assert (Cmod a * Cmod (Cminus (d0 t) (RtoC 1)) <= 1 * (2 / 100)) by (apply Rmult_le_compat; lra). lra. }
    apply Rle_trans with (Rabs (fst (Cplus (h t) (RtoC 1)))); [|apply comp_le]. pose proof (proj1 (comp_le (Cminus (h t) (RtoC 1)))) as X. assert (F1 : fst (Cplus (h t) (RtoC 1)) = fst (h t) + 1) by reflexivity. assert (F2 : fst (Cminus (h t) (RtoC 1)) = fst (h t) - 1) by reflexivity. rewrite F1. rewrite F2 in X. clear - X HC. set (q := fst (h t)) in *. clearbody q. assert (Y : Rabs (q - 1) <= 1 / 10) by lra. unfold Rabs in Y |- *. destruct (Rcase_abs (q - 1)), (Rcase_abs (q + 1)); lra. }
  pose proof (Cmod_ge_0 (Cminus (h t) (RtoC 1))) as PH. rewrite <- HS in RHS. set (x := Cmod (Cminus (h t) (RtoC 1))) in *. set (v := Cmod (Cplus (h t) (RtoC 1))) in *. clearbody x v. assert (N2 * N2 <= / 10 ^ 12) by nra. nra.
Qed.
Theorem small_f ex : cabs2 phi < / 10 ^ 6 -> exists v, elliptic_f ex phi m = Ok v /\ Cmod (Cminus v (F_path phi m)) <= 2 / 10 ^ 12 * F_length phi m.
Proof.
  intros L. exists (E 1). split.
  - unfold elliptic_f. rewrite Rltb_true by exact L. f_equal. unfold E. rewrite ray_1. unfold cmul, cadd, cmul_real, csquare, Cmult, Cplus, RtoC. apply injective_projections; cbn [fst snd]; ring.
  - assert (E0 : E 0 = RtoC 0) by (unfold E, ray; rewrite !Rmult_0_l; unfold RtoC; apply injective_projections; cbn; ring). destruct SM as (Q & R1).
    apply (compare E (speed phi m) h (2 / 10 ^ 12) ltac:(lra) E0 E_der h_near (strip phi) (strip_open phi) (strip_conv phi) (strip_01 phi small_strip)). intros t T. rewrite <- Q. now apply speed_cont.
Qed.
End Small.
Theorem complex_all ex phi m : 0 <= m <= 1 - / 2 ^ 53 -> / 2 ^ 104 < m \/ sqrt m * (cosh (snd phi) * cosh (snd phi)) <= 1 -> Rabs (fst phi) < PI / 2 ->
  exists v, elliptic_f ex phi m = Ok v /\ Cmod (Cminus v (F_path phi m)) <= 2 / 10 ^ 12 * F_length phi m /\ (/ 1000 <= Cmod phi -> Cmod (Cminus v (F_path phi m)) <= / 2 ^ 52 * F_length phi m).
Proof.
  intros M MT B. assert (MS : Cmod phi * Cmod phi = cabs2 phi) by (rewrite Cmod_sq; reflexivity). pose proof (Cmod_ge_0 phi) as P. destruct (Rlt_dec (cabs2 phi) (/ 10 ^ 6)) as [L|L].
  - destruct (small_f phi m (m_lt m M) ltac:(nra) ex L) as (v & V & X). exists v. split; [exact V|]. split; [exact X|]. intros Y. exfalso. nra.
  - destruct (complex_f ex phi m M MT B ltac:(lra)) as (v & V & X). exists v. split; [exact V|]. split; [|intros _; exact X]. apply Rle_trans with (1 := X). apply Rmult_le_compat_r; [apply length_ex; [exact B|now apply m_lt]|lra].
Qed.
(* ---------- the axes ---------- *)
Lemma int_scale (f : R -> R) x : (forall s, continuous f s) -> RInt (fun t => x * f (x * t)) 0 1 = RInt f 0 x.
Proof.
  intros H. etransitivity; [|etransitivity; [apply (RInt_comp_lin (V := R_CompleteNormedModule) f x 0 0 1)|]].
  - apply RInt_ext. intros t _. now rewrite Rplus_0_r.
  - apply (ex_RInt_continuous (V := R_CompleteNormedModule)). intros. apply H.
  - f_equal; ring.
Qed.
Lemma root_real_pos q : 0 < q -> root (RtoC q) = RtoC (sqrt q).
Proof. intros Q. symmetry. apply root_unique; [rewrite <- RtoC_mult, sqrt_sqrt by lra; reflexivity|]. cbn. now apply sqrt_lt_R0. Qed.
Lemma path_real x m : 0 <= m < 1 -> F_path (x, 0) m = (F x m, 0).
Proof.
  intros M. assert (S : forall t, speed (x, 0) m t = (x * integrand m (x * t), 0)).
  { intros t. unfold speed. cbv zeta. cbn [fst snd]. set (z := sine _). assert (Z : z = RtoC (sin (x * t))) by (unfold z, sine; cbn [fst snd]; rewrite Rmult_0_r, sinh_0, cosh_0', (Rmult_comm t x); unfold RtoC; f_equal; ring). rewrite Z, <- !RtoC_mult, <- RtoC_minus. pose proof (under_pos m (x * t) M). rewrite root_real_pos by lra. unfold integrand. assert (0 < sqrt (1 - m * (sin (x * t) * sin (x * t)))) by (apply sqrt_lt_R0; lra). set (q := sqrt _) in *. clearbody q. unfold Cdiv, Cmult, Cinv, RtoC. apply injective_projections; cbn; field; nra. }
  unfold F_path. f_equal.
  - rewrite (RInt_ext (V := R_CompleteNormedModule) _ (fun t => x * integrand m (x * t))) by (intros t _; now rewrite S). apply int_scale. intros s. now apply integrand_cont.
  - rewrite (RInt_ext (V := R_CompleteNormedModule) _ (fun _ => 0)) by (intros t _; now rewrite S). rewrite RInt_const. unfold scal. cbn. unfold mult. cbn. ring.
Qed.
Lemma path_imag y m : 0 <= m < 1 -> F_path (0, y) m = (0, F_i y m).
Proof.
  intros M. assert (S : forall t, speed (0, y) m t = (0, y * integrand_i m (y * t))).
  { intros t. unfold speed. cbv zeta. cbn [fst snd]. set (z := sine _). assert (Z : Cmult z z = RtoC (- (sinh (y * t) * sinh (y * t)))) by (unfold z, sine; cbn [fst snd]; rewrite Rmult_0_r, sin_0, cos_0, (Rmult_comm t y); unfold Cmult, RtoC; cbn [fst snd]; f_equal; ring). rewrite Z, <- !RtoC_mult, <- RtoC_minus. replace (1 - m * - (sinh (y * t) * sinh (y * t))) with (1 + m * (sinh (y * t) * sinh (y * t))) by ring. pose proof (sq_pos (sinh (y * t))). assert (0 < 1 + m * (sinh (y * t) * sinh (y * t))) by nra. rewrite root_real_pos by lra. unfold integrand_i. assert (0 < sqrt (1 + m * (sinh (y * t) * sinh (y * t)))) by (apply sqrt_lt_R0; lra). set (q := sqrt _) in *. clearbody q. unfold Cdiv, Cmult, Cinv, RtoC. apply injective_projections; cbn; field; nra. }
  unfold F_path. f_equal.
  - rewrite (RInt_ext (V := R_CompleteNormedModule) _ (fun _ => 0)) by (intros t _; now rewrite S). rewrite RInt_const. unfold scal. cbn. unfold mult. cbn. ring.
  - rewrite (RInt_ext (V := R_CompleteNormedModule) _ (fun t => y * integrand_i m (y * t))) by (intros t _; now rewrite S). apply int_scale. intros s. apply integrand_i_cont. lra.
Qed.
