(* JacobiAmplitude below the period lattice inverts the integral along the straight path. *)
From Verif Require Import Common ListLemmas RealUtil CInt ComplexModel ComplexProofs EllipticModel EllipticSpec EllipticAxisSpec EllipticProofs EllipticProofs2 EllipticProofs4 EllipticProofs5 EllipticAxisProofs EllipticAxisProofs2 EllipticAxisProofs3 EllipticPathSpec EllipticPathProofs EllipticPathProofs2 EllipticPathProofs3 EllipticPathProofs4 EllipticPathProofs5 EllipticPathProofs6 ZpkModel EllipticDesignModel EllipticDesignProofs EllipticDesignProofs4 EllipticDesignProofs5 EllipticDesignProofs6 EllipticStableProofs EllipticStableProofs2.
From Coquelicot Require Import Coquelicot.
Local Open Scope R_scope.
Local Notation C := Complex.C.

Lemma fourth_inside (w : C) : fourth w -> inside w.
Proof. intros (X & Y). right. destruct w as [x y]. unfold under, Cminus, Cplus, Copp, Cmult, RtoC. cbn [fst snd] in *. nra. Qed.
Lemma n2_mod (w : C) : n2 w = Cmod w * Cmod w.
Proof. unfold n2, Cmod. rewrite sqrt_sqrt; [ring|]. pose proof (pow2_ge_0 (fst w)). pose proof (pow2_ge_0 (snd w)). lra. Qed.
Lemma coords_lt k w s t : 0 <= k < 1 -> 0 < s < 1 -> 0 < t -> k * (t * t) < 1 -> coords k w s t -> k * n2 w < 1.
Proof.
  intros K S T L W. rewrite (coords_n2 _ _ _ _ W). set (a := s * s). set (b := t * t) in *. assert (A : 0 < a < 1) by (unfold a; nra). assert (B : 0 < b) by (unfold b; nra). assert (M : 0 < 1 + k * k * a * b) by (assert (0 <= k * k * a * b) by (repeat apply Rmult_le_pos; lra); lra).
  apply (Rmult_lt_reg_r (1 + k * k * a * b)); [exact M|]. replace (k * ((a + b) / (1 + k * k * a * b)) * (1 + k * k * a * b)) with (k * a + k * b) by (field; lra). assert (0 < (1 - k * a) * (1 - k * b)) by (apply Rmult_lt_0_compat; nra). nra.
Qed.
Lemma step_back k (w1 W : C) : 0 <= k < 1 -> inside W -> landen_step k * n2 w1 < 1 -> Cplus (RtoC 1) (Cmult (RtoC (landen_step k)) (Cmult w1 w1)) <> RtoC 0 ->
  W = Cdiv (Cmult (RtoC (1 + landen_step k)) w1) (Cplus (RtoC 1) (Cmult (RtoC (landen_step k)) (Cmult w1 w1))) -> step_w k (landen_step k) W = w1.
Proof.
  intros K I L N E. pose proof (w_is k W K I) as E2. cbv zeta in E2. pose proof (one_v_nz k W K I) as N2. pose proof (v_mod k W K I) as V. pose proof (k1_range k K) as KR. set (k1 := landen_step k) in *. set (w2 := step_w k k1 W) in *. clearbody w2. rewrite n2_mod in L.
  assert (O : RtoC (1 + k1) <> RtoC 0) by (apply RtoC_nz; lra).
  assert (X : Cmult w1 (Cplus (RtoC 1) (Cmult (RtoC k1) (Cmult w2 w2))) = Cmult w2 (Cplus (RtoC 1) (Cmult (RtoC k1) (Cmult w1 w1)))).
  { assert (Y : Cdiv (Cmult (RtoC (1 + k1)) w1) (Cplus (RtoC 1) (Cmult (RtoC k1) (Cmult w1 w1))) = Cdiv (Cmult (RtoC (1 + k1)) w2) (Cplus (RtoC 1) (Cmult (RtoC k1) (Cmult w2 w2)))) by (rewrite <- E; exact E2).
    set (p := Cplus (RtoC 1) (Cmult (RtoC k1) (Cmult w1 w1))) in *. set (q := Cplus (RtoC 1) (Cmult (RtoC k1) (Cmult w2 w2))) in *. transitivity (Cdiv (Cmult (Cdiv (Cmult (RtoC (1 + k1)) w1) p) (Cmult p q)) (RtoC (1 + k1))); [field; now split|]. rewrite Y. field. now split. }
  assert (F : Cmult (Cminus w1 w2) (Cminus (RtoC 1) (Cmult (RtoC k1) (Cmult w1 w2))) = RtoC 0).
  { transitivity (Cminus (Cmult w1 (Cplus (RtoC 1) (Cmult (RtoC k1) (Cmult w2 w2)))) (Cmult w2 (Cplus (RtoC 1) (Cmult (RtoC k1) (Cmult w1 w1))))); [ring|]. rewrite X. ring. }
  destruct (Ceq_dec (Cminus w1 w2) (RtoC 0)) as [Z|Z]; [transitivity (Cminus w1 (Cminus w1 w2)); [ring|rewrite Z; ring]|]. exfalso.
  destruct (Ceq_dec (Cminus (RtoC 1) (Cmult (RtoC k1) (Cmult w1 w2))) (RtoC 0)) as [Y|Y]; [|now apply (Cmult_neq_0 _ _ Z Y)].
  assert (Q : Cmult (RtoC k1) (Cmult w1 w2) = RtoC 1) by (transitivity (Cminus (RtoC 1) (Cminus (RtoC 1) (Cmult (RtoC k1) (Cmult w1 w2)))); [ring|rewrite Y; ring]).
  apply (f_equal Cmod) in Q. rewrite !Cmod_mult, Cmod_1, Cmod_R, Rabs_pos_eq in Q by lra. rewrite !Cmod_mult, Cmod_R, Rabs_pos_eq in V by lra. pose proof (Cmod_ge_0 w1). pose proof (Cmod_ge_0 w2). set (x := Cmod w1) in *. set (y := Cmod w2) in *. clearbody x y.
  assert (P : (k1 * (x * x)) * (k1 * (y * y)) = 1) by (transitivity ((k1 * (x * y)) * (k1 * (x * y))); [ring|rewrite Q; ring]). assert (0 <= k1 * (x * x)) by (apply Rmult_le_pos; nra). assert (0 <= k1 * (y * y)) by (apply Rmult_le_pos; nra). nra.
Qed.
Lemma coords_back ex ks : forall k y (w : C) s, 0 <= k < 1 -> chain k ks -> 0 < y -> 0 < s < 1 -> coords (final k ks) w s (descend_i_all k ks y) ->
  exists (w' : C) s', ascend ex ks w = Ok w' /\ 0 < s' < 1 /\ coords k w' s' y /\ descend_w k ks w' = w.
Proof.
  induction ks as [|k1 r IH]; intros k y w s K CH Y S W; cbn [ascend chain final descend_i_all descend_w] in *; [exists w, s; repeat split; (exact W || lra)|].
  destruct CH as (E & CH). destruct (landen_range k K) as (R1 & R2). destruct (descend_i_ok k y K ltac:(lra)) as (Y0 & LT & G). pose proof (up_landen k K) as U. rewrite <- E in *. set (t := descend_i k k1 y) in *. assert (T : 0 < t). { destruct Y0 as [L|Z]; [exact L|]. rewrite <- Z in G. unfold gauss_i in G. rewrite Rmult_0_r in G. unfold Rdiv in G. lra. }
  destruct (IH k1 t w s ltac:(lra) CH T S W) as (w1 & s1 & A & S1 & C1 & B1). rewrite A. cbn [obind]. destruct (coords_step ex k1 w1 s1 t ltac:(lra) S1 T LT C1 k (eq_sym U)) as (q & Q & CQ). rewrite Q. cbn [obind]. rewrite G in CQ. exists (cmul_real q (1 + k1)), (gauss k1 s1). split; [reflexivity|]. pose proof (gauss_open k1 s1 ltac:(lra) S1) as GO. assert (GP : 0 < gauss k1 s1) by lra. split; [lra|]. split; [exact CQ|].
  pose proof (coords_fourth _ _ _ _ GP Y CQ) as FW. pose proof (coords_lt k1 w1 s1 t ltac:(lra) S1 T LT C1) as LN.
  set (d := cadd (1, 0) (cmul_real (csquare w1) k1)) in *. assert (DE : d = Cplus (RtoC 1) (Cmult (RtoC k1) (Cmult w1 w1))) by (destruct w1 as [a b]; unfold d, cadd, cmul_real, csquare, Cplus, Cmult, RtoC; cbn [fst snd]; f_equal; ring).
  assert (DN : Cplus (RtoC 1) (Cmult (RtoC k1) (Cmult w1 w1)) <> RtoC 0).
  { intros Z. assert (Z2 : Cmult (RtoC k1) (Cmult w1 w1) = Copp (RtoC 1)) by (transitivity (Cminus (Cplus (RtoC 1) (Cmult (RtoC k1) (Cmult w1 w1))) (RtoC 1)); [ring|rewrite Z; ring]). apply (f_equal Cmod) in Z2. rewrite Cmod_opp, Cmod_1, !Cmod_mult, Cmod_R, Rabs_pos_eq in Z2 by lra. rewrite n2_mod in LN. lra. }
  rewrite <- B1. f_equal. pose proof (step_back k w1 _ K (fourth_inside _ FW)) as SB. rewrite <- E in SB. apply SB; [exact LN|exact DN|]. clear SB.
  rewrite cdiv_ok in Q by (rewrite DE; exact DN). injection Q as <-. rewrite DE. set (D := Cplus (RtoC 1) (Cmult (RtoC k1) (Cmult w1 w1))) in *. clearbody D. transitivity (Cmult (Cdiv w1 D) (RtoC (1 + k1))).
  - set (z := Cdiv w1 D). unfold cmul_real, Cmult, RtoC. cbn [fst snd]. f_equal; ring.
  - field. exact DN.
Qed.
Section Ascent.
Variables (m k : R) (ks : list R).
Hypothesis H : moduli m k ks.
Hypothesis NE : ks <> [].
Hypothesis M : 0 < m.
Lemma am_path ex a b : landen_sequence m = Ok (k, ks) -> 0 < a < PI / 2 -> 0 < b <= 2 -> 101 / 100 * b * product ks < K (1 - m) ->
  exists phi : C, jacobi_amplitude ex (a * product ks, - (b * product ks)) m = Ok phi /\ 0 < fst phi < PI / 2 /\ snd phi < 0 /\
    Cmod (Cminus ((a * product ks, - (b * product ks)) : C) (F_path phi m)) <= / 2 ^ 52 * F_length phi m.
Proof.
  intros S A B L. destruct (kf_is m k ks H) as (KF & PP). pose proof H as [MK R1 CH FI]. assert (M1 : 0 < m < 1) by nra. unfold jacobi_amplitude. rewrite S. cbn [obind]. rewrite KF. pose proof PI_RGT_0 as P0.
  replace (cmul_real (a * product ks, - (b * product ks)) (PI / 2 / (PI / 2 * product ks))) with ((a, - b) : cplx) by (unfold cmul_real; cbn [fst snd]; f_equal; field; lra).
  destruct (final_range ks k R1 CH) as (F0 & F1). destruct (coords_start (final k ks) a b ltac:(lra) A ltac:(lra)) as (s & t & SR & T & CO & TB & CS). set (f := final k ks) in *.
  assert (CB : 0 <= cosh b * cosh b <= 25). { assert (0 < cosh b) by (unfold cosh; pose proof (exp_pos b); pose proof (exp_pos (- b)); lra). assert (cosh b <= cosh 2) by (apply cosh_mono; lra). assert (cosh 2 <= 5). { unfold cosh. assert (exp 2 <= 9) by (replace 2 with (1 + 1) by lra; rewrite exp_plus; pose proof exp_le_3; pose proof (exp_pos 1); nra). assert (exp (- (2)) <= 1) by (rewrite <- exp_0; destruct (Rle_lt_or_eq_dec (-2) 0) as [X|X]; [lra|left; apply exp_increasing; lra|lra]). lra. } split; nra. }
  assert (FF : f * f * (cosh b * cosh b) <= / 1000). { assert (F2 : f <= / 1000000) by (unfold f in *; unfold dbl_epsilon in FI; lra). assert (f * f <= / 1000000 * / 1000000) by nra. assert (0 <= f * f) by nra. nra. }
  assert (SH : 0 < sinh b) by (rewrite <- sinh_0'; apply sinh_lt; lra). assert (TS : t <= 101 / 100 * sinh b). { destruct (Rle_dec t (101 / 100 * sinh b)) as [X|X]; [exact X|exfalso]. assert (t * t > 10201 / 10000 * (sinh b * sinh b)) by nra. nra. }
  assert (AT : arcsinh t <= 101 / 100 * b). { rewrite <- (arcsinh_sinh (101 / 100 * b)). apply arcsinh_le. pose proof (sinh_stretch b ltac:(lra)). lra. }
  destruct (reach m k ks H NE M t T) as (y & Y & E & AY). { apply Rle_lt_trans with (2 := L). apply Rmult_le_compat_r; lra. } rewrite <- E in CO.
  destruct (coords_back ex ks k y _ s R1 CH Y SR CO) as (w' & s' & AS & S' & C' & B'). rewrite AS. cbn [obind]. pose proof (coords_fourth _ _ _ _ (proj1 S') Y C') as FW. destruct (casin_arc ex w' (fourth_inside _ FW)) as (CA & CS' & AR). set (phi := arc w') in *. exists phi. split; [exact CA|].
  assert (FP : 0 < fst phi /\ snd phi < 0).
  { destruct FW as (X1 & X2). rewrite <- CS' in X1, X2. unfold csin in X1, X2. cbn [fst snd] in X1, X2. assert (CC : 0 < cosh (snd phi)) by (unfold cosh; pose proof (exp_pos (snd phi)); pose proof (exp_pos (- snd phi)); lra). assert (CP : 0 < cos (fst phi)) by (apply cos_gt_0; lra). split.
    - destruct (Rlt_dec 0 (fst phi)) as [X|X]; [exact X|exfalso]. assert (0 <= sin (- fst phi)) by (apply sin_ge_0; lra). rewrite sin_neg in H0. nra.
    - destruct (Rlt_dec (snd phi) 0) as [X|X]; [exact X|exfalso]. assert (0 <= sinh (snd phi)). { rewrite <- sinh_0'. apply sinh_le. lra. } nra. }
  split; [lra|]. split; [lra|]. assert (SB : Rabs (fst phi) < PI / 2) by (rewrite Rabs_pos_eq; lra). pose proof (chain_close phi SB k ks R1 CH (or_introl NE)) as CC. rewrite MK in CC.
  assert (W1 : w0 phi 1 = w'). { unfold w0, ray. rewrite !Rmult_1_l. rewrite <- CS'. now destruct phi. } rewrite W1, B', arc_csin in CC by lra.
  replace ((a * product ks, - (b * product ks)) : C) with (Cmult (RtoC (product ks)) (a, - b)) by (unfold Cmult, RtoC; cbn [fst snd]; f_equal; ring). apply Rle_trans with (1 := CC). apply Rmult_le_compat_r; [apply length_ex; [exact SB|lra]|]. unfold f, dbl_epsilon in *. lra.
Qed.
End Ascent.
