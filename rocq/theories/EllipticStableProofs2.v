(* cd and sn below the period lattice, for every modulus that the Landen sequence handles. *)
From Verif Require Import Common ListLemmas RealUtil CInt ComplexModel ComplexProofs EllipticModel EllipticSpec EllipticAxisSpec EllipticProofs EllipticProofs2 EllipticProofs4 EllipticProofs5 EllipticAxisProofs EllipticAxisProofs2 EllipticAxisProofs3 ZpkModel EllipticDesignModel EllipticDesignProofs EllipticDesignProofs4 EllipticDesignProofs5 EllipticDesignProofs6 EllipticStableProofs.
From Coquelicot Require Import Coquelicot.
Local Open Scope R_scope.
Local Notation C := Complex.C.

Lemma cosh_mono x y : 0 <= x <= y -> cosh x <= cosh y.
Proof. intros H. pose proof (cosh_square x). pose proof (cosh_square y). pose proof (sinh_le x y ltac:(lra)). pose proof (sinh_pos x ltac:(lra)). pose proof (EllipticAxisProofs2.sinh_ge 0 ltac:(lra)). assert (0 < cosh x) by (unfold cosh; pose proof (exp_pos x); pose proof (exp_pos (- x)); lra). assert (0 < cosh y) by (unfold cosh; pose proof (exp_pos y); pose proof (exp_pos (- y)); lra). nra. Qed.
Lemma sinh_stretch b : 0 <= b -> 101 / 100 * sinh b <= sinh (101 / 100 * b).
Proof.
  intros B. destruct (MVT_gen sinh 0 b cosh) as (c & C1 & E1); [intros; apply sinh_derive|intros; apply continuity_pt_filterlim; apply (ex_derive_continuous (K := R_AbsRing) (V := R_NormedModule)); eexists; apply sinh_derive|].
  destruct (MVT_gen sinh b (101 / 100 * b) cosh) as (d & D1 & E2); [intros; apply sinh_derive|intros; apply continuity_pt_filterlim; apply (ex_derive_continuous (K := R_AbsRing) (V := R_NormedModule)); eexists; apply sinh_derive|].
  rewrite Rmin_left, Rmax_right in C1 by lra. rewrite Rmin_left, Rmax_right in D1 by lra. rewrite sinh_0 in E1. pose proof (cosh_mono c d ltac:(lra)). nra.
Qed.
Lemma cd_square ex (w phi : C) m (q : C) : csin phi = w -> 0 < m < 1 -> fourth w -> cdiv ex (ccos phi) (csqrt ex (csub (1, 0) (cmul_real (csquare (csin phi)) m))) = Ok q ->
  Cmult (Cmult q q) (Cminus (RtoC 1) (Cmult (RtoC m) (Cmult w w))) = Cminus (RtoC 1) (Cmult w w).
Proof.
  intros S M (X & Y) E. rewrite S in E. set (D := csub (1, 0) (cmul_real (csquare w) m)) in *. assert (DE : D = Cminus (RtoC 1) (Cmult (RtoC m) (Cmult w w))) by (destruct w as [x y]; unfold D, csub, cmul_real, csquare, Cminus, Cplus, Copp, Cmult, RtoC; cbn [fst snd]; f_equal; ring).
  destruct (csqrt_spec ex D) as (SQ & _). assert (SE : Cmult (csqrt ex D) (csqrt ex D) = D) by (rewrite <- SQ at 3; destruct (csqrt ex D); unfold Cmult, cmul; cbn [fst snd]; f_equal; ring).
  assert (CC : Cmult (ccos phi) (ccos phi) = Cminus (RtoC 1) (Cmult w w)). { rewrite <- S. destruct phi as [a b]. unfold ccos, csin, Cminus, Cplus, Copp, Cmult, RtoC. cbn [fst snd]. pose proof (sin2_cos2 a) as T. unfold Rsqr in T. pose proof (cosh_square b) as HB. assert (T2 : cos a * cos a = 1 - sin a * sin a) by lra. f_equal; [|ring]. match goal with |- ?l = _ => transitivity ((cos a * cos a) * (cosh b * cosh b) - (sin a * sin a) * (sinh b * sinh b)); [ring|] end. match goal with |- _ = ?r => transitivity (1 - ((sin a * sin a) * (cosh b * cosh b) - (cos a * cos a) * (sinh b * sinh b))); [|ring] end. rewrite HB, T2. ring. }
  assert (NZ : csqrt ex D <> (0, 0)). { intros Z. rewrite Z in SE. assert (D0 : snd D = 0) by (rewrite <- SE; unfold Cmult; cbn [fst snd]; ring). destruct w as [x y]. unfold D, csub, cmul_real, csquare in D0. cbn [fst snd] in *. assert (0 < m * (x * - y)) by (apply Rmult_lt_0_compat; [lra|nra]). nra. }
  rewrite cdiv_ok in E by exact NZ. injection E as <-. rewrite <- DE, <- CC. set (r := csqrt ex D) in *. rewrite <- SE. field. exact NZ.
Qed.
Section Ascent.
Variables (m k : R) (ks : list R).
Hypothesis H : moduli m k ks.
Hypothesis NE : ks <> [].
Hypothesis M : 0 < m.
Lemma reach t : 0 < t -> arcsinh t * product ks < K (1 - m) -> exists y, 0 < y /\ descend_i_all k ks y = t /\ atan y <= arcsinh t * product ks.
Proof.
  intros T B. pose proof H as [MK R1 CH _]. assert (M1 : 0 < m < 1) by nra. pose proof (product_pos ks k R1 CH) as PP. pose proof (arcsinh_pos t T) as AP. destruct (F_i_below m (arcsinh t * product ks) M1 ltac:(split; [nra|exact B])) as (Y & Y0 & L).
  destruct (descend_i_F ks k (sinh Y) R1 CH (sinh_pos Y Y0)) as (D0 & D1 & D2). rewrite arcsinh_sinh in D2. replace (k * k) with m in D2 by lra. specialize (D1 (or_introl NE)). set (d := descend_i_all k ks (sinh Y)) in *. destruct (final_range ks k R1 CH) as (F0 & F1). set (f := final k ks) in *.
  assert (AD : 0 <= arcsinh d) by (rewrite <- arcsinh_0; apply arcsinh_le; exact D0). assert (FU : F_i (arcsinh d) (f * f) <= arcsinh d). { apply (F_i_bounds (f * f) (arcsinh d) (f * (f * (d * d)))); [nra|exact AD|rewrite sinh_arcsinh; right; ring|]. assert (0 <= f * (d * d)) by nra. nra. }
  assert (TD : t <= d). { destruct (Rle_dec t d) as [X|X]; [exact X|exfalso]. assert (arcsinh d < arcsinh t) by (apply arcsinh_lt; lra). rewrite D2 in L. assert (product ks * F_i (arcsinh d) (f * f) <= product ks * arcsinh d) by (apply Rmult_le_compat_l; lra). nra. }
  assert (Z0 : descend_i_all k ks 0 = 0). { destruct (descend_i_F ks k 0 R1 CH ltac:(lra)) as (Q0 & _ & _). pose proof (descend_i_odd ks k 0) as O. rewrite Ropp_0 in O. lra. }
  pose proof (sinh_pos Y Y0) as SY. destruct (IVT_cor (fun y => descend_i_all k ks y - t) 0 (sinh Y)) as (y & YB & E).
  - apply continuity_minus; [now apply descend_i_continuous|apply continuity_const; intros ? ?; reflexivity].
  - exact SY.
  - rewrite Z0. fold d. nra.
  - exists y. assert (YE : descend_i_all k ks y = t) by lra. assert (Y1 : 0 < y); [|split; [exact Y1|split; [exact YE|]]].
  2:{ destruct (descend_i_F ks k y R1 CH ltac:(lra)) as (E0 & E1 & E2). rewrite YE in E0, E1, E2. specialize (E1 (or_introl NE)). replace (k * k) with m in E2 by lra. rewrite jacobi_imaginary, sinh_arcsinh in E2 by lra. fold f in E1, E2. assert (A0 : 0 <= atan y) by (rewrite <- atan_0; left; now apply atan_increasing). pose proof (F_pos (1 - m) (atan y) ltac:(lra) A0) as (FP & _). assert (FT : F_i (arcsinh t) (f * f) <= arcsinh t). { apply (F_i_bounds (f * f) (arcsinh t) (f * (f * (t * t)))); [nra|lra|rewrite sinh_arcsinh; right; ring|]. assert (0 <= f * (t * t)) by nra. nra. }
    assert (product ks * F_i (arcsinh t) (f * f) <= product ks * arcsinh t) by (apply Rmult_le_compat_l; lra). lra. }
  destruct (proj1 YB) as [X|X]; [exact X|]. exfalso. rewrite <- X in YE. lra.
Qed.
Lemma kf_is : k_from_landen ks = PI / 2 * product ks /\ 1 <= product ks.
Proof. destruct H as [_ R1 CH _]. split; [apply k_from_landen_eq|exact (product_pos ks k R1 CH)]. Qed.
Lemma cd_stable ex a b : landen_sequence m = Ok (k, ks) -> 0 < a < PI / 2 -> 0 < b <= 2 -> 101 / 100 * b * product ks < K (1 - m) ->
  exists q : C, jacobi_cd ex (c_functions ex) (a * product ks, - (b * product ks)) m = Ok q /\ 0 < fst q /\ 0 < snd q /\ cos a * cos a * (snd q * snd q) <= fst q * fst q /\
    exists y, 0 < y /\ atan y <= 101 / 100 * b * product ks /\ fst q <= 1 + y * y /\ snd q <= y /\ cos a * cos a <= fst q * fst q * ((2 + y * y) * (2 + y * y)).
Proof.
  intros S A B L. destruct kf_is as (KF & PP). pose proof H as [MK R1 CH FI]. assert (M1 : 0 < m < 1) by nra. unfold jacobi_cd. cbn [f_am c_functions]. unfold jacobi_amplitude. rewrite S. cbn [obind]. rewrite KF. pose proof PI_RGT_0 as P0.
  replace (cmul_real (a * product ks, - (b * product ks)) (PI / 2 / (PI / 2 * product ks))) with ((a, - b) : cplx) by (unfold cmul_real; cbn [fst snd]; f_equal; field; lra).
  destruct (final_range ks k R1 CH) as (F0 & F1). destruct (coords_start (final k ks) a b ltac:(lra) A ltac:(lra)) as (s & t & SR & T & CO & TB & CS). set (f := final k ks) in *.
  assert (CB : 0 <= cosh b * cosh b <= 25). { assert (0 < cosh b) by (unfold cosh; pose proof (exp_pos b); pose proof (exp_pos (- b)); lra). assert (cosh b <= cosh 2) by (apply cosh_mono; lra). assert (cosh 2 <= 5). { unfold cosh. assert (exp 2 <= 9) by (replace 2 with (1 + 1) by lra; rewrite exp_plus; pose proof exp_le_3; pose proof (exp_pos 1); nra). assert (exp (- (2)) <= 1) by (rewrite <- exp_0; destruct (Rle_lt_or_eq_dec (-2) 0) as [X|X]; [lra|left; apply exp_increasing; lra|lra]). lra. } split; nra. }
  assert (FF : f * f * (cosh b * cosh b) <= / 1000). { assert (F2 : f <= / 1000000) by (unfold f in *; unfold dbl_epsilon in FI; lra). assert (f * f <= / 1000000 * / 1000000) by nra. assert (0 <= f * f) by nra. nra. }
  assert (SH : 0 < sinh b) by (rewrite <- sinh_0'; apply sinh_lt; lra). assert (TS : t <= 101 / 100 * sinh b). { destruct (Rle_dec t (101 / 100 * sinh b)) as [X|X]; [exact X|exfalso]. assert (t * t > 10201 / 10000 * (sinh b * sinh b)) by nra. nra. }
  assert (AT : arcsinh t <= 101 / 100 * b). { rewrite <- (arcsinh_sinh (101 / 100 * b)). apply arcsinh_le. pose proof (sinh_stretch b ltac:(lra)). lra. }
  destruct (reach t T) as (y & Y & E & AY). { apply Rle_lt_trans with (2 := L). apply Rmult_le_compat_r; lra. } rewrite <- E in CO.
  assert (CF : cos a * cos a * (1 - f * f * (s * s)) <= 1 - s * s). { assert (0 <= f * f * (s * s)) by nra. assert (0 <= cos a * cos a) by nra. nra. } destruct (coords_ascend ex (cos a * cos a) ks ltac:(nra) k y _ s R1 CH Y SR CF CO) as (w' & s' & AS & S' & C' & B'). rewrite AS. cbn [obind]. pose proof (coords_fourth _ _ _ _ (proj1 S') Y C') as FW. destruct (casin_ok ex w') as (phi & -> & E1 & R2). cbn [obind]. destruct (cd_first ex w' phi m M1 FW E1 R2) as (q & Q & Q1 & Q2). exists q. split; [exact Q|]. split; [exact Q1|]. split; [exact Q2|]. pose proof (cd_square ex w' phi m q E1 M1 FW Q) as SQ. rewrite <- MK in SQ. destruct (cd_ratio q w' k s' y (cos a * cos a) ltac:(nra) S' Y C' Q1 ltac:(nra) SQ B') as (Z1 & Z2 & Z3 & Z4). split; [exact Z1|]. exists y. split; [exact Y|]. split; [|split; [exact Z2|split; [exact Z3|exact Z4]]]. apply Rle_trans with (1 := AY). apply Rmult_le_compat_r; lra.
Qed.
Lemma sn_axis ex b : landen_sequence m = Ok (k, ks) -> 0 < b -> b * product ks < K (1 - m) -> exists y, 0 < y /\ jacobi_sn (c_functions ex) (0, b * product ks) m = Ok (0, y).
Proof.
  intros S B L. pose proof H as [MK R1 CH FI]. assert (SH : 0 < sinh b) by (rewrite <- sinh_0'; apply sinh_lt; lra). destruct (reach (sinh b) SH) as (y & Y & E & _); [rewrite arcsinh_sinh; exact L|]. exists y. split; [exact Y|]. unfold jacobi_sn. cbn [f_am c_functions].
  pose proof (amplitude_axis ex m k ks (arcsinh y) R1 CH S) as A. rewrite sinh_arcsinh, E, arcsinh_sinh in A. rewrite A. cbn [obind]. rewrite csin_axis, sinh_arcsinh. reflexivity.
Qed.
End Ascent.
(* ---------- a sharper bound of the degree equation ---------- *)
Lemma sin_low x : 0 <= x <= 4 -> x - x * x * x / 6 <= sin x.
Proof.
  intros X. destruct (pre_sin_bound x 0 ltac:(lra) ltac:(lra)) as (B & _). unfold sin_approx, sin_term in B. cbn in B. apply Rle_trans with (2 := B). right. field.
Qed.
Lemma sin_scale l x : 0 <= l <= 1 -> 0 <= x <= PI / 2 -> l * sin x <= sin (l * x).
Proof.
  intros L X. destruct (Req_dec x 0) as [->|NX]; [rewrite Rmult_0_r, sin_0; lra|]. pose proof PI_RGT_0. destruct (Req_dec l 1) as [->|NL]; [rewrite !Rmult_1_l; lra|].
  destruct (MVT_gen sin 0 (l * x) cos) as (c & C1 & E1); [intros; apply is_derive_Reals, derivable_pt_lim_sin|intros; apply continuity_sin|].
  destruct (MVT_gen sin (l * x) x cos) as (d & D1 & E2); [intros; apply is_derive_Reals, derivable_pt_lim_sin|intros; apply continuity_sin|].
  rewrite Rmin_left, Rmax_right in C1 by nra. rewrite Rmin_left, Rmax_right in D1 by nra. rewrite sin_0 in E1. assert (CD : cos d <= cos c) by (apply cos_decr_1; nra). set (s := sin (l * x)) in *. set (u := sin x) in *.
  assert (s * (1 - l) = cos c * (l * x) * (1 - l)) by (replace s with (cos c * (l * x)) by lra; ring). assert ((u - s) * l = cos d * (x - l * x) * l) by (rewrite E2; ring). assert (0 <= (cos c - cos d) * (x * (l * (1 - l)))). { apply Rmult_le_pos; [lra|]. apply Rmult_le_pos; [lra|nra]. } nra.
Qed.
(* the bound of one factor *)
Definition low_sin (t : R) : R := let x := 157 / 100 * t in 999999 / 1000000 * (x - x * x * x / 6).
Lemma sn_low ex m v t : 0 <= m <= 1 - / 2 ^ 53 -> elliptic_k m = Ok (Some v) -> 0 < t <= 9 / 10 ->
  exists y, jacobi_sn (c_functions ex) (t * v, 0) m = Ok (y, 0) /\ low_sin t <= y < 1.
Proof.
  intros M V T. destruct (k_ratio m v M V) as (LP & B). cbv zeta in B. pose proof pow53 as P53. pose proof PerceptualProofs3.pi_range as PR0. destruct (sequence_ok m M) as (k & ks & S & H). destruct (amplitude_eq ex m k ks (t * v) H S) as (Y & E). cbv zeta in Y, E.
  assert (X : k = sqrt m /\ ks = landen_loop 9 (sqrt m)). { unfold landen_sequence in S. rewrite !Rltb_false in S by lra. cbn [orb] in S. cbv zeta in S. clear - S. split; congruence. }
  destruct X as (-> & X). rewrite <- X in *. destruct H as [_ R1 CH _]. rewrite k_from_landen_eq in *. pose proof (product_pos ks _ R1 CH) as PR. set (p := product ks) in *.
  set (x := t * v / (PI / 2 * p)). assert (XE : t * v / p = PI / 2 * x) by (unfold x; field; lra).
  assert (XB : (1 - / 10 ^ 11) * t <= x <= 2999 / 3000).
  { unfold x. assert (QP : 0 < PI / 2 * p) by nra. set (q := PI / 2 * p) in *. clearbody q. assert (TV : t * v / q * q = t * v) by (field; lra). split; apply (Rmult_le_reg_r q); try exact QP; rewrite TV.
    - replace ((1 - / 10 ^ 11) * t * q) with (t * ((1 - / 10 ^ 11) * q)) by ring. apply Rmult_le_compat_l; lra.
    - apply Rle_trans with (29 / 30 * ((1 + / 10 ^ 11) * q)); [apply Rmult_le_compat; lra|lra]. }
  rewrite XE in E. assert (X0 : 0 < x) by nra. assert (SY : 0 < sin (PI / 2 * x) < 1). { split; [apply sin_gt_0; nra|]. rewrite <- sin_PI2. apply sin_increasing_1; nra. }
  pose proof (ascend_open ks _ _ R1 CH SY) as A. set (y := ascend_all ks (sin (PI / 2 * x))) in *. exists y. split.
  - unfold jacobi_sn. cbn [f_am c_functions]. rewrite E. cbn [obind]. rewrite csin_real, sin_asin by lra. reflexivity.
  - split; [|lra]. apply Rle_trans with (sin (PI / 2 * x)); [|lra]. apply Rle_trans with (sin ((999999 / 1000000) * (157 / 100 * t))).
    + unfold low_sin. cbv zeta. set (z := 157 / 100 * t). assert (Z : 0 <= z <= PI / 2) by (unfold z; nra). apply Rle_trans with (2 := sin_scale (999999 / 1000000) z ltac:(lra) Z). apply Rmult_le_compat_l; [lra|]. apply sin_low. lra.
    + left. apply sin_increasing_1; nra.
Qed.
(* cd on the real line *)
Lemma cd_ascend c ks : 0 <= c -> forall k s, 0 <= k < 1 -> chain k ks -> 0 < s < 1 -> c * (1 - final k ks * final k ks * (s * s)) <= 1 - s * s -> c * (1 - k * k * (ascend_all ks s * ascend_all ks s)) <= 1 - ascend_all ks s * ascend_all ks s.
Proof.
  intros CP. induction ks as [|k1 r IH]; intros k s K CH S B; cbn [chain final ascend_all] in *; [exact B|]. destruct CH as (E & CH). destruct (landen_range k K) as (R1 & R2). pose proof (up_landen k K) as U. rewrite <- E in *. apply cd_grows; [lra| |exact (eq_sym U)|exact CP|apply IH; (assumption || lra)]. pose proof (ascend_open r k1 s ltac:(lra) CH S). lra.
Qed.
Lemma cos_low x : 0 <= x <= 9001 / 10000 -> 1 / 10 <= cos (PI / 2 * x).
Proof.
  intros T. rewrite <- sin_shift. pose proof PerceptualProofs3.pi_range as PR0. pose proof (sin_low (PI / 2 - PI / 2 * x) ltac:(nra)) as SL. set (z := PI / 2 - PI / 2 * x) in *. assert (X : 15 / 100 <= z <= 158 / 100) by (unfold z; nra). assert (z * z <= 25 / 10) by nra. assert (z * z * z <= 25 / 10 * z) by nra. destruct (Rle_dec (2 / 10) z) as [B|B]; [lra|]. assert (z * z <= 4 / 100) by nra. assert (z * z * z <= 4 / 100 * z) by nra. lra.
Qed.
Lemma cd_low ex m v t : 0 <= m <= 1 - / 2 ^ 53 -> elliptic_k m = Ok (Some v) -> 0 < t <= 9 / 10 ->
  exists z, jacobi_cd ex (c_functions ex) (t * v, 0) m = Ok (z, 0) /\ 1 / 10 <= z < 1.
Proof.
  intros M V T. destruct (k_ratio m v M V) as (LP & B). cbv zeta in B. pose proof pow53 as P53. pose proof PerceptualProofs3.pi_range as PR0. destruct (sequence_ok m M) as (k & ks & S & H). destruct (amplitude_eq ex m k ks (t * v) H S) as (Y & E). cbv zeta in Y, E.
  assert (X : k = sqrt m /\ ks = landen_loop 9 (sqrt m)). { unfold landen_sequence in S. rewrite !Rltb_false in S by lra. cbn [orb] in S. cbv zeta in S. clear - S. split; congruence. }
  destruct X as (-> & X). rewrite <- X in *. destruct H as [MM R1 CH FI]. rewrite k_from_landen_eq in *. pose proof (product_pos ks _ R1 CH) as PR. set (p := product ks) in *.
  set (x := t * v / (PI / 2 * p)). assert (XE : t * v / p = PI / 2 * x) by (unfold x; field; lra).
  assert (XB : 0 < x <= 9001 / 10000).
  { unfold x. assert (QP : 0 < PI / 2 * p) by nra. set (q := PI / 2 * p) in *. clearbody q. assert (V0 : 0 < v) by nra. split; [apply Rdiv_lt_0_compat; nra|]. assert (TV : t * v / q * q = t * v) by (field; lra). apply (Rmult_le_reg_r q); [exact QP|]. rewrite TV. apply Rle_trans with (9 / 10 * ((1 + / 10 ^ 11) * q)); [apply Rmult_le_compat; lra|lra]. }
  rewrite XE in E. assert (SY : 0 < sin (PI / 2 * x) < 1). { split; [apply sin_gt_0; nra|]. rewrite <- sin_PI2. apply sin_increasing_1; nra. }
  pose proof (ascend_open ks _ _ R1 CH SY) as A. pose proof (cos_low x ltac:(lra)) as CL. pose proof (sin2_cos2 (PI / 2 * x)) as SC. unfold Rsqr in SC.
  assert (CA : 1 / 100 * (1 - m * (ascend_all ks (sin (PI / 2 * x)) * ascend_all ks (sin (PI / 2 * x)))) <= 1 - ascend_all ks (sin (PI / 2 * x)) * ascend_all ks (sin (PI / 2 * x))).
  { rewrite <- MM. apply cd_ascend; [lra|exact R1|exact CH|exact SY|]. destruct (final_range ks _ R1 CH) as (F0 & F1). assert (0 <= final (sqrt m) ks * final (sqrt m) ks * (sin (PI / 2 * x) * sin (PI / 2 * x))) by (apply Rmult_le_pos; nra). nra. }
  set (y := ascend_all ks (sin (PI / 2 * x))) in *. assert (Y1 : 0 < y < 1) by lra. unfold jacobi_cd. cbn [f_am c_functions]. rewrite E. cbn [obind]. rewrite csin_real, ccos_real, sin_asin by lra.
  replace (csub (1, 0) (cmul_real (csquare (y, 0)) m)) with (1 - y * y * m, 0) by (unfold csub, cmul_real, csquare; cbn [fst snd]; f_equal; ring).
  assert (D : 1 - y * y < 1 - y * y * m) by nra. assert (D0 : 0 < 1 - y * y) by nra. rewrite csqrt_real by lra. pose proof (sqrt_lt_1_alt (1 - y * y) (1 - y * y * m) ltac:(lra)) as Q. pose proof (sqrt_lt_R0 _ D0) as Q0.
  rewrite cdiv_real by lra. eexists. split; [reflexivity|]. rewrite cos_asin by lra. replace (1 - y²) with (1 - y * y) by reflexivity. split; (apply (Rmult_le_reg_r (sqrt (1 - y * y * m))) || apply (Rmult_lt_reg_r (sqrt (1 - y * y * m)))); try lra; unfold Rdiv; rewrite ?(Rmult_assoc (sqrt (1 - y * y))), Rinv_l by lra; [|lra].
  rewrite Rmult_1_l, Rmult_1_r. apply Rsqr_incr_0; [|apply Rmult_le_pos; [lra|apply sqrt_pos]|apply sqrt_pos]. unfold Rsqr. rewrite (sqrt_sqrt (1 - y * y)) by lra. apply Rle_trans with (1 / 100 * (sqrt (1 - y * y * m) * sqrt (1 - y * y * m))); [right; field|]. rewrite sqrt_sqrt by lra. lra.
Qed.
Fixpoint low_product (n : Z) (l : list nat) : R := match l with [] => 1 | i :: r => low_sin ((2 * INR i + 1) / IZR n) * low_product n r end.
Definition tight_args (n : Z) (l : list nat) : Prop := forall i, In i l -> 0 < (2 * INR i + 1) / IZR n <= 9 / 10.
Lemma low_sin_pos t : 0 < t <= 9 / 10 -> 0 <= low_sin t.
Proof. intros T. unfold low_sin. cbv zeta. set (x := 157 / 100 * t). assert (X : 0 < x <= 15 / 10) by (unfold x; lra). assert (x * x <= 225 / 100) by nra. nra. Qed.
Lemma product_low ex n m v : 0 <= m <= 1 - / 2 ^ 53 -> elliptic_k m = Ok (Some v) -> forall l kp, tight_args n l -> 0 < kp ->
  exists r, sn_product (c_functions ex) n v m l kp = Ok r /\ kp * low_product n l <= r <= kp /\ 0 <= low_product n l.
Proof.
  intros M V. induction l as [|i l IH]; intros kp A K; cbn [sn_product low_product]; [exists kp; split; [reflexivity|lra]|].
  set (t := (2 * INR i + 1) / IZR n). assert (T : 0 < t <= 9 / 10) by (apply A; now left). replace (argument n v i) with (t * v) by (unfold argument, t, Rdiv; ring). destruct (sn_low ex m v t M V T) as (y & E & Y). rewrite E. cbn [obind fst]. pose proof (low_sin_pos t T) as LS.
  assert (YP : 0 < y). { destruct (sn_real ex m v t M V ltac:(lra)) as (y2 & E2 & Y2). rewrite E in E2. assert (y = y2) by (injection E2 as Z; exact Z). assert (/ 10 ^ 11 <= / 2) by (apply Rinv_le_contravar; lra). nra. }
  destruct (IH (kp * y) (fun j Hj => A j (or_intror Hj)) ltac:(nra)) as (r & E' & B & LP). exists r. split; [exact E'|]. split; [|apply Rmult_le_pos; assumption]. split; [|nra]. apply Rle_trans with (kp * y * low_product n l); [|lra]. replace (kp * (low_sin t * low_product n l)) with (kp * low_sin t * low_product n l) by ring. apply Rmult_le_compat_r; [exact LP|]. apply Rmult_le_compat_l; lra.
Qed.
Lemma indices_tight n : (1 <= n <= 10)%Z -> tight_args n (pair_indices n).
Proof.
  intros O i Hi. unfold pair_indices in Hi. apply in_seq in Hi. pose proof (EllipticDesignProofs3.order_split n ltac:(lia)) as S. assert (J : (2 * Z.of_nat i + 1 <= n - 1)%Z) by (destruct (even_order n); lia).
  assert (J' : 2 * INR i + 1 <= IZR n - 1) by (rewrite INR_IZR_INZ, <- mult_IZR, <- plus_IZR, <- minus_IZR; now apply IZR_le). assert (N : 1 <= IZR n <= 10) by (split; apply IZR_le; lia). pose proof (pos_INR i). split; [apply Rdiv_lt_0_compat; lra|].
  apply (Rmult_le_reg_r (IZR n)); [lra|]. unfold Rdiv at 1. rewrite Rmult_assoc, Rinv_l by lra. lra.
Qed.
(* sqrt (1 - 0.101^2) >= 0.994 *)
Lemma low_bound n : (2 <= n <= 10)%Z -> 4 * (47 / 200) ^ Z.to_nat n <= (994 / 1000) ^ Z.to_nat n * low_product n (pair_indices n) ^ 4.
Proof.
  intros N. assert (CN : (n = 2 \/ n = 3 \/ n = 4 \/ n = 5 \/ n = 6 \/ n = 7 \/ n = 8 \/ n = 9 \/ n = 10)%Z) by lia.
  assert (E : forall (a b : nat) j, Z.to_nat j = a -> Z.to_nat (Z.quot j 2) = b -> 4 * (47 / 200) ^ a <= (994 / 1000) ^ a * low_product j (seq 0 b) ^ 4 -> 4 * (47 / 200) ^ Z.to_nat j <= (994 / 1000) ^ Z.to_nat j * low_product j (pair_indices j) ^ 4) by (intros a b j E1 E2; unfold pair_indices; rewrite E1, E2; auto).
  decompose [or] CN; clear CN; subst n; (eapply E; [vm_compute; reflexivity|vm_compute; reflexivity|]); unfold low_product, low_sin; cbn [seq INR]; lra.
Qed.
