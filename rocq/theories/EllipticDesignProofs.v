(* Real arguments: sn and cd below the quarter period, the solution of the degree equation and the zeros. *)
From Coq Require Import ZArith Reals Lra Lia List Bool.
From Coquelicot Require Import Coquelicot.
From Verif Require Import Common RealUtil CInt ComplexModel ComplexProofs EllipticModel EllipticSpec EllipticProofs EllipticProofs2 EllipticProofs3 EllipticProofs4 EllipticProofs5 EllipticProofs6 EllipticDesignModel EllipticDesignSpec.
Import ListNotations.
Local Open Scope R_scope.

Lemma pow53 : 0 < / 2 ^ 53 <= / 10 ^ 12.
Proof. split; [apply Rinv_0_lt_compat; lra|apply Rinv_le_contravar; lra]. Qed.
(* EllipticK against the Landen product *)
Lemma k_ratio m v : 0 <= m <= 1 - / 2 ^ 53 -> elliptic_k m = Ok (Some v) ->
  let L := k_from_landen (landen_loop 9 (sqrt m)) in 0 < L /\ (1 - / 10 ^ 11) * L <= v <= (1 + / 10 ^ 11) * L.
Proof.
  intros M V. cbv zeta. pose proof pow53 as P53. destruct (sequence_ok m M) as (k & ks & S & H). pose proof (K_close m k ks H) as KC. assert (M1 : 0 <= m < 1) by lra.
  assert (E : k = sqrt m /\ ks = landen_loop 9 (sqrt m)). { unfold landen_sequence in S. rewrite !Rltb_false in S by lra. cbn [orb] in S. cbv zeta in S. clear - S. split; congruence. }
  destruct E as (-> & ->). destruct H as [_ R1 C _]. pose proof (kf_pos m (sqrt m) _ S R1 C) as LP. split; [exact LP|]. set (L := k_from_landen _) in *.
  assert (T : / 2 ^ 104 <= / 10 ^ 12) by (apply Rinv_le_contravar; lra).
  destruct (Rle_dec m (1 - / 10 ^ 12)) as [A|A].
  - unfold elliptic_k in V. destruct (Reqb_spec m 1) as [X|_]; [lra|]. rewrite Rltb_false in V by lra. rewrite S in V. cbn [obind] in V. change (Ok (Some L) = Ok (Some v)) in V. clearbody L. assert (V' : L = v) by congruence. split; lra.
  - pose proof (asymptotic m ltac:(lra)) as AS. cbv zeta in AS. unfold elliptic_k in V. destruct (Reqb_spec m 1) as [X|_]; [lra|]. rewrite Rltb_true in V by lra. rewrite Rltb_false in V by lra. cbv zeta in V.
    set (x := _ + _) in *. assert (V' : x = v) by (clear - V; congruence). rewrite <- V'. assert (KP : 0 < K m) by lra. assert (AS' : - (/ 10 ^ 12 * K m) <= x - K m <= / 10 ^ 12 * K m) by (unfold Rabs in AS; destruct (Rcase_abs (x - K m)); lra). split; lra.
Qed.
Lemma k_finite m : 0 <= m < 1 -> exists v, elliptic_k m = Ok (Some v) /\ 0 < v.
Proof.
  intros M. destruct (Rle_dec m (1 - / 10 ^ 12)) as [A|A].
  - destruct (sequence_lt m M) as (k & ks & S & R1 & C). exists (k_from_landen ks). split; [|now apply (kf_pos m k)]. unfold elliptic_k. destruct (Reqb_spec m 1) as [X|_]; [lra|]. rewrite Rltb_false by lra. rewrite S. reflexivity.
  - pose proof (asymptotic m ltac:(lra)) as AS. cbv zeta in AS. pose proof (K_pos m M). pose proof PI_RGT_0. unfold elliptic_k. destruct (Reqb_spec m 1) as [X|_]; [lra|]. rewrite Rltb_true by lra. rewrite Rltb_false by lra. eexists. split; [reflexivity|].
    set (x := _ + _) in *. assert (AS' : - (/ 10 ^ 12 * K m) <= x - K m) by (unfold Rabs in AS; destruct (Rcase_abs (x - K m)); lra). nra.
Qed.
(* the amplitude of t K, 0 < t <= 29/30 *)
Lemma gauss_open k y : 0 <= k < 1 -> 0 < y < 1 -> y <= gauss k y < 1.
Proof.
  intros A B. split; [apply gauss_range; lra|]. unfold gauss. assert (P : 0 < 1 + k * (y * y)) by nra. apply (Rmult_lt_reg_r (1 + k * (y * y))); [lra|]. unfold Rdiv. rewrite Rmult_assoc, Rinv_l by lra.
  assert (0 < (1 - y) * (1 - k * y)) by (apply Rmult_lt_0_compat; nra). nra.
Qed.
Lemma ascend_open ks : forall k y, 0 <= k < 1 -> chain k ks -> 0 < y < 1 -> y <= ascend_all ks y < 1.
Proof.
  induction ks as [|k1 r IH]; intros k y K C Y; cbn [ascend_all chain] in *; [lra|]. destruct C as (-> & C). destruct (landen_range k K). pose proof (IH (landen_step k) y ltac:(lra) C Y) as B. pose proof (gauss_open (landen_step k) (ascend_all r y) ltac:(lra) ltac:(lra)). lra.
Qed.
Lemma sin_chord x : 0 <= x <= 1 -> x <= sin (PI / 2 * x).
Proof.
  intros X. pose proof PI_RGT_0 as PP. destruct (Req_dec x 0) as [->|N0]; [rewrite Rmult_0_r, sin_0; lra|]. destruct (Req_dec x 1) as [->|N1]; [rewrite Rmult_1_r, sin_PI2; lra|].
  destruct (MVT_gen sin 0 (PI / 2 * x) cos) as (c & C1 & E1); [intros; apply is_derive_Reals, derivable_pt_lim_sin|intros; apply continuity_sin|].
  destruct (MVT_gen sin (PI / 2 * x) (PI / 2) cos) as (d & D1 & E2); [intros; apply is_derive_Reals, derivable_pt_lim_sin|intros; apply continuity_sin|].
  rewrite Rmin_left, Rmax_right in C1 by nra. rewrite Rmin_left, Rmax_right in D1 by nra. rewrite sin_0 in E1. rewrite sin_PI2 in E2.
  assert (CD : cos d <= cos c) by (apply cos_decr_1; nra). set (s := sin (PI / 2 * x)) in *. assert (0 <= cos c * (PI / 2) * x * (1 - x) - cos d * (PI / 2) * x * (1 - x)). { replace (_ - _) with ((cos c - cos d) * (PI / 2 * (x * (1 - x)))) by ring. apply Rmult_le_pos; [lra|]. apply Rmult_le_pos; nra. }
  assert (s * (1 - x) = cos c * (PI / 2) * x * (1 - x)) by (replace s with (cos c * (PI / 2 * x)) by lra; ring). assert ((1 - s) * x = cos d * (PI / 2) * x * (1 - x)) by (rewrite E2; ring). lra.
Qed.
Lemma real_amplitude ex m v t : 0 <= m <= 1 - / 2 ^ 53 -> elliptic_k m = Ok (Some v) -> 0 < t <= 29 / 30 ->
  exists y, jacobi_amplitude ex (t * v, 0) m = Ok (asin y, 0) /\ (1 - / 10 ^ 11) * t <= y < 1 /\ 0 < y.
Proof.
  intros M V T. destruct (k_ratio m v M V) as (LP & B). cbv zeta in B. pose proof pow53 as P53. pose proof PI_RGT_0 as PP. destruct (sequence_ok m M) as (k & ks & S & H). destruct (amplitude_eq ex m k ks (t * v) H S) as (Y & E). cbv zeta in Y, E.
  assert (X : k = sqrt m /\ ks = landen_loop 9 (sqrt m)). { unfold landen_sequence in S. rewrite !Rltb_false in S by lra. cbn [orb] in S. cbv zeta in S. clear - S. split; congruence. }
  destruct X as (-> & X). rewrite <- X in *. destruct H as [_ R1 C _]. rewrite k_from_landen_eq in *. pose proof (product_pos ks _ R1 C) as PR. set (p := product ks) in *.
  set (x := t * v / (PI / 2 * p)). assert (XE : t * v / p = PI / 2 * x) by (unfold x; field; lra).
  assert (XB : (1 - / 10 ^ 11) * t <= x <= 2999 / 3000).
  { unfold x. assert (QP : 0 < PI / 2 * p) by nra. set (q := PI / 2 * p) in *. clearbody q. assert (TV : t * v / q * q = t * v) by (field; lra). split; apply (Rmult_le_reg_r q); try exact QP; rewrite TV.
    - replace ((1 - / 10 ^ 11) * t * q) with (t * ((1 - / 10 ^ 11) * q)) by ring. apply Rmult_le_compat_l; lra.
    - apply Rle_trans with (29 / 30 * ((1 + / 10 ^ 11) * q)); [apply Rmult_le_compat; lra|lra]. }
  rewrite XE in E. assert (X0 : 0 < x) by nra. assert (SY : 0 < sin (PI / 2 * x) < 1). { split; [apply sin_gt_0; nra|]. rewrite <- sin_PI2. apply sin_increasing_1; nra. }
  pose proof (ascend_open ks _ _ R1 C SY) as A. pose proof (sin_chord x ltac:(lra)). eexists. split; [exact E|]. lra.
Qed.
Lemma sn_real ex m v t : 0 <= m <= 1 - / 2 ^ 53 -> elliptic_k m = Ok (Some v) -> 0 < t <= 29 / 30 ->
  exists y, jacobi_sn (c_functions ex) (t * v, 0) m = Ok (y, 0) /\ (1 - / 10 ^ 11) * t <= y < 1.
Proof.
  intros M V T. destruct (real_amplitude ex m v t M V T) as (y & E & B & Y). exists y. split; [|exact B]. unfold jacobi_sn. cbn [f_am c_functions]. rewrite E. cbn [obind]. rewrite csin_real, sin_asin by lra. reflexivity.
Qed.
Lemma ccos_real a : ccos (a, 0) = (cos a, 0).
Proof. unfold ccos. cbn [fst snd]. rewrite cosh_0', sinh_0'. f_equal; ring. Qed.
Lemma cd_real ex m v t : 0 <= m <= 1 - / 2 ^ 53 -> elliptic_k m = Ok (Some v) -> 0 < t <= 29 / 30 ->
  exists z, jacobi_cd ex (c_functions ex) (t * v, 0) m = Ok (z, 0) /\ 0 < z < 1.
Proof.
  intros M V T. pose proof pow53 as P53. destruct (real_amplitude ex m v t M V T) as (y & E & B & Y). unfold jacobi_cd. cbn [f_am c_functions]. rewrite E. cbn [obind]. rewrite csin_real, ccos_real, sin_asin by lra.
  replace (csub (1, 0) (cmul_real (csquare (y, 0)) m)) with (1 - y * y * m, 0) by (unfold csub, cmul_real, csquare; cbn [fst snd]; f_equal; ring).
  assert (D : 1 - y * y < 1 - y * y * m) by nra. assert (D0 : 0 < 1 - y * y) by nra. rewrite csqrt_real by lra. pose proof (sqrt_lt_1_alt (1 - y * y) (1 - y * y * m) ltac:(lra)) as Q. pose proof (sqrt_lt_R0 _ D0) as Q0.
  rewrite cdiv_real by lra. eexists. split; [reflexivity|]. rewrite cos_asin by lra. replace (1 - y²) with (1 - y * y) by reflexivity. split; [apply Rdiv_lt_0_compat; lra|]. apply (Rmult_lt_reg_r (sqrt (1 - y * y * m))); [lra|]. unfold Rdiv. rewrite Rmult_assoc, Rinv_l by lra. lra.
Qed.
