(* The two functions are inverses, and the two implementations agree. *)
From Coq Require Import ZArith Reals Lra Lia List Bool.
From Coquelicot Require Import Coquelicot.
From Verif Require Import Common RealUtil CInt ComplexModel ComplexProofs EllipticModel EllipticSpec EllipticProofs EllipticProofs2 EllipticProofs3 EllipticProofs4 EllipticProofs5.
Import ListNotations.
Local Open Scope R_scope.

Lemma sequence_lt m : 0 <= m < 1 -> exists k ks, landen_sequence m = Ok (k, ks) /\ 0 <= k < 1 /\ chain k ks.
Proof.
  intros M. exists (sqrt m), (landen_loop 9 (sqrt m)). unfold landen_sequence. rewrite !Rltb_false by lra. cbn [orb]. split; [reflexivity|].
  assert (Q : sqrt m * sqrt m = m) by (apply sqrt_sqrt; lra). pose proof (sqrt_pos m). split; [nra|apply loop_chain].
Qed.
Lemma cmul_real_cancel (a : cplx) r : r <> 0 -> cmul_real (cmul_real a (2 / PI * r)) (PI / 2 / r) = a.
Proof. intros N. pose proof PI_RGT_0. destruct a as [x y]. unfold cmul_real. cbn [fst snd]. f_equal; field; lra. Qed.
Lemma kf_pos m k ks : landen_sequence m = Ok (k, ks) -> 0 <= k < 1 -> chain k ks -> 0 < k_from_landen ks.
Proof. intros _ H C. rewrite k_from_landen_eq. pose proof (product_pos ks k H C). pose proof PI_RGT_0. nra. Qed.
Lemma inverse_gen ex phi m : 0 <= m < 1 -> / 10 ^ 6 <= cabs2 phi -> casin ex (csin phi) = Ok phi ->
  exists u, elliptic_f ex phi m = Ok u /\ jacobi_amplitude ex u m = Ok phi.
Proof.
  intros M B A. destruct (sequence_lt m M) as (k & ks & S & K & C). pose proof (kf_pos m k ks S K C) as P. unfold elliptic_f, jacobi_amplitude. rewrite Rltb_false by lra. rewrite S. cbn [obind].
  destruct (descend_inverse ex ks k (csin phi) K C) as (w' & D & U). rewrite D. cbn [obind]. destruct (casin_ok ex w') as (a & E & SA & _). rewrite E. cbn [obind].
  eexists. split; [reflexivity|]. rewrite cmul_real_cancel by lra. rewrite SA, U. cbn [obind]. exact A.
Qed.
Lemma amplitude_ok ex u m : 0 <= m < 1 -> Rabs u <= k_from_landen (landen_loop 9 (sqrt m)) -> exists phi, jacobi_amplitude ex (u, 0) m = Ok (phi, 0) /\ - (PI / 2) <= phi <= PI / 2 /\
  (/ 1000 <= Rabs phi -> elliptic_f ex (phi, 0) m = Ok (u, 0)).
Proof.
  intros M U. assert (S : landen_sequence m = Ok (sqrt m, landen_loop 9 (sqrt m))) by (unfold landen_sequence; rewrite !Rltb_false by lra; reflexivity).
  assert (K : 0 <= sqrt m < 1). { assert (Q : sqrt m * sqrt m = m) by (apply sqrt_sqrt; lra). pose proof (sqrt_pos m). nra. }
  pose proof (loop_chain 9 (sqrt m)) as C. set (k := sqrt m) in *. set (ks := landen_loop 9 k) in *. pose proof (product_pos ks k K C) as P. rewrite k_from_landen_eq in U. pose proof PI_RGT_0 as PP.
  assert (A : - (PI / 2) <= u / product ks <= PI / 2).
  { assert (Rabs (u / product ks) <= PI / 2). { apply (Rmult_le_reg_r (product ks)); [lra|]. rewrite <- (Rabs_pos_eq (product ks)) at 2 by lra. rewrite <- Rabs_mult. replace (u / product ks * product ks) with u by (field; lra). exact U. }
    unfold Rabs in H. destruct (Rcase_abs _); lra. }
  set (y := sin (u / product ks)). assert (Y : -1 <= y <= 1) by apply SIN_bound. exists (asin (ascend_all ks y)). split; [|split; [apply asin_bound|]].
  - unfold jacobi_amplitude. rewrite S. cbn [obind]. replace (cmul_real (u, 0) (PI / 2 / k_from_landen ks)) with (u / product ks, 0) by (unfold cmul_real; cbn [fst snd]; rewrite k_from_landen_eq; f_equal; field; lra).
    rewrite csin_real. fold y. rewrite (ascend_is_real ex ks k) by assumption. cbn [obind]. apply casin_real. now apply (ascend_range ks k).
  - intros L. unfold elliptic_f. rewrite small_abs2, Rltb_false by lra. rewrite S. cbn [obind]. pose proof (ascend_range ks k y K C Y) as R1. rewrite csin_real, sin_asin, descend_is_real by assumption. cbn [obind].
    rewrite descend_ascend by assumption. rewrite casin_real by exact Y. cbn [obind]. unfold y. rewrite asin_sin by exact A. unfold cmul_real. cbn [fst snd]. rewrite k_from_landen_eq. f_equal. f_equal; field; lra.
Qed.
(* both implementations *)
Lemma cabs_small ex phi : Rltb (cabs ex phi) (/ 10 ^ 3) = Rltb (cabs2 phi) (/ 10 ^ 6).
Proof.
  assert (Q : cabs ex phi * cabs ex phi = cabs2 phi). { rewrite cabs_Cmod. unfold Cmod, cabs2. rewrite sqrt_sqrt; [ring|]. nra. }
  assert (P : 0 <= cabs ex phi) by (rewrite cabs_Cmod; apply Cmod_ge_0).
  destruct (Rltb_spec (cabs2 phi) (/ 10 ^ 6)) as [L|L]; [apply Rltb_true|apply Rltb_false]; nra.
Qed.
Lemma cc_f ex phi m : cc_elliptic_f ex phi m = if negb (Rleb (Rabs (fst phi)) (PI / 2)) || Rltb m 0 || negb (Rltb m 1) then CheckFail else elliptic_f ex phi m.
Proof.
  unfold cc_elliptic_f, elliptic_f. destruct (_ || _); [reflexivity|]. rewrite cabs_small. destruct (Rltb _ _); [replace (cmul phi phi) with (csquare phi) by (unfold cmul, csquare; apply injective_projections; cbn; ring); reflexivity|].
  destruct (landen_sequence m) as [[k ks]| |]; cbn [obind]; try reflexivity. destruct (descend ex k ks (csin phi)) as [w| |]; cbn [obind]; try reflexivity.
  destruct (casin ex w) as [a| |]; cbn [obind]; try reflexivity. f_equal. unfold cmul_real. cbn [fst snd]. f_equal; ring.
Qed.
Lemma cc_am ex u m : cc_jacobi_amplitude ex u m = if Rltb m 0 || negb (Rltb m 1) then CheckFail else jacobi_amplitude ex u m.
Proof.
  unfold cc_jacobi_amplitude, jacobi_amplitude. destruct (Rltb_spec m 0) as [L|L]; [reflexivity|]. destruct (Rltb_spec m 1) as [L1|L1]; [|reflexivity]. cbn [orb negb].
  destruct (sequence_lt m ltac:(lra)) as (k & ks & S & K & C). pose proof (kf_pos m k ks S K C) as P. rewrite S. cbn [obind].
  rewrite cdiv_ok by (intros E; injection E; lra). cbn [obind]. f_equal. f_equal. f_equal. unfold cmul_real. cbn [fst snd]. unfold Cdiv, Cmult, Cinv. cbn [fst snd]. apply injective_projections; cbn; field; nra.
Qed.
Lemma K_diverges B : exists m0, 0 <= m0 < 1 /\ forall m, m0 <= m < 1 -> B < K m.
Proof.
  set (p := exp (- (2 * Rabs B + 2))). assert (P : 0 < p) by apply exp_pos. pose proof (Rabs_pos B) as AB. assert (P1 : p < 1) by (rewrite <- exp_0; apply exp_increasing; lra).
  exists (1 - p * p). split; [nra|]. intros m M. assert (M0 : 0 <= m < 1) by nra. pose proof (K_log m M0) as (L & _). cbv zeta in L.
  set (q := sqrt (1 - m)) in *. assert (Q0 : 0 < q) by (apply sqrt_lt_R0; lra). assert (Q : q <= p). { unfold q. rewrite <- (sqrt_square p) by lra. apply sqrt_le_1_alt. lra. }
  assert (LN : 2 * Rabs B + 2 <= ln (4 / q)).
  { rewrite <- (Ropp_involutive (2 * Rabs B + 2)), <- (ln_exp (- (2 * Rabs B + 2))). fold p. rewrite <- ln_Rinv by exact P. apply ln_mono; [now apply Rinv_0_lt_compat|].
    apply Rle_trans with (/ q); [apply Rinv_le_contravar; lra|]. unfold Rdiv. assert (0 < / q) by now apply Rinv_0_lt_compat. lra. }
  assert (1 / 2 * (2 * Rabs B + 2) <= (1 - q / 2) * ln (4 / q)) by (apply Rmult_le_compat; lra). pose proof (Rle_abs B). lra.
Qed.
