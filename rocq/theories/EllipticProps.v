(* Properties of the elliptic functions. *)
From Coq Require Import ZArith Reals Lra Lia List Bool.
From Coquelicot Require Import Coquelicot.
From Verif Require Import Common RealUtil CInt ComplexModel ComplexProofs EllipticModel EllipticSpec EllipticProofs EllipticProofs2 EllipticProofs3 EllipticProofs4 EllipticProofs5 EllipticProofs6.
Import ListNotations.
Local Open Scope R_scope.

(* C92: EllipticK is the complete integral to a relative 2^-104, or 10^-12 next to m = 1 where the
   asymptotic formula takes over.  At m = 1, where the integral grows without bound, the result is infinity. *)
Theorem C92_complete :
  (forall m, 0 <= m <= 1 - / 10 ^ 12 -> exists v, elliptic_k m = Ok (Some v) /\ v <= K m <= v * (1 + / 2 ^ 104)) /\
  (forall m, 1 - / 10 ^ 12 < m < 1 -> exists v, elliptic_k m = Ok (Some v) /\ Rabs (v - K m) <= / 10 ^ 12 * K m) /\
  elliptic_k 1 = Ok None /\ (forall B, exists m0, 0 <= m0 < 1 /\ forall m, m0 <= m < 1 -> B < K m) /\
  (forall m, m < 0 \/ 1 < m -> elliptic_k m = Undef).
Proof.
  split; [|split; [|split; [|split]]].
  - intros m M. unfold elliptic_k. destruct (Reqb_spec m 1) as [E|_]; [lra|]. rewrite Rltb_false by lra.
    destruct (sequence_ok m) as (k & ks & S & H); [split; lra|]. rewrite S. cbn [obind]. eexists. split; [reflexivity|]. now apply (K_close m k).
  - intros m M. unfold elliptic_k. destruct (Reqb_spec m 1) as [E|_]; [lra|]. rewrite Rltb_true by lra. rewrite Rltb_false by lra. eexists. split; [reflexivity|]. now apply asymptotic.
  - unfold elliptic_k. now rewrite (proj2 (Reqb_true_iff 1 1) eq_refl).
  - exact K_diverges.
  - intros m M. unfold elliptic_k, landen_sequence. destruct (Reqb_spec m 1) as [E|_]; [lra|]. destruct M as [M|M].
    + rewrite Rltb_false by lra. rewrite Rltb_true by lra. reflexivity.
    + rewrite !Rltb_true by lra. reflexivity.
Qed.
Print Assumptions C92_complete.

(* C92: for real amplitudes EllipticF is the incomplete integral. *)
Theorem C92_incomplete : forall ex phi m, 0 <= m <= 1 - / 2 ^ 53 -> - (PI / 2) <= phi <= PI / 2 ->
  exists v, elliptic_f ex (phi, 0) m = Ok (v, 0) /\ Rabs (v - F phi m) <= 3 / 10 ^ 13 * Rabs (F phi m) /\
    (/ 1000 <= Rabs phi -> Rabs (v - F phi m) <= / 2 ^ 104 * Rabs (F phi m)).
Proof.
  intros ex phi m M P. destruct (Rlt_dec (Rabs phi) (/ 1000)) as [L|L].
  - rewrite elliptic_f_small by exact L. eexists. split; [reflexivity|]. split; [apply small_close; [now apply m_lt|exact L]|intros; lra].
  - destruct (sequence_ok m M) as (k & ks & S & H). rewrite (elliptic_f_large ex m k ks phi H S P) by lra. eexists. split; [reflexivity|].
    pose proof (F_close_abs m k ks phi H P) as B. split; [|intros _; exact B]. apply Rle_trans with (1 := B). apply Rmult_le_compat_r; [apply Rabs_pos|lra].
Qed.
Print Assumptions C92_incomplete.

(* C92: for real u up to the quarter period, JacobiAmplitude finds the amplitude whose incomplete integral is u. *)
Theorem C92_amplitude : forall ex u m, 0 <= m <= 1 - / 2 ^ 53 -> Rabs u <= K m ->
  exists phi, jacobi_amplitude ex (u, 0) m = Ok (phi, 0) /\ - (PI / 2) <= phi <= PI / 2 /\
    Rabs (F phi m - u) <= / 2 ^ 102 * K m /\ forall psi, F psi m = u -> Rabs (phi - psi) <= / 2 ^ 102 * K m.
Proof.
  intros ex u m M U. destruct (amplitude_close ex m u M U) as (phi & E & P & B). exists phi. repeat split; try assumption; try apply P.
  intros psi <-. apply Rle_trans with (2 := B). apply F_apart. now apply m_lt.
Qed.
Print Assumptions C92_amplitude.

(* C92: the two functions undo each other exactly, on complex amplitudes in the open strip and on real ones
   in the closed interval, outside the disc where EllipticF uses its short series; and from the other side. *)
Theorem C92_inverse :
  (forall ex phi m, 0 <= m < 1 -> / 10 ^ 6 <= cabs2 phi -> Rabs (fst phi) < PI / 2 \/ (Rabs (fst phi) <= PI / 2 /\ snd phi = 0) ->
    exists u, elliptic_f ex phi m = Ok u /\ jacobi_amplitude ex u m = Ok phi) /\
  (forall ex u m v, m < 1 -> elliptic_k m = Ok (Some v) -> m <= 1 - / 10 ^ 12 -> Rabs u <= v ->
    exists phi, jacobi_amplitude ex (u, 0) m = Ok (phi, 0) /\ - (PI / 2) <= phi <= PI / 2 /\ (/ 1000 <= Rabs phi -> elliptic_f ex (phi, 0) m = Ok (u, 0))).
Proof.
  split.
  - intros ex [a b] m M B P. apply inverse_gen; try assumption. cbn [fst snd] in P. destruct P as [P|[P ->]].
    + apply casin_sin. unfold Rabs in P. destruct (Rcase_abs a); lra.
    + rewrite csin_real. rewrite casin_real by apply SIN_bound. rewrite asin_sin; [reflexivity|]. unfold Rabs in P. destruct (Rcase_abs a); lra.
  - intros ex u m v M1 V M2 U. unfold elliptic_k in V. destruct (Reqb_spec m 1) as [E|_]; [lra|]. rewrite Rltb_false in V by lra. unfold landen_sequence in V.
    destruct (Rltb_spec m 0) as [L|L]; [discriminate V|]. rewrite Rltb_false in V by lra. cbn [orb obind] in V. injection V as <-. apply amplitude_ok; [lra|exact U].
Qed.
Print Assumptions C92_inverse.

(* C92: the C++ functions are the portable ones on the domain they check. *)
Theorem C92_versions_agree :
  (forall m, cc_elliptic_k m = if Rleb 0 m && Rleb m 1 then elliptic_k m else CheckFail) /\
  (forall ex phi m, Rabs (fst phi) <= PI / 2 -> 0 <= m < 1 -> cc_elliptic_f ex phi m = elliptic_f ex phi m) /\
  (forall ex phi m, PI / 2 < Rabs (fst phi) \/ m < 0 \/ 1 <= m -> cc_elliptic_f ex phi m = CheckFail) /\
  (forall ex u m, 0 <= m < 1 -> cc_jacobi_amplitude ex u m = jacobi_amplitude ex u m) /\
  (forall ex u m, m < 0 \/ 1 <= m -> cc_jacobi_amplitude ex u m = CheckFail).
Proof.
  split; [|split; [|split; [|split]]].
  - intros m. unfold cc_elliptic_k. destruct (Rltb_spec m 0), (Rltb_spec 1 m), (Rleb_spec 0 m), (Rleb_spec m 1); cbn [orb andb]; try reflexivity; lra.
  - intros ex phi m P M. rewrite cc_f. rewrite Rleb_true by exact P. rewrite Rltb_false by lra. rewrite Rltb_true by lra. reflexivity.
  - intros ex phi m H. rewrite cc_f. destruct (Rleb_spec (Rabs (fst phi)) (PI / 2)), (Rltb_spec m 0), (Rltb_spec m 1); cbn [negb orb]; try reflexivity; lra.
  - intros ex u m M. rewrite cc_am. rewrite Rltb_false by lra. rewrite Rltb_true by lra. reflexivity.
  - intros ex u m H. rewrite cc_am. destruct (Rltb_spec m 0), (Rltb_spec m 1); cbn [negb orb]; try reflexivity; lra.
Qed.
Print Assumptions C92_versions_agree.

(* C92, refuted beyond the quarter period: the header gives cn(u|m) = cos(phi) without a bound on u, but the result
   is always folded into |phi| <= pi/2.  For m = 0, where am(u|0) = u and cn(u|0) = cos(u), u = pi gives phi = 0. *)
Theorem C92_beyond_quarter_period_refuted :
  (forall phi, F phi 0 = phi) /\ forall ex, exists phi, jacobi_amplitude ex (PI, 0) 0 = Ok (phi, 0) /\ phi = 0 /\ cos phi <> cos PI.
Proof.
  split.
  - intros phi. unfold F. rewrite (RInt_ext (V := R_CompleteNormedModule) _ (fun _ => 1)).
    + rewrite RInt_const. unfold scal, mult. cbn. unfold mult. cbn. ring.
    + intros t _. unfold integrand. rewrite Rmult_0_l, Rminus_0_r, sqrt_1. apply Rinv_1.
  - intros ex. exists 0. split; [|split; [reflexivity|rewrite cos_0, cos_PI; lra]]. unfold jacobi_amplitude, landen_sequence. rewrite !Rltb_false by lra. cbn [orb]. rewrite sqrt_0.
    assert (E : landen_loop 9 0 = []) by (cbn [landen_loop]; rewrite Rltb_false; [reflexivity|unfold dbl_epsilon; lra]). rewrite E. cbn [obind k_from_landen fold_left ascend]. unfold cmul_real. cbn [fst snd].
    replace (0 * (PI / 2 / (PI / 2))) with 0 by ring. rewrite csin_real. replace (PI * (PI / 2 / (PI / 2))) with PI by (field; pose proof PI_RGT_0; lra). rewrite sin_PI. cbn [ascend obind].
    rewrite casin_real by lra. now rewrite asin_0.
Qed.
Print Assumptions C92_beyond_quarter_period_refuted.

(* For m = 1/2 the sequence is not empty; u = 1 is below the quarter period. *)
Example C92_example_domain : 0 <= 1 / 2 <= 1 - / 2 ^ 53 /\ landen_loop 9 (sqrt (1 / 2)) <> [] /\ Rabs 1 <= K (1 / 2) /\ / 10 ^ 6 <= cabs2 (1, 2) /\ Rabs (fst (1, 2)) < PI / 2.
Proof.
  split; [lra|]. split.
  - cbn [landen_loop]. rewrite Rltb_true; [discriminate|]. unfold dbl_epsilon. apply Rlt_le_trans with (sqrt (1 / 4)); [|apply sqrt_le_1_alt; lra]. replace (1 / 4) with (1 / 2 * (1 / 2)) by field. rewrite sqrt_square; lra.
  - pose proof PI2_1. split; [|split; [unfold cabs2; cbn [fst snd]; lra|cbn [fst]; rewrite Rabs_pos_eq; lra]]. rewrite Rabs_pos_eq by lra. pose proof (K_pos (1 / 2) ltac:(lra)). lra.
Qed.
(* For m = 0 the integral is the amplitude. *)
Example C92_example_zero : forall ex, elliptic_k 0 = Ok (Some (PI / 2)) /\ elliptic_f ex (1, 0) 0 = Ok (1, 0).
Proof.
  intros ex. assert (E : landen_sequence 0 = Ok (0, [])). { unfold landen_sequence. rewrite !Rltb_false by lra. cbn [orb]. rewrite sqrt_0. cbn [landen_loop]. rewrite Rltb_false; [reflexivity|unfold dbl_epsilon; lra]. }
  split.
  - unfold elliptic_k. destruct (Reqb_spec 0 1) as [X|_]; [lra|]. rewrite Rltb_false by lra. rewrite E. reflexivity.
  - unfold elliptic_f. rewrite Rltb_false by (unfold cabs2; cbn [fst snd]; lra). rewrite E. cbn [obind descend]. rewrite csin_real, casin_real by apply SIN_bound. pose proof PI2_1. rewrite asin_sin by lra. cbn [obind k_from_landen fold_left]. unfold cmul_real. cbn [fst snd]. f_equal. f_equal; field; lra.
Qed.
