(* Properties of the elliptic functions on the imaginary axis. *)
From Coq Require Import ZArith Reals Lra Lia List Bool.
From Verif Require Import Common RealUtil CInt ComplexModel ComplexProofs EllipticModel EllipticSpec EllipticAxisSpec EllipticProofs5 EllipticAxisProofs EllipticAxisProofs2 EllipticAxisProofs3.
Import ListNotations.
Local Open Scope R_scope.

(* C92: on the imaginary axis, which the elliptic filter design uses, EllipticF is the incomplete integral along it.
   For parameters of at most 2^-104 this needs a bound on the amplitude. *)
Theorem C92_imaginary : forall ex y m, 0 <= m <= 1 - / 2 ^ 53 -> / 2 ^ 104 < m \/ sqrt m * (sinh y * sinh y) < 1 ->
  exists v, elliptic_f ex (0, y) m = Ok (0, v) /\ Rabs (v - F_i y m) <= 3 / 10 ^ 13 * Rabs (F_i y m) /\
    (/ 1000 <= Rabs y -> Rabs (v - F_i y m) <= / 2 ^ 52 * Rabs (F_i y m)).
Proof. exact imaginary_f. Qed.
Print Assumptions C92_imaginary.

(* C92: for imaginary u below the complementary quarter period K(1 - m), JacobiAmplitude finds the imaginary
   amplitude whose integral is u. *)
Theorem C92_imaginary_amplitude : forall ex u m, / 2 ^ 104 < m <= 1 - / 2 ^ 53 -> Rabs u < K (1 - m) ->
  exists y, jacobi_amplitude ex (0, u) m = Ok (0, y) /\ Rabs (F_i y m - u) <= / 2 ^ 53 * Rabs u.
Proof. exact imaginary_amplitude. Qed.
Print Assumptions C92_imaginary_amplitude.

(* C92: Jacobi's imaginary transformation ties the integral along the imaginary axis to the real one, so the value
   at i y is an integral with the complementary parameter and stays below its quarter period. *)
Theorem C92_imaginary_transformation : forall y m, 0 < m <= 1 -> F_i y m = F (atan (sinh y)) (1 - m) /\ Rabs (F_i y m) <= K (1 - m).
Proof.
  intros y m M. split; [now apply jacobi_imaginary|]. rewrite jacobi_imaginary, F_abs by lra. apply EllipticProofs.F_incr; [lra|]. pose proof (atan_bound (sinh y)). unfold Rabs. destruct (Rcase_abs (atan (sinh y))); lra.
Qed.
Print Assumptions C92_imaginary_transformation.

(* C92, refuted for parameters 0 < m <= 2^-104: the sequence of moduli stops before it starts, EllipticF returns its
   argument, and along the imaginary axis, where the integral is bounded by K(1 - m), the error exceeds every bound. *)
Theorem C92_tiny_parameter_refuted : forall ex m, 0 < m <= / 2 ^ 104 -> forall B, exists y, elliptic_f ex (0, y) m = Ok (0, y) /\ F_i y m + B <= y.
Proof. exact tiny_parameter. Qed.
Print Assumptions C92_tiny_parameter_refuted.

(* m = 1/2 and u = 1 are in the domain; so is m = 2^-106 for y = 1. *)
Example C92_imaginary_domain : / 2 ^ 104 < 1 / 2 <= 1 - / 2 ^ 53 /\ Rabs 1 < K (1 - 1 / 2) /\ sqrt (/ 2 ^ 106) * (sinh 1 * sinh 1) < 1.
Proof.
  split; [lra|]. split.
  - rewrite Rabs_pos_eq by lra. pose proof (K_pos (1 - 1 / 2) ltac:(lra)). pose proof PI2_1. lra.
  - replace (/ 2 ^ 106) with (/ 2 ^ 53 * / 2 ^ 53) by lra. rewrite sqrt_square by lra. assert (S : 0 <= sinh 1 <= 2). { split; [apply sinh_pos; lra|]. unfold sinh. pose proof exp_le_3. pose proof (exp_pos (- (1))). lra. } assert (sinh 1 * sinh 1 <= 4) by nra. nra.
Qed.
(* For m = 0 the integral is the amplitude itself. *)
Example C92_imaginary_zero : forall ex, elliptic_f ex (0, 5) 0 = Ok (0, 5).
Proof.
  intros ex. assert (S : landen_sequence 0 = Ok (0, [])). { unfold landen_sequence. rewrite !Rltb_false by lra. cbn [orb]. rewrite sqrt_0. cbn [landen_loop]. rewrite Rltb_false; [reflexivity|unfold dbl_epsilon; lra]. }
  rewrite (elliptic_f_large_i ex 0 0 [] 5 ltac:(lra) I S ltac:(rewrite Rabs_pos_eq; lra)). cbn [descend_i_all EllipticProofs2.product]. rewrite arcsinh_sinh. f_equal. f_equal. ring.
Qed.
