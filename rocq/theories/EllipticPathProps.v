(* Properties of EllipticF at complex amplitudes. *)
From Coq Require Import ZArith Reals Lra Lia List Bool.
From Coquelicot Require Import Coquelicot.
From Verif Require Import Common RealUtil CInt ComplexModel ComplexProofs EllipticModel EllipticSpec EllipticAxisSpec EllipticPathSpec EllipticPathProofs6.
Import ListNotations.
Local Open Scope R_scope.
Local Notation C := Complex.C.

(* C92: in the open strip |real(phi)| < pi / 2 EllipticF is the integral along the straight path from 0 to phi, up to
   a part of the integral of the modulus.  Parameters of at most 2^-104 need a bound on the imaginary part. *)
Theorem C92_complex : forall ex (phi : C) m, 0 <= m <= 1 - / 2 ^ 53 -> / 2 ^ 104 < m \/ sqrt m * (cosh (snd phi) * cosh (snd phi)) <= 1 -> Rabs (fst phi) < PI / 2 ->
  exists v : C, elliptic_f ex phi m = Ok v /\ Cmod (Cminus v (F_path phi m)) <= 2 / 10 ^ 12 * F_length phi m /\
    (/ 1000 <= Cmod phi -> Cmod (Cminus v (F_path phi m)) <= / 2 ^ 52 * F_length phi m).
Proof. exact complex_all. Qed.
Print Assumptions C92_complex.

(* C92: the path integral restricts to the integrals of C92_incomplete and C92_imaginary on the two axes. *)
Theorem C92_path_on_axes : forall x m, 0 <= m < 1 -> F_path (x, 0) m = (F x m, 0) /\ F_path (0, x) m = (0, F_i x m).
Proof. intros x m M. split; [now apply path_real|now apply path_imag]. Qed.
Print Assumptions C92_path_on_axes.

(* phi = 1 + 2 i and m = 1 / 2 are in the domain. *)
Example C92_complex_domain : / 2 ^ 104 < 1 / 2 <= 1 - / 2 ^ 53 /\ Rabs (fst (1, 2)) < PI / 2 /\ / 1000 <= Cmod (1, 2).
Proof.
  split; [lra|]. cbn [fst]. rewrite Rabs_pos_eq by lra. pose proof PI2_1. split; [lra|].
  apply Rle_trans with (Rabs 1); [rewrite Rabs_pos_eq; lra|]. pose proof (Rmax_Cmod (1, 2)) as X. cbn [fst snd] in X. pose proof (Rmax_l (Rabs 1) (Rabs 2)). lra.
Qed.
