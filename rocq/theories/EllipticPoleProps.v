(* The roots of the elliptic designs (audio/dsp/portable/iir_design.c and
   audio/linear_filters/biquad_filter_design_pole_zero.cc). *)
From Verif Require Import Common RealUtil CInt ComplexModel EllipticSpec EllipticAxisSpec EllipticPathSpec ZpkModel EllipticDesignModel EllipticPoleSpec EllipticPoleProofs2.
From Coquelicot Require Import Coquelicot.
Local Open Scope R_scope.
Local Notation C := Complex.C.

(* ---------- C94 ---------- *)
(* For orders 2 to 10, passband ripples of 1 to 3 dB and stopband attenuations of 20 to 100 dB the zeros and poles
   are where the theory of elliptic filters puts them, in terms of the integrals that define the elliptic functions.
   With ep and es the two ripples as amplitudes and k1 = ep / es:
   - the modulus k solves the degree equation, k' = k1'^n times the product of sn((2 i + 1) K1' / n, k1')^4;
   - n v K(k1) is the inverse sn of i / ep for the modulus k1;
   - the poles are i cd((2 i + 1) K / n - i v K, k), each with its conjugate by C94_structure;
   - the zeros are i / (k cd((2 i + 1) K / n, k)), each with its conjugate;
   - an odd order has the real pole i sn(i v K, k).
   All of it is up to a part in 10^11 of the integrals.  Higher orders and other ripples are missing. *)
Theorem C94_roots_partial ex order rp rs : (2 <= order <= 10)%Z -> 1 <= rp <= 3 -> 20 <= rs <= 100 ->
  let ep := sqrt (Rpower 10 (rp / 10) - 1) in let k1 := ep / sqrt (Rpower 10 (rs / 10) - 1) in
  exists f k v L theta, elliptic_zpk ex order rp rs = Ok (Some f) /\ 0 < k < 1 /\ 0 < v /\ L <= K (k * k) <= L * (1 + / 2 ^ 104) /\
    (k * k = 1 - (sqrt (1 - k1 * k1) ^ Z.to_nat order * sines theta (Z.to_nat (order / 2)) ^ 4) ^ 2 /\
     forall i, (2 * Z.of_nat i + 1 < order)%Z -> - (PI / 2) <= theta i <= PI / 2 /\
       Rabs (F (theta i) (1 - k1 * k1) - (2 * INR i + 1) / IZR order * K (1 - k1 * k1)) <= / 10 ^ 11 * K (1 - k1 * k1)) /\
    Rabs (IZR order * v * K (k1 * k1) - F_i (arcsinh (1 / ep)) (k1 * k1)) <= / 10 ^ 11 * F_i (arcsinh (1 / ep)) (k1 * k1) /\
    (forall i, (2 * Z.of_nat i + 1 < order)%Z -> exists (phi p : C), In p (z_poles f) /\ pole_at k phi p /\ 0 < fst phi < PI / 2 /\ snd phi < 0 /\
       Cmod (Cminus ((2 * INR i + 1) / IZR order * L, - (v * L)) (F_path phi (k * k))) <= / 2 ^ 52 * F_length phi (k * k)) /\
    (forall i, (2 * Z.of_nat i + 1 < order)%Z -> exists th y, In (0, y) (z_zeros f) /\ zero_at k th y /\ - (PI / 2) <= th <= PI / 2 /\
       Rabs (F th (k * k) - (2 * INR i + 1) / IZR order * L) <= / 2 ^ 102 * K (k * k)) /\
    (Z.odd order = true -> exists y, In (- sinh y, 0) (z_poles f) /\ Rabs (F_i y (k * k) - v * L) <= / 2 ^ 53 * (v * L)).
Proof. exact (roots_at ex order rp rs). Qed.
Print Assumptions C94_roots_partial.

(* The third-order filter with 1 dB of ripple and 40 dB of attenuation: its real pole, and a pole and a zero of its
   only pair. *)
Example elliptic_third_roots ex : exists f k v L y phi th z (p : C), elliptic_zpk ex 3 1 40 = Ok (Some f) /\ L <= K (k * k) <= L * (1 + / 2 ^ 104) /\
  In (- sinh y, 0) (z_poles f) /\ Rabs (F_i y (k * k) - v * L) <= / 2 ^ 53 * (v * L) /\
  In p (z_poles f) /\ pole_at k phi p /\ Cmod (Cminus (1 / 3 * L, - (v * L)) (F_path phi (k * k))) <= / 2 ^ 52 * F_length phi (k * k) /\
  In (0, z) (z_zeros f) /\ zero_at k th z /\ Rabs (F th (k * k) - 1 / 3 * L) <= / 2 ^ 102 * K (k * k).
Proof.
  destruct (C94_roots_partial ex 3 1 40 ltac:(lia) ltac:(lra) ltac:(lra)) as (f & k & v & L & theta & E & _ & _ & KL & _ & _ & P & Z & O).
  destruct (O eq_refl) as (y & O1 & O2). destruct (P 0%nat ltac:(cbn; lia)) as (phi & p & P1 & P2 & _ & _ & P3). destruct (Z 0%nat ltac:(cbn; lia)) as (th & z & Z1 & Z2 & _ & Z3).
  replace ((2 * INR 0 + 1) / 3) with (1 / 3) in P3, Z3 by (cbn; lra). exists f, k, v, L, y, phi, th, z, p. tauto.
Qed.
