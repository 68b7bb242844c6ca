(* C05: the integer helpers are exact wherever the C arithmetic is defined, and
   the arguments for which it is not are given exactly. [int z] says that z is
   a 32-bit int. *)
From Verif Require Import CInt NumberUtilModel NumberUtilProofs.

Theorem C05_modulo : forall v m, int v -> int m -> 0 < m -> v <> INT_MIN ->
  exists r, modulo v m = Ok r /\ 0 <= r < m /\ (m | v - r).
Proof. exact modulo_spec. Qed.
Print Assumptions C05_modulo.

(* The one argument of Modulo that overflows although the result would fit. *)
Theorem C05_modulo_int_min_undefined : forall m, int m -> 0 < m -> modulo INT_MIN m = Undef.
Proof. exact modulo_int_min. Qed.
Print Assumptions C05_modulo_int_min_undefined.

Theorem C05_modulo_bad_modulus : forall v m, m <= 0 -> modulo v m = CheckFail.
Proof. exact modulo_bad. Qed.
Print Assumptions C05_modulo_bad_modulus.

Theorem C05_round_down : forall v f, int v -> int f -> 0 < f ->
  (0 <= v \/ INT_MIN <= v - f ->
   exists r, round_down_to_multiple v f = Ok r /\ (f | r) /\ r <= v < r + f) /\
  (v < 0 -> v - f < INT_MIN -> round_down_to_multiple v f = Undef).
Proof. exact round_down_spec. Qed.
Print Assumptions C05_round_down.

Theorem C05_round_up : forall v f, int v -> int f -> 0 < f ->
  (v <> INT_MIN -> v <= 0 \/ v + f <= INT_MAX ->
   exists r, round_up_to_multiple v f = Ok r /\ round_up_to_multiple_c v f = Ok r /\
     (f | r) /\ r - f < v <= r) /\
  (v = INT_MIN \/ 0 < v /\ INT_MAX < v + f ->
   round_up_to_multiple v f = Undef /\ round_up_to_multiple_c v f = Undef).
Proof. exact round_up_spec. Qed.
Print Assumptions C05_round_up.

Theorem C05_gcd : forall a b, int a -> int b -> 0 <= a -> 0 <= b ->
  exists g, gcd_cc a b = Ok g /\ 0 <= g /\ forall d, (d | g) <-> (d | a) /\ (d | b).
Proof. exact gcd_spec. Qed.
Print Assumptions C05_gcd.

(* The portable version accepts negative numbers: gcd up to sign. *)
Theorem C05_gcd_portable : forall a b, int a -> int b -> a <> INT_MIN -> b <> INT_MIN ->
  exists g, gcd_c a b = Ok g /\ forall d, (d | g) <-> (d | a) /\ (d | b).
Proof. exact gcd_c_spec. Qed.
Print Assumptions C05_gcd_portable.

Theorem C05_gcd_vector : forall x rest, Forall (fun z => int z /\ 0 <= z) (x :: rest) ->
  exists g, gcd_vector (x :: rest) = Ok g /\ 0 <= g /\
    (forall d, (d | g) <-> Forall (fun z => (d | z)) (x :: rest)).
Proof. exact gcd_vector_ok. Qed.
Print Assumptions C05_gcd_vector.

Theorem C05_is_power_of_two_or_zero : forall v, 0 <= v <= UINT_MAX ->
  is_power_of_two_or_zero v = true <-> v = 0 \/ exists k, 0 <= k /\ v = 2 ^ k.
Proof. exact is_pow2_ok. Qed.
Print Assumptions C05_is_power_of_two_or_zero.

Theorem C05_log2_floor : forall v, 0 <= v <= UINT_MAX ->
  exists r, log2_floor v = Ok r /\
    (v = 0 -> r = -1) /\ (0 < v -> 0 <= r /\ 2 ^ r <= v < 2 ^ (r + 1)).
Proof. exact log2_floor_spec. Qed.
Print Assumptions C05_log2_floor.

Theorem C05_log2_ceiling : forall v, 0 < v <= UINT_MAX ->
  exists r, log2_ceiling v = Ok r /\ 0 <= r /\ forall k, 0 <= k -> (v <= 2 ^ k <-> r <= k).
Proof. exact log2_ceiling_spec. Qed.
Print Assumptions C05_log2_ceiling.

Theorem C05_next_power_of_two : forall v, 0 < v <= 2147483648 ->
  exists k, 0 <= k /\ next_power_of_two v = Ok (2 ^ k) /\ v <= 2 ^ k /\
    forall j, 0 <= j -> v <= 2 ^ j -> 2 ^ k <= 2 ^ j.
Proof. exact next_pow2_spec. Qed.
Print Assumptions C05_next_power_of_two.

(* No power of two fits: the DCHECK fires. *)
Theorem C05_next_power_of_two_too_big : forall v, 2147483648 < v <= UINT_MAX ->
  next_power_of_two v = CheckFail.
Proof. exact next_pow2_big. Qed.
Print Assumptions C05_next_power_of_two_too_big.

(* The least power of two >= 0 is 1, but the code shifts by -1. *)
Theorem C05_next_power_of_two_zero_undefined : next_power_of_two 0 = Undef.
Proof. exact next_pow2_zero. Qed.
Print Assumptions C05_next_power_of_two_zero_undefined.

Example C05_cases :
  modulo (-7) 3 = Ok 2 /\ round_down_to_multiple (-7) 3 = Ok (-9) /\
  round_up_to_multiple (-7) 3 = Ok (-6) /\ gcd_cc 48 36 = Ok 12 /\
  gcd_c 4 (-6) = Ok (-2) /\ gcd_vector [12; 18; 27] = Ok 3 /\
  is_power_of_two_or_zero 96 = false /\ log2_floor 4294967295 = Ok 31 /\
  log2_ceiling 5 = Ok 3 /\ next_power_of_two 2147483647 = Ok 2147483648 /\
  round_down_to_multiple (-2147483647) 2 = Undef /\
  round_up_to_multiple 2147483640 8 = Undef.
Proof. vm_compute. repeat split; reflexivity. Qed.
