(* C08: RationalApproximation, in exact rational arithmetic. *)
From Verif Require Import CInt RationalApproxModel RationalApproxSpec RationalApproxProofs.

(* With tolerance 0 the result is a best approximation, for every value
   (saturating at the int range) and every denominator bound. *)
Theorem C08_best_exact : forall opt x0 M,
  47 <= max_terms opt -> (convergence_tolerance opt == 0)%Q -> 1 <= M <= INT_MAX ->
  exists p q, rational_approximation opt x0 M = Ok (p, q) /\ best_approximation x0 M p q.
Proof. exact ra_exact. Qed.
Print Assumptions C08_best_exact.

(* With the default options (what the C++ API uses) for denominators below 5e8. *)
Theorem C08_best_default_partial : forall x0 M, 1 <= M <= 499999999 ->
  exists p q, rational_approximation ra_default x0 M = Ok (p, q) /\ best_approximation x0 M p q.
Proof. exact ra_default_small. Qed.
Print Assumptions C08_best_default_partial.

(* For every denominator bound the default result is reduced, admissible, and
   best or within 1e-9 / q^2. *)
Theorem C08_close_default_partial : forall x0 M, 1 <= M <= INT_MAX ->
  exists p q, rational_approximation ra_default x0 M = Ok (p, q) /\
    1 <= q <= M /\ Z.gcd p q = 1 /\
    (best_approximation x0 M p q \/
     (dist x0 p q * inject_Z q * inject_Z q <= 1 # 1000000000)%Q).
Proof. exact ra_default_close. Qed.
Print Assumptions C08_close_default_partial.

(* The unrestricted claim fails: 1/2000000000 is answered by 0/1. *)
Theorem C08_best_default_refuted :
  exists x0 M p q u v, 1 <= M <= INT_MAX /\
    rational_approximation ra_default x0 M = Ok (p, q) /\
    1 <= v <= M /\ - INT_MAX <= u <= INT_MAX /\ (dist x0 u v < dist x0 p q)%Q.
Proof. exact ra_default_refuted. Qed.
Print Assumptions C08_best_default_refuted.

Theorem C08_bad_denominator : forall opt x0 M, M <= 0 ->
  rational_approximation opt x0 M = Ok (0, 0).
Proof. exact ra_bad_den. Qed.
Print Assumptions C08_bad_denominator.

(* pi to 15 digits, with several bounds; the last one takes a semiconvergent. *)
Example C08_cases :
  let pi := (3141592653589793 # 1000000000000000)%Q in
  rational_approximation ra_default pi 10 = Ok (22, 7) /\
  rational_approximation ra_default (- pi) 106 = Ok (-333, 106) /\
  rational_approximation ra_default pi 100 = Ok (311, 99) /\
  rational_approximation ra_default (-5000000000 # 1) 7 = Ok (INT_MIN, 1).
Proof. vm_compute. repeat split. Qed.
