(* What a best rational approximation is. *)
From Verif Require Import CInt.
From Coq Require Import QArith Qabs.
Open Scope Z_scope.

(* The distance from x to the fraction u / v (v > 0). *)
Definition dist (x : Q) (u v : Z) : Q := Qabs (x - inject_Z u / inject_Z v).

(* p / q is in lowest terms, has an admissible denominator, and no fraction
   with an admissible denominator and a numerator that fits in an int (with
   either sign) is closer. *)
Definition best_approximation (x : Q) (max_den p q : Z) : Prop :=
  1 <= q <= max_den /\ INT_MIN <= p <= INT_MAX /\ Z.gcd p q = 1 /\
  forall u v, 1 <= v <= max_den -> - INT_MAX <= u <= INT_MAX ->
    (dist x p q <= dist x u v)%Q.
