(* The modified Bessel functions of the first kind, orders 0 and 1, as power
   series:  I_n(x) = sum_k (x/2)^(2k+n) / (k! (k+n)!). *)
From Coq Require Import Reals.
Local Open Scope R_scope.

Definition bessel_term (n : nat) (x : R) (k : nat) : R :=
  (x / 2) ^ (2 * k + n) / (INR (fact k) * INR (fact (k + n))).

Fixpoint bessel_partial (n : nat) (x : R) (K : nat) : R :=
  match K with
  | O => 0
  | S K' => bessel_partial n x K' + bessel_term n x K'
  end.

(* [l] is the value of I_n at x. *)
Definition is_bessel_i (n : nat) (x l : R) : Prop := Un_cv (bessel_partial n x) l.
