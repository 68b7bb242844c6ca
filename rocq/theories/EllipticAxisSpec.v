(* Elliptic integrals of the first kind along the imaginary axis: F(i y | m) is i times [F_i y m]. *)
From Coq Require Import Reals.
From Coquelicot Require Import Coquelicot.
Local Open Scope R_scope.

Definition integrand_i (m t : R) : R := / sqrt (1 + m * (sinh t * sinh t)).
Definition F_i (y m : R) : R := RInt (integrand_i m) 0 y.
