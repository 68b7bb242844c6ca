(* Elliptic integrals of the first kind. *)
From Coq Require Import Reals.
From Coquelicot Require Import Coquelicot.
Local Open Scope R_scope.

Definition integrand (m t : R) : R := / sqrt (1 - m * (sin t * sin t)).
Definition F (phi m : R) : R := RInt (integrand m) 0 phi.
Definition K (m : R) : R := F (PI / 2) m.
