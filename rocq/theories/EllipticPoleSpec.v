(* Where the zeros and poles of an elliptic filter belong. *)
From Coq Require Import Reals.
From Coquelicot Require Import Coquelicot.
From Verif Require Import EllipticPathSpec.
Local Open Scope R_scope.

(* p = i cos(phi) / sqrt(1 - k^2 sin(phi)^2), the value of i cd at the point whose amplitude is phi *)
Definition pole_at (k : R) (phi p : C) : Prop :=
  fst p < 0 /\ 0 < snd p /\
  Cmult (Cmult p p) (Cminus (RtoC 1) (Cmult (RtoC (k * k)) (Cmult (sine phi) (sine phi)))) = Cminus (Cmult (sine phi) (sine phi)) (RtoC 1).
(* y = sqrt(1 - k^2 sin(theta)^2) / (k cos(theta)) *)
Definition zero_at (k theta y : R) : Prop :=
  (k * y) * (k * y) * (cos theta * cos theta) = 1 - k * k * (sin theta * sin theta).
Fixpoint sines (theta : nat -> R) (n : nat) : R := match n with O => 1 | S j => sines theta j * sin (theta j) end.
