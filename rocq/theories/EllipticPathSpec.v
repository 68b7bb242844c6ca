(* The elliptic integral of the first kind along the straight path from 0 to a complex amplitude. *)
From Coq Require Import Reals.
From Coquelicot Require Import Coquelicot.
Local Open Scope R_scope.

(* the square root with positive real part of a number that is not zero or negative *)
Definition root (z : C) : C := let q := sqrt ((Cmod z + fst z) / 2) in (q, snd z / (2 * q)).
Definition sine (z : C) : C := (sin (fst z) * cosh (snd z), cos (fst z) * sinh (snd z)).
(* derivative of the integral with respect to the position t on the path t phi *)
Definition speed (phi : C) (m t : R) : C :=
  let s := sine (t * fst phi, t * snd phi) in
  Cdiv phi (root (Cminus (RtoC 1) (Cmult (RtoC m) (Cmult s s)))).
Definition F_path (phi : C) (m : R) : C := (RInt (fun t => fst (speed phi m t)) 0 1, RInt (fun t => snd (speed phi m t)) 0 1).
(* the integral of the modulus *)
Definition F_length (phi : C) (m : R) : R := RInt (fun t => Cmod (speed phi m t)) 0 1.
