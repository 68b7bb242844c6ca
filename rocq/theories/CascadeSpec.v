(* Transfer function of a cascade and what it means to be stable. *)
From Verif Require Import Common RealUtil BiquadModel DesignSpec.
From Coquelicot Require Import Complex.
Local Open Scope C_scope.

(* cascade_value cs z h: every stage has a value at z and h is their product *)
Fixpoint cascade_value (cs : list (coeffs R)) (z h : C) : Prop :=
  match cs with
  | [] => h = RtoC 1
  | c :: r => exists h1 h2, has_value c z h1 /\ cascade_value r z h2 /\ h = h1 * h2
  end.

(* the same transfer function: values at the same points z <> 0, and the same values *)
Definition same_response (cs cs' : list (coeffs R)) : Prop :=
  forall z h, z <> RtoC 0 -> (cascade_value cs z h <-> cascade_value cs' z h).

(* a polynomial in z^-1 at z^-1 = u *)
Fixpoint peval (p : list R) (u : C) : C :=
  match p with
  | [] => RtoC 0
  | a :: p' => RtoC a + u * peval p' u
  end.
(* A(z^-1) has a root only strictly inside the unit circle: no root u = z^-1 with |u| <= 1 *)
Definition stable_poly (a : list R) : Prop := forall u : C, (Cmod u <= 1)%R -> peval a u <> RtoC 0.

(* Coefficients that are exactly zero or clearly above the 1e-10 below which the code treats
   them as zero; 1e-5 because products of two first order coefficients must stay above it. *)
Definition separated (p0 p1 p2 : R) : Prop :=
  (p2 = 0 /\ (p1 = 0 \/ / 100000 < Rabs p1) \/ / 10000000000 < Rabs p2)%R.
(* A stage as the filter designs produce them: separated coefficients, a0 <> 0; a constant
   numerator is at least 1 and a constant denominator at most 1, so that folding a gain into
   another stage does not shrink its coefficients. *)
Definition well_scaled (c : coeffs R) : Prop :=
  (separated (b0 c) (b1 c) (b2 c) /\ separated (a0 c) (a1 c) (a2 c) /\ a0 c <> 0 /\
   (b1 c = 0 -> b2 c = 0 -> 1 <= Rabs (b0 c)) /\ (a1 c = 0 -> a2 c = 0 -> Rabs (a0 c) <= 1))%R.
