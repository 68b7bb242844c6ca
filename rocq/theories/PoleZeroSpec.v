(* Transfer functions given by poles and zeros. *)
From Verif Require Import Common RealUtil BiquadModel DesignSpec CascadeSpec PoleZeroModel.
From Coquelicot Require Import Complex.
Local Open Scope C_scope.

(* the roots of a filter, with both members of every conjugate pair *)
Definition roots (lone : list R) (paired : list C) : list C :=
  map RtoC lone ++ paired ++ map Cconj paired.
Definition zeros (f : pole_zero) : list C := roots (lone_zeros f) (paired_zeros f).
Definition poles (f : pole_zero) : list C := roots (lone_poles f) (paired_poles f).
(* the product of g r over a list *)
Fixpoint product_over (g : C -> C) (l : list C) : C :=
  match l with
  | [] => RtoC 1
  | r :: l' => g r * product_over g l'
  end.
(* analog_value f s h: H(s) = k (s - z0) ... / (s - p0) ... is defined and equal to h *)
Definition analog_value (f : pole_zero) (s h : C) : Prop :=
  product_over (fun p => s - p) (poles f) <> RtoC 0 /\
  h = RtoC (pz_gain f) * product_over (fun z => s - z) (zeros f) / product_over (fun p => s - p) (poles f).
(* digital_value f z h: H(z) = k (1 - z0 z^-1) ... / (1 - p0 z^-1) ... is defined and equal to h *)
Definition digital_value (f : pole_zero) (z h : C) : Prop :=
  product_over (fun p => RtoC 1 - p / z) (poles f) <> RtoC 0 /\
  h = RtoC (pz_gain f) * product_over (fun r => RtoC 1 - r / z) (zeros f) / product_over (fun p => RtoC 1 - p / z) (poles f).

(* a cascade has a finite response everywhere on and outside the unit circle *)
Definition stable_cascade (cs : list (coeffs R)) : Prop :=
  forall z : C, (1 <= Cmod z)%R -> exists h, cascade_value cs z h.

Local Open Scope R_scope.
(* The roots of a digital filter are zero or clearly away from zero. *)
Definition clear_roots (f : pole_zero) : Prop :=
  forall r, In r (zeros f ++ poles f) -> r = RtoC 0 \/ / 100000 < Cmod r.
(* As many zeros as poles, at most one lone pole, and all other roots away from zero. *)
Definition balanced (f : pole_zero) : Prop :=
  length (zeros f) = length (poles f) /\ (length (lone_poles f) <= 1)%nat /\
  (forall r, In r (lone_zeros f) -> / 100000 < Rabs r) /\
  (forall r, In r (paired_zeros f ++ paired_poles f) -> / 100000 < Cmod r).

(* A lowpass prototype: stable, minimum phase, at least one pole, not more zeros than poles,
   positive gain. *)
Definition lowpass_prototype (f : pole_zero) : Prop :=
  (forall p, In p (poles f) -> fst p < 0) /\
  (forall z, In z (zeros f) -> fst z <= 0 /\ z <> RtoC 0) /\
  (0 < length (poles f))%nat /\ (length (zeros f) <= length (poles f))%nat /\ 0 < pz_gain f.
(* The bilinear transform of a root r, (1 + t r) / (1 - t r), is zero or clearly away from zero. *)
Definition warps_clear (t : R) (r : C) : Prop :=
  Cplus (RtoC 1) (Cmult (RtoC t) r) = RtoC 0 \/
  / 100000 * Cmod (Cminus (RtoC 1) (Cmult (RtoC t) r)) < Cmod (Cplus (RtoC 1) (Cmult (RtoC t) r)).
(* ... for every root, or for the paired ones if there is no other root but one lone pole *)
Definition tame (t : R) (f : pole_zero) : Prop :=
  (forall r, In r (zeros f ++ poles f) -> warps_clear t r) \/
  (lone_zeros f = [] /\ (length (lone_poles f) <= 1)%nat /\
   forall r, In r (paired_zeros f ++ paired_poles f) ->
     / 100000 * Cmod (Cminus (RtoC 1) (Cmult (RtoC t) r)) < Cmod (Cplus (RtoC 1) (Cmult (RtoC t) r))).
(* (1 + t r) / (1 - t r) is away from zero for every root r *)
Definition away (t : R) (f : pole_zero) : Prop :=
  forall r, In r (zeros f ++ poles f) ->
    / 100000 * Cmod (Cminus (RtoC 1) (Cmult (RtoC t) r)) < Cmod (Cplus (RtoC 1) (Cmult (RtoC t) r)).

(* The Chebyshev polynomials of the first kind. *)
Fixpoint chebyshev_T (n : nat) (x : R) : R :=
  match n with
  | O => 1
  | S m => match m with O => x | S k => 2 * x * chebyshev_T m x - chebyshev_T k x end
  end.

(* The analog frequency of the lowpass prototype that a bandpass or bandstop filter with warped
   edges tl and th takes its response from, at the warped frequency t. *)
Definition bandpass_w (tl th t : R) : R := (t * t - tl * th) / ((th - tl) * t).
Definition bandstop_w (tl th t : R) : R := (th - tl) * t / (tl * th - t * t).

(* Conditions on the order n and the warped crossover frequency t under which no coefficient of
   a doubled Butterworth stage comes near the tolerance below which coefficients are dropped. *)
Definition lowpass_gain (n : nat) (t : R) : Prop := / 10000000000 * (1 + t) ^ Nat.max n 2 < t ^ Nat.max n 2.
Definition highpass_gain (n : nat) (t : R) : Prop := / 10000000000 * (1 + t) ^ Nat.max n 2 < 1.
Definition lone_clear (n : nat) (t : R) : Prop := Nat.odd n = true -> t = 1 \/ / 100000 * (1 + t) < Rabs (1 - t).

(* A history of calls of AddPole, AddConjugatePolePair, AddZero, AddConjugateZeroPair and SetGain,
   with the roots it is meant to give, in any order, and the gain. *)
Inductive pz_call : Type :=
| Call_pole (p : R) | Call_pole_pair (p : C) | Call_zero (z : R) | Call_zero_pair (z : C) | Call_gain (g : R).
Definition run_call (f : pole_zero) (c : pz_call) : pole_zero :=
  match c with
  | Call_pole p => add_pole p f
  | Call_pole_pair p => add_pole_pair p f
  | Call_zero z => add_zero z f
  | Call_zero_pair z => add_zero_pair z f
  | Call_gain g => set_gain g f
  end.
Definition poles_called (cs : list pz_call) : list C :=
  flat_map (fun c => match c with Call_pole p => [RtoC p] | Call_pole_pair p => [p; Cconj p] | _ => [] end) cs.
Definition zeros_called (cs : list pz_call) : list C :=
  flat_map (fun c => match c with Call_zero z => [RtoC z] | Call_zero_pair z => [z; Cconj z] | _ => [] end) cs.
Definition gain_called (cs : list pz_call) : R :=
  fold_left (fun g c => match c with Call_gain g' => g' | _ => g end) cs 1.
