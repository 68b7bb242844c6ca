(* What the bands of a filterbank are. *)
From Verif Require Import Common RealUtil BiquadModel DesignSpec CascadeModel CascadeSpec PoleZeroSpec LadderSpec MultiCrossModel.
From Coquelicot Require Import Complex.
Local Open Scope R_scope.

Fixpoint cproduct (l : list C) : C := match l with [] => RtoC 1 | x :: r => Cmult x (cproduct r) end.
Fixpoint rsum (l : list R) : R := match l with [] => 0 | x :: r => x + rsum r end.

(* The response of band b out of n at z: its lowpass filter (all bands but the highest), the
   highpass filters of the b crossovers below it, and its all-pass filter (all bands but the two
   highest). *)
Definition band_value (n : nat) (d : bank) (b : nat) (z h : C) : Prop :=
  exists l hs a,
    (if (b <? n - 1)%nat then cascade_value (nth b (lowpass_coeffs d) []) z l else l = RtoC 1) /\
    length hs = b /\ (forall s, (s < b)%nat -> cascade_value (nth s (highpass_coeffs d) []) z (nth s hs (RtoC 0))) /\
    (if (b <? n - 2)%nat then cascade_value (nth b (allpass_coeffs d) []) z a else a = RtoC 1) /\
    h = Cmult (Cmult l (cproduct hs)) a.

(* every second order section of the bank, and every all-pass section that was ever appended *)
Definition all_scaled (d : bank) : Prop :=
  Forall (Forall well_scaled) (lowpass_coeffs d) /\ Forall (Forall well_scaled) (highpass_coeffs d) /\
  Forall well_scaled (appended d).

(* x passes through the difference equations of the sections one after the other *)
Fixpoint chain_implements (cs : list (coeffs R)) (x y : list R) : Prop :=
  match cs with
  | [] => y = x
  | c :: r => exists u, implements (vec_b c) (vec_a c) x u /\ chain_implements r u y
  end.
(* the reflection coefficients of the section lie strictly between -1 and 1 and are not zero *)
Definition reflective (c : coeffs R) : Prop :=
  a0 c <> 0 /\ 0 < Rabs (a2 c / a0 c) < 1 /\ 0 < Rabs (a1 c / (a0 c + a2 c)) < 1.

(* The gains and the lone poles of the crossover filters are clear of the thresholds of
   simplification (n is the order of the Butterworth filter; see C66). *)
Definition fine_crossover (n : nat) (fs f : R) : Prop :=
  lowpass_gain n (tan (PI * f / fs)) /\ highpass_gain n (tan (PI * f / fs)) /\ lone_clear n (tan (PI * f / fs)).
(* none of the all-pass sections is close to a section of first order *)
Definition clear_allpass (d : bank) : Prop := Forall (fun c => / 10000000000 < Rabs (a2 c)) (appended d).
Definition reflective_bank (d : bank) : Prop :=
  Forall (Forall reflective) (lowpass_coeffs d) /\ Forall (Forall reflective) (highpass_coeffs d) /\ Forall (Forall reflective) (allpass_coeffs d).
(* a block of frames with nch channels, and one of its channels *)
Definition frames_of (nch : nat) (x : list (list R)) : Prop := Forall (fun fr => length fr = nch) x.
Definition channel (i : nat) (x : list (list R)) : list R := map (fun fr => nth i fr 0) x.
(* the blocks of every band, one after the other *)
Definition zip_app (p q : list (list (list R))) : list (list (list R)) := map (fun r => fst r ++ snd r) (combine p q).
