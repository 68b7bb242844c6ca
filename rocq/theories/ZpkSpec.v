(* Filters given by zeros, poles and gain: transfer function and conjugate symmetry. *)
From Verif Require Import Common RealUtil BiquadModel DesignSpec CascadeSpec PoleZeroSpec ComplexModel ZpkModel.
From Coq Require Import Permutation Sorted.
From Coquelicot Require Import Complex.
Local Open Scope C_scope.

(* zpk_value f s h: H(s) = k (s - z0) ... / (s - p0) ... is defined and equal to h *)
Definition zpk_value (f : zpk) (s h : C) : Prop :=
  product_over (fun p => s - p) (z_poles f) <> RtoC 0 /\
  h = RtoC (z_gain f) * product_over (fun z => s - z) (z_zeros f) / product_over (fun p => s - p) (z_poles f).
(* the roots come in conjugate pairs, counted with their multiplicities *)
Definition conj_closed (l : list C) : Prop := Permutation (map Cconj l) l.
Definition real_filter (f : zpk) : Prop := conj_closed (z_zeros f) /\ conj_closed (z_poles f).

Local Open Scope R_scope.
(* real, or clearly not real: the imaginary part is above 100 * 2^-52 times the modulus *)
Definition plainly_real_or_not (r : C) : Prop := snd r = 0 \/ 100 / 2 ^ 52 * Cmod r < Rabs (snd r).
Definition clear_cut (l : list C) : Prop := forall r, In r l -> plainly_real_or_not r.

(* What the C standard says about qsort with the comparator of the code: the elements are
   permuted, and no element compares greater than a later one. *)
Definition sorts (qsort : list C -> list C) : Prop :=
  forall l, Permutation (qsort l) l /\ StronglySorted (fun w z => order_complex w z <> Gt) (qsort l).

(* by real part, then by the absolute value of the imaginary part *)
Definition not_after (w z : C) : Prop := fst w < fst z \/ fst w = fst z /\ Rabs (snd w) <= Rabs (snd z).
(* real roots in ascending order, then conjugate pairs in ascending order *)
Definition arranged (l : list C) : Prop :=
  exists (reals : list R) (upper : list C),
    l = map RtoC reals ++ flat_map (fun r => [Cconj r; r]) upper /\
    StronglySorted Rle reals /\ StronglySorted not_after upper /\ Forall (fun r => 0 < snd r) upper.

(* a corner frequency that is not within a ten-billionth of the sample rate of 0 or of half of it *)
Definition corner_inside (fs fc : R) : Prop := (fs / 10000000000 <= fc /\ fc <= fs / 2 - fs / 10000000000)%R.
(* the edges of a band: neither near 0 nor near half the sample rate, and not too close to each other *)
Definition band_inside (fs low high : R) : Prop := (fs / 10000 <= low /\ high <= fs / 2 - fs / 10000 /\ fs / 1000 <= high - low)%R.
(* the discriminant u^2 - 4 g of s^2 - u s + g is not within a millionth of a millionth below zero *)
Definition edge_clear (u g : R) : Prop := (4 * g <= u * u \/ u * u + / 1000000000000 <= 4 * g)%R.
(* distance from the origin of the real pole of the type 1 and type 2 prototypes of odd order *)
Definition real_pole1 (n : nat) (db : R) : R := sinh (arcsinh (1 / sqrt (Rpower 10 (db / 10) - 1)) / INR n).
Definition real_pole2 (n : nat) (db : R) : R := (1 / sinh (arcsinh (sqrt (Rpower 10 (db / 10) - 1)) / INR n))%R.
