(* The standard weighting curves: transfer functions as published, and their roots. *)
From Verif Require Import Common RealUtil PerceptualModel.
From Coquelicot Require Import Complex.
Local Open Scope C_scope.

Definition standard_numerator (w : weighting) (s : C) : C :=
  match w with
  | A_weighting => RtoC 7397050000 * (s * s * s * s)
  | B_weighting => RtoC 5991850000 * (s * s * s)
  | C_weighting => RtoC 5917970000 * (s * s)
  | D_weighting => RtoC 91104.32 * (s * (s * s + RtoC 6532 * s + RtoC (3266 * 3266 + 5505.2 * 5505.2)))
  | RLB_weighting => s * s
  | K_weighting => RtoC 1.585 * (s * s * (s * s + RtoC (2 * 5943.129) * s + RtoC (5943.129 * 5943.129 + 5976.74 * 5976.74)))
  end.
Definition standard_denominator (w : weighting) (s : C) : C :=
  match w with
  | A_weighting => (s + RtoC 129.4) * (s + RtoC 129.4) * (s + RtoC 676.4) * (s + RtoC 4636) * (s + RtoC 76655) * (s + RtoC 76655)
  | B_weighting => (s + RtoC 129.4) * (s + RtoC 129.4) * (s + RtoC 996.9) * (s + RtoC 76655) * (s + RtoC 76655)
  | C_weighting => (s + RtoC 129.4) * (s + RtoC 129.4) * (s + RtoC 76655) * (s + RtoC 76655)
  | D_weighting => (s + RtoC 1776.3) * (s + RtoC 7288.5) * (s * s + RtoC 21514 * s + RtoC (10757 * 10757 + 16512.02 * 16512.02))
  | RLB_weighting => (s + RtoC 240) * (s + RtoC 240)
  | K_weighting => (s + RtoC 240) * (s + RtoC 240) * (s * s + RtoC (2 * 7471.63) * s + RtoC (7471.63 * 7471.63 + 7534.19 * 7534.19))
  end.
(* the roots of these polynomials *)
Definition standard_zeros (w : weighting) : list C :=
  match w with
  | A_weighting => [RtoC 0; RtoC 0; RtoC 0; RtoC 0]
  | B_weighting => [RtoC 0; RtoC 0; RtoC 0]
  | C_weighting | RLB_weighting => [RtoC 0; RtoC 0]
  | D_weighting => [RtoC 0; (-3266, 5505.2)%R; (-3266, -5505.2)%R]
  | K_weighting => [RtoC 0; RtoC 0; (-5943.129, 5976.74)%R; (-5943.129, -5976.74)%R]
  end.
Definition standard_poles (w : weighting) : list C :=
  match w with
  | A_weighting => [RtoC (-129.4); RtoC (-129.4); RtoC (-676.4); RtoC (-4636); RtoC (-76655); RtoC (-76655)]
  | B_weighting => [RtoC (-129.4); RtoC (-129.4); RtoC (-996.9); RtoC (-76655); RtoC (-76655)]
  | C_weighting => [RtoC (-129.4); RtoC (-129.4); RtoC (-76655); RtoC (-76655)]
  | D_weighting => [RtoC (-1776.3); RtoC (-7288.5); (-10757, 16512.02)%R; (-10757, -16512.02)%R]
  | RLB_weighting => [RtoC (-240); RtoC (-240)]
  | K_weighting => [RtoC (-240); RtoC (-240); (-7471.63, 7534.19)%R; (-7471.63, -7534.19)%R]
  end.
(* the roots at or above the Nyquist frequency, in radians per second *)
Definition above_nyquist (fs : R) (l : list C) : list C := filter (fun r => if Rle_dec (PI * fs) (Cmod r) then true else false) l.
Definition below_nyquist (fs : R) (l : list C) : list C := filter (fun r => if Rle_dec (PI * fs) (Cmod r) then false else true) l.
(* a factor 1 - s / r for each root: the part of the response that is lost when its roots are replaced by
   their effect at zero frequency *)
Fixpoint factors (l : list C) (s : C) : C :=
  match l with [] => RtoC 1 | r :: l' => (RtoC 1 - s / r) * factors l' s end.
Fixpoint power (z : C) (n : nat) : C := match n with O => RtoC 1 | S n' => z * power z n' end.
(* by how many the zeros below the Nyquist frequency outnumber the poles below it *)
Definition excess_zeros (w : weighting) (fs : R) : nat := length (below_nyquist fs (standard_zeros w)) - length (below_nyquist fs (standard_poles w)).
(* sample rates from which on the digital filter has at least as many poles as zeros and the roots near the
   audible range are below the Nyquist frequency *)
Definition sufficient_rate (w : weighting) (fs : R) : Prop :=
  (match w with A_weighting => 4636 | B_weighting => 996.9 | C_weighting => 129.4 | D_weighting => 19708 | RLB_weighting => 240 | K_weighting => 10612 end < PI * fs)%R.
(* no real pole p with 2 fs within about 1e-5 of -p, other than exactly there: such a pole would become a
   root near zero, where the design drops coefficients *)
Definition clear_rate (w : weighting) (fs : R) : Prop :=
  forall p : R, In (RtoC p) (standard_poles w) -> (2 * fs + p = 0 \/ / 100000 * (2 * fs - p) < Rabs (2 * fs + p))%R.
