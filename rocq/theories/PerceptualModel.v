(* Model of audio/linear_filters/perceptual_filter_design.cc over the real and complex numbers.  The sample
   rate and the Nyquist frequency are floats in the code and the roots doubles; rounding is not modelled. *)
From Verif Require Import Common RealUtil BiquadModel DesignModel CascadeModel PoleZeroModel.
From Coquelicot Require Import Complex.
Local Open Scope R_scope.

(* perceptual_filter_design.h:48-55 *)
Inductive weighting := A_weighting | B_weighting | C_weighting | D_weighting | RLB_weighting | K_weighting.

(* perceptual_filter_design.cc:26-77; the four vectors and the gain, as a record *)
Definition weighting_table (w : weighting) : pole_zero :=
  match w with
  | A_weighting => {| lone_zeros := 0 :: 0 :: 0 :: 0 :: nil; lone_poles := -129.4 :: -129.4 :: -676.4 :: -4636 :: -76655 :: -76655 :: nil;
      paired_zeros := nil; paired_poles := nil; pz_gain := 7397050000 |}
  | B_weighting => {| lone_zeros := 0 :: 0 :: 0 :: nil; lone_poles := -129.4 :: -129.4 :: -996.9 :: -76655 :: -76655 :: nil;
      paired_zeros := nil; paired_poles := nil; pz_gain := 5991850000 |}
  | C_weighting => {| lone_zeros := 0 :: 0 :: nil; lone_poles := -129.4 :: -129.4 :: -76655 :: -76655 :: nil;
      paired_zeros := nil; paired_poles := nil; pz_gain := 5917970000 |}
  | D_weighting => {| lone_zeros := 0 :: nil; lone_poles := -1776.3 :: -7288.5 :: nil;
      paired_zeros := (-3266, 5505.2) :: nil; paired_poles := (-10757, 16512.02) :: nil; pz_gain := 91104.32 |}
  | RLB_weighting => {| lone_zeros := 0 :: 0 :: nil; lone_poles := -240 :: -240 :: nil;
      paired_zeros := nil; paired_poles := nil; pz_gain := 1 |}
  | K_weighting => {| lone_zeros := 0 :: 0 :: nil; lone_poles := -240 :: -240 :: nil;
      paired_zeros := (-5943.129, 5976.74) :: nil; paired_poles := (-7471.63, 7534.19) :: nil; pz_gain := 1.585 |}
  end.

(* one of the loops of perceptual_filter_design.cc:84-115: [magnitude] is std::abs, [add] the call for a root
   that is kept, [drop] the change of the gain for one that is not *)
Definition keep_roots {A} (magnitude : A -> R) (nyquist : R) (add : A -> pole_zero -> pole_zero) (drop : R -> R -> R)
    (l : list A) (st : pole_zero * R) : pole_zero * R :=
  fold_left (fun st r => if Rltb (magnitude r) nyquist then (add r (fst st), snd st) else (fst st, drop (snd st) (magnitude r))) l st.
(* perceptual_filter_design.cc:24-118.  No root that is divided by is zero. *)
Definition perceptual_pz (w : weighting) (fs : R) : pole_zero :=
  let t := weighting_table w in
  let nyquist := 2 * PI * fs / 2 in
  let s1 := keep_roots Rabs nyquist add_zero (fun g m => g * m) (lone_zeros t) (pz_new, pz_gain t) in
  let s2 := keep_roots Cmod nyquist add_zero_pair (fun g m => g * (m * m)) (paired_zeros t) s1 in
  let s3 := keep_roots Rabs nyquist add_pole (fun g m => g / m) (lone_poles t) s2 in
  let s4 := keep_roots Cmod nyquist add_pole_pair (fun g m => g / (m * m)) (paired_poles t) s3 in
  set_gain (snd s4) (fst s4).
(* perceptual_filter_design.cc:120-126 *)
Definition perceptual_coefficients (w : weighting) (fs : R) : outcome (list (coeffs R)) :=
  obind (bilinear_pz (perceptual_pz w fs) fs 0) get_coefficients.
