(* Model of audio/dsp/portable/elliptic_fun.c and audio/dsp/elliptic_functions.cc over exact real
   and complex numbers.  A square root of a negative number and a division by zero are Undef. *)
From Coq Require Import ZArith Reals List Bool.
From Verif Require Import Common CInt RealUtil ComplexModel.
Import ListNotations.
Local Open Scope R_scope.

(* DBL_EPSILON *)
Definition dbl_epsilon : R := / 2 ^ 52.
(* elliptic_fun.c:32-34, elliptic_functions.cc:46-47 *)
Definition landen_step (k : R) : R :=
  let temp := k / (1 + sqrt (1 - k * k)) in temp * temp.
(* elliptic_fun.c:30-36, elliptic_functions.cc:43-49: the moduli after the first [fuel] is the room left in the array *)
Fixpoint landen_loop (fuel : nat) (k : R) : list R :=
  match fuel with
  | O => []
  | S fuel' => if Rltb dbl_epsilon k then let k1 := landen_step k in k1 :: landen_loop fuel' k1 else []
  end.
(* elliptic_fun.c:25-42, elliptic_functions.cc:35-53: ten moduli at most; the warning is not modelled *)
Definition landen_sequence (m : R) : outcome (R * list R) :=
  if Rltb m 0 || Rltb 1 m then Undef else
  let k := sqrt m in Ok (k, landen_loop 9 k).
(* elliptic_fun.c:51-58, elliptic_functions.cc:55-65; the first modulus is not used *)
Definition k_from_landen (ks : list R) : R := fold_left (fun r k => r * (1 + k)) ks (PI / 2).

(* elliptic_fun.c:60-76, elliptic_functions.cc:69-85; None is infinity *)
Definition elliptic_k (m : R) : outcome (option R) :=
  if Reqb m 1 then Ok None
  else if Rltb (1 - / 10 ^ 12) m then
    if Rltb 1 m then Undef else
    let m1 := 1 - m in
    let temp := - (1 / 2) * ln (m1 / 16) in
    Ok (Some (temp + (temp - 1) * m1 / 4))
  else ' (_, ks) <- landen_sequence m ;; Ok (Some (k_from_landen ks)).

Section Complex.
Variable ex : R -> Z.
(* elliptic_fun.c:99-111, elliptic_functions.cc:105-108; [k] is the modulus before [ks] *)
Fixpoint descend (k : R) (ks : list R) (w : cplx) : outcome cplx :=
  match ks with
  | [] => Ok w
  | k1 :: r =>
      w1 <- cdiv ex w (cmul_real (cadd (1, 0) (csqrt ex (csub (1, 0) (csquare (cmul_real w k))))) (1 / 2 * (1 + k1))) ;;
      descend k1 r w1
  end.
(* elliptic_fun.c:78-119 *)
Definition elliptic_f (phi : cplx) (m : R) : outcome cplx :=
  if Rltb (cabs2 phi) (/ 10 ^ 6) then
    Ok (cmul phi (cadd (1, 0) (cmul_real (csquare phi) (m / 6))))
  else
    ' (k, ks) <- landen_sequence m ;;
    w <- descend k ks (csin phi) ;;
    a <- casin ex w ;;
    Ok (cmul_real a (2 / PI * k_from_landen ks)).
(* elliptic_fun.c:141-149, elliptic_functions.cc:131-134: from the last modulus to the first *)
Fixpoint ascend (ks : list R) (w : cplx) : outcome cplx :=
  match ks with
  | [] => Ok w
  | k :: r =>
      w1 <- ascend r w ;;
      q <- cdiv ex w1 (cadd (1, 0) (cmul_real (csquare w1) k)) ;;
      Ok (cmul_real q (1 + k))
  end.
(* elliptic_fun.c:121-151 *)
Definition jacobi_amplitude (u : cplx) (m : R) : outcome cplx :=
  ' (_, ks) <- landen_sequence m ;;
  w <- ascend ks (csin (cmul_real u (PI / 2 / k_from_landen ks))) ;;
  casin ex w.

(* elliptic_functions.cc:69-85, 88-111, 113-136: the same with debug checks of the arguments.  The library
   functions std::sin, std::asin, std::sqrt and std::abs of complex numbers are those of ComplexModel. *)
Definition cc_elliptic_k (m : R) : outcome (option R) :=
  if Rltb m 0 || Rltb 1 m then CheckFail else elliptic_k m.
Definition cc_elliptic_f (phi : cplx) (m : R) : outcome cplx :=
  if negb (Rleb (Rabs (fst phi)) (PI / 2)) || Rltb m 0 || negb (Rltb m 1) then CheckFail else
  if Rltb (cabs ex phi) (/ 10 ^ 3) then
    Ok (cmul phi (cadd (1, 0) (cmul_real (cmul phi phi) (m / 6))))
  else
    ' (k, ks) <- landen_sequence m ;;
    w <- descend k ks (csin phi) ;;
    a <- casin ex w ;;
    Ok (cmul_real (cmul_real a (2 / PI)) (k_from_landen ks)).
Definition cc_jacobi_amplitude (u : cplx) (m : R) : outcome cplx :=
  if Rltb m 0 || negb (Rltb m 1) then CheckFail else
  ' (_, ks) <- landen_sequence m ;;
  q <- cdiv ex (cmul_real u (PI / 2)) (k_from_landen ks, 0) ;;
  w <- ascend ks (csin q) ;;
  casin ex w.
End Complex.
