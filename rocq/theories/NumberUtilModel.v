(* Model of the integer helpers of audio/dsp/number_util.{h,cc} and
   audio/dsp/portable/number_util.c. *)
From Verif Require Import CInt.

(* number_util.cc:30-37 *)
Definition modulo (value modulus : Z) : outcome Z :=
  ocheck (0 <? modulus)
  (if value <? 0 then
     a <- i32 (modulus - 1) ;;
     nv <- i32 (- value) ;;
     m <- i32 (nv - 1) ;;
     r <- c_rem m modulus ;;
     i32 (a - r)
   else c_rem value modulus).

(* number_util.cc:39-46 *)
Definition round_down_to_multiple (value factor : Z) : outcome Z :=
  ocheck (0 <? factor)
  (if value <? 0 then
     a <- i32 (value - factor) ;;
     b <- i32 (a + 1) ;;
     nv <- i32 (- value) ;;
     m <- i32 (nv - 1) ;;
     r <- c_rem m factor ;;
     i32 (b + r)
   else
     r <- c_rem value factor ;;
     i32 (value - r)).

(* portable/number_util.c:11-29 (the C version, without the DCHECK) *)
Definition round_up_to_multiple_c (value factor : Z) : outcome Z :=
  if value <? 1 then
    nv <- i32 (- value) ;;
    r <- c_rem nv factor ;;
    i32 (value + r)
  else
    a <- i32 (value + factor) ;;
    b <- i32 (a - 1) ;;
    m <- i32 (value - 1) ;;
    r <- c_rem m factor ;;
    i32 (b - r).

(* number_util.cc:48-55 *)
Definition round_up_to_multiple (value factor : Z) : outcome Z :=
  ocheck (0 <? factor) (round_up_to_multiple_c value factor).

(* The loop of number_util.cc:60-64 and portable/number_util.c:32-36. *)
Fixpoint gcd_loop (fuel : nat) (a b : Z) : outcome Z :=
  match fuel with
  | O => Undef
  | S fuel' =>
      if b =? 0 then Ok a
      else r <- c_rem a b ;; gcd_loop fuel' b r
  end.

(* portable/number_util.c:31-38 *)
Definition gcd_c (a b : Z) : outcome Z :=
  gcd_loop (S (Z.to_nat (Z.abs b))) a b.

(* number_util.cc:57-66 *)
Definition gcd_cc (a b : Z) : outcome Z :=
  ocheck (0 <=? a) (ocheck (0 <=? b) (gcd_c a b)).

(* number_util.cc:68-75 *)
Definition gcd_vector (a : list Z) : outcome Z :=
  match a with
  | [] => CheckFail
  | x :: rest =>
      fold_left (fun acc y => g <- acc ;; gcd_cc g y) rest (Ok x)
  end.

(* number_util.h:56-58; value is an `unsigned`, value - 1 wraps. *)
Definition is_power_of_two_or_zero (value : Z) : bool :=
  Z.land value (u32 (value - 1)) =? 0.

(* number_util.cc:81-86 *)
Fixpoint log2_loop (fuel : nat) (value result : Z) : outcome Z :=
  match fuel with
  | O => Undef
  | S fuel' =>
      if 1 <? value then log2_loop fuel' (Z.shiftr value 1) (result + 1)
      else Ok result
  end.

(* number_util.cc:77-87; an `unsigned` has 32 bits, so 33 tests suffice. *)
Definition log2_floor (value : Z) : outcome Z :=
  if value =? 0 then Ok (-1) else log2_loop 33 value 0.

(* number_util.cc:89-95 *)
Definition log2_ceiling (value : Z) : outcome Z :=
  r <- log2_floor value ;;
  Ok (if is_power_of_two_or_zero value then r else r + 1).

(* number_util.cc:97-101. A shift count outside 0..31 is undefined; 1 << 31
   yields INT_MIN (C++14, CWG 1457), converted to unsigned 2^31. *)
Definition next_power_of_two (value : Z) : outcome Z :=
  e <- log2_ceiling value ;;
  ocheck (e <? 32)
  (oguard ((0 <=? e) && (e <? 32)) (Ok (u32 (to_int32 (Z.shiftl 1 e))))).
