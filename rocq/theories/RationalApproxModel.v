(* Model of RationalApproximation (audio/dsp/portable/number_util.c:40-200; the
   C++ function number_util.cc:377-382 calls it with the default options).

   `double` arithmetic is exact rational arithmetic: the model does not cover
   rounding in 1.0 / residual, nor NaN and infinite values. `int` overflow is
   undefined behaviour. *)
From Verif Require Import CInt.
From Coq Require Export QArith Qround Qabs.
Open Scope Z_scope.

(* portable/number_util.h:34-56 *)
Record ra_options : Type := { max_terms : Z; convergence_tolerance : Q }.

(* portable/number_util.c:6-9 *)
Definition ra_default : ra_options :=
  {| max_terms := 47; convergence_tolerance := 1 # 1000000000 |}.

(* portable/number_util.c:40-43 *)
Definition fraction : Type := Z * Z.

(* portable/number_util.c:45-47; only used with positive denominators *)
Definition fraction_to_q (f : fraction) : Q := fst f # Z.to_pos (snd f).

(* portable/number_util.c:56-62 *)
Definition append_term (conv prev : fraction) (term : Z) : outcome fraction :=
  ta <- i32 (term * fst conv) ;;
  a <- i32 (ta + fst prev) ;;
  tb <- i32 (term * snd conv) ;;
  b <- i32 (tb + snd prev) ;;
  Ok (a, b).

(* The state when the loop breaks: convergent, prev_convergent, n and
   continued_fraction_term; or the converged convergent. *)
Inductive ra_exit : Type :=
| Converged (conv : fraction)
| Broke (conv prev : fraction) (n cft : Z).

(* portable/number_util.c:142-169. [left] = max_terms - term + 1 iterations can
   still happen; [recip] = reciprocal_residual, [cft] = continued_fraction_term. *)
Fixpoint ra_loop (left : nat) (opt : ra_options) (max_den : Z) (recip : Q) (cft : Z)
    (conv prev : fraction) : outcome ra_exit :=
  let res := (recip - inject_Z cft)%Q in
  if Qle_bool (Qabs res) (convergence_tolerance opt) then Ok (Converged conv)
  else
    let recip' := (/ res)%Q in
    let cft' := Qfloor recip' in
    d <- i32 (max_den - snd prev) ;;
    n0 <- c_div d (snd conv) ;;
    n <- (if 0 <? fst conv then
            m <- i32 (INT_MAX - fst prev) ;;
            ub <- c_div m (fst conv) ;;
            Ok (if ub <? n0 then ub else n0)
          else Ok n0) ;;
    match left with
    | O => Ok (Broke conv prev n cft')           (* term >= max_terms *)
    | S left' =>
        if n <=? cft' then Ok (Broke conv prev n cft')
        else
          (* (int)continued_fraction_term: representable since cft' < n *)
          oguard (in_i32 cft')
          (next <- append_term conv prev cft' ;;
           ra_loop left' opt max_den recip' cft' next conv)
    end.

(* portable/number_util.c:171-199, without the sign *)
Definition ra_final (value : Q) (conv prev : fraction) (n cft : Z) : outcome fraction :=
  let lower := (cft # 2)%Q in
  if Qle_bool lower (inject_Z n) then
    let n' := if cft <? n then cft else n in
    semi <- append_term conv prev n' ;;
    Ok (if negb (Qle_bool (inject_Z n') lower)
           || negb (Qle_bool (Qabs (value - fraction_to_q conv))
                             (Qabs (value - fraction_to_q semi)))
        then semi else conv)
  else Ok conv.

(* portable/number_util.c:64-200 for finite values *)
Definition rational_approximation (opt : ra_options) (value0 : Q) (max_den : Z)
    : outcome fraction :=
  if max_den <=? 0 then Ok (0, 0)
  else if negb (Qle_bool value0 (inject_Z INT_MAX - (1 # 2)))%Q then Ok (INT_MAX, 1)
  else if negb (Qle_bool (inject_Z INT_MIN + (1 # 2)) value0)%Q then Ok (INT_MIN, 1)
  else
    let sign := if Qle_bool 0 value0 then 1 else -1 in
    let value := Qabs value0 in
    let cft := Qfloor value in
    oguard (in_i32 cft)
    (e <- ra_loop (Z.to_nat (max_terms opt - 2)) opt max_den value cft (cft, 1) (1, 0) ;;
     f <- match e with
          | Converged conv => Ok conv
          | Broke conv prev n cft' => ra_final value conv prev n cft'
          end ;;
     a <- i32 (sign * fst f) ;;
     Ok (a, snd f)).
