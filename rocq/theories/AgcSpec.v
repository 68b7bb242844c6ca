(* What the power estimate of the automatic gain control should be. *)
From Coq Require Import Reals List.
Import ListNotations.
Local Open Scope R_scope.

Definition total (l : list R) : R := fold_right Rplus 0 l.

(* Exponentially weighted average, oldest sample first:
   (1-c)^m p0 + c * sum_j (1-c)^j x[m-1-j]. *)
Fixpoint weighted (c : R) (newest_first : list R) : R :=
  match newest_first with
  | [] => 0
  | x :: r => c * x + (1 - c) * weighted c r
  end.
Definition ema (c p0 : R) (l : list R) : R :=
  (1 - c) ^ length l * p0 + weighted c (rev l).

(* The estimate after the samples l, with w warm-up samples: the average of a 1
   and all samples while fewer than w samples were seen, then an exponential
   average started from the average of the 1 and the first w samples. *)
Definition estimate (w : nat) (c : R) (l : list R) : R :=
  if Nat.ltb (length l) w then (1 + total l) / (1 + INR (length l))
  else ema c ((1 + total (firstn w l)) / (1 + INR w)) (skipn w l).
