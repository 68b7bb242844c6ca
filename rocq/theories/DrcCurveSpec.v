(* The documented curves (the comments of dynamic_range_control_functions.h). *)
From Verif Require Import Common RealUtil.
Local Open Scope R_scope.

(* "Equivalent code" of the compressor, dynamic_range_control_functions.h:78-88 *)
Definition documented_compressor (x t r w : R) : R :=
  if Rle_dec (x - t) (- (w / 2)) then x
  else if Rle_dec (w / 2) (x - t) then t + (x - t) / r
  else x + (1 / r - 1) * (x - t + w / 2) * (x - t + w / 2) / (w * 2).
(* a limiter: the output stays at the threshold *)
Definition documented_limiter (x t w : R) : R :=
  if Rle_dec (x - t) (- (w / 2)) then x
  else if Rle_dec (w / 2) (x - t) then t
  else x - (x - t + w / 2) * (x - t + w / 2) / (w * 2).
(* dynamic_range_control_functions.h:117-127 *)
Definition documented_expander (x t r w : R) : R :=
  if Rle_dec (w / 2) (x - t) then x
  else if Rle_dec (x - t) (- (w / 2)) then t + (x - t) * r
  else x + (1 - r) * (x - t - w / 2) * (x - t - w / 2) / (w * 2).

(* Five regions between the thresholds e <= u <= s <= h, with the slope of each; the curve is the
   identity between u and s and is continuous.  rh, rs, ru are compression ratios, re the
   expansion ratio. *)
Definition five_regions (e u s h re ru rs rh x : R) : R :=
  if Rle_dec x e then u + (e - u) / ru + (x - e) * re
  else if Rle_dec x u then u + (x - u) / ru
  else if Rle_dec x s then x
  else if Rle_dec x h then s + (x - s) / rs
  else s + (h - s) / rs + (x - h) / rh.
