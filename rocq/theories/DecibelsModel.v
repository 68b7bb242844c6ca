(* Model of audio/dsp/decibels.h over the real numbers (rounding is not modelled; on a
   non-positive argument the logarithm is infinite or NaN: Undef).  The functions on Eigen arrays
   apply the same formula to every coefficient. *)
From Verif Require Import Common RealUtil.
Local Open Scope R_scope.

(* std::log10 and M_LN10 *)
Definition log10 (x : R) : R := ln x / ln 10.
Definition on_positive (x : R) (v : R) : outcome R := oguard (Rltb 0 x) (Ok v).

(* decibels.h:34-37 *)
Definition amplitude_to_db (x : R) : outcome R := on_positive x (20 * log10 x).
(* decibels.h:39-44 *)
Fixpoint map_outcome (f : R -> outcome R) (xs : list R) : outcome (list R) :=
  match xs with
  | [] => Ok []
  | x :: r => obind (f x) (fun y => obind (map_outcome f r) (fun ys => Ok (y :: ys)))
  end.
Definition amplitude_to_db_array (xs : list R) : outcome (list R) :=
  map_outcome (fun x => on_positive x (20 / ln 10 * ln x)) xs.
(* decibels.h:46-50 *)
Definition db_to_amplitude (d : R) : R := exp (ln 10 / 20 * d).
(* decibels.h:52-57 *)
Definition db_to_amplitude_array (ds : list R) : list R := map (fun d => exp (ln 10 / 20 * d)) ds.
(* decibels.h:59-62 *)
Definition power_to_db (x : R) : outcome R := on_positive x (10 * log10 x).
(* decibels.h:64-69 *)
Definition power_to_db_array (xs : list R) : outcome (list R) :=
  map_outcome (fun x => on_positive x (10 / ln 10 * ln x)) xs.
(* decibels.h:71-75 *)
Definition db_to_power (d : R) : R := exp (ln 10 / 10 * d).
(* decibels.h:77-82 *)
Definition db_to_power_array (ds : list R) : list R := map (fun d => exp (ln 10 / 10 * d)) ds.
