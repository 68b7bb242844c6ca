(* What a user of the loudness based two-way compressor relies on. *)
From Verif Require Import Common RealUtil EnvelopeSpec LoudnessSpec.
Local Open Scope R_scope.

(* level in decibels of a power, never below -120 dB *)
Definition power_level (p : R) : R := 10 * (ln (Rmax (1 / 10 ^ 12) p) / ln 10).
(* amplitude factor for a gain in decibels *)
Definition amplitude_factor (db : R) : R := exp (ln 10 / 20 * db).
(* the gain for a smoothed power: the curve applied to the level plus input gain, minus the level, plus the
   output gain *)
Definition loudness_gain (curve : R -> R) (in_db out_db p : R) : R :=
  amplitude_factor (curve (power_level p + in_db) - power_level p + out_db).
(* every frame of [frames] times its gain *)
Definition apply_gains (frames : list (list R)) (gains : list R) : list (list R) :=
  map (fun fg => map (fun x => x * snd fg) (fst fg)) (combine frames gains).
(* the frames delayed by d, starting with silence *)
Definition delay_frames (n d : nat) (frames : list (list R)) : list (list R) :=
  firstn (length frames) (repeat (repeat 0 n) d ++ frames).
(* blocks that ProcessBlock accepts *)
Definition block_ok (n m : nat) (b : list (list R)) : Prop :=
  (1 <= length b <= m)%nat /\ Forall (fun fr => length fr = n) b.
