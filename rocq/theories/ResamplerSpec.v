(* Polyphase resampling, independent of buffers and blocks. *)
From Verif Require Import CInt ListLemmas.

Section Spec.
Context {C X Y : Type} (zero : X) (dot : list C -> list X -> Y).
Context (a b : Z) (taps : nat) (filters : list (list C)).

(* Position of output m in the (padded) input: whole part and phase. *)
Definition whole (m : nat) : Z := Z.of_nat m * a / b.
Definition phase_of (m : nat) : Z := (Z.of_nat m * a) mod b.

(* Number of outputs that an input with padding, of n frames in all, determines:
   those m whose window [whole m, whole m + taps) fits. *)
Definition num_outputs (n : Z) : nat :=
  let room := n - Z.of_nat taps + 1 in
  if room <=? 0 then 0%nat else Z.to_nat (- ((- (room * b)) / a)).   (* ceiling *)

(* Output m computed from the padded input. *)
Definition output (padded : list X) (m : nat) : Y :=
  dot (nth (Z.to_nat (phase_of m)) filters []) (slice (Z.to_nat (whole m)) taps padded).

(* All outputs of an input. *)
Definition resampled (padded : list X) : list Y :=
  map (output padded) (seq 0 (num_outputs (Z.of_nat (length padded)))).
End Spec.

(* The interpolation sum of the header comment:
   sum over k of h_p[k] x[q - k], |k| <= radius, x zero outside of the input.
   The terms are added in the order k = radius, ..., -radius, starting from 0. *)
Section Formula.
Context {V : Type} (zero : V) (add mul : V -> V -> V).
Definition at_index (x : list V) (n : Z) : V :=
  if n <? 0 then zero else nth (Z.to_nat n) x zero.
Definition interpolate (h : Z -> Z -> V) (radius : nat) (x : list V) (p q : Z) : V :=
  fold_left (fun sum j =>
      let k := Z.of_nat radius - Z.of_nat j in
      add sum (mul (h p k) (at_index x (q - k))))
    (seq 0 (2 * radius + 1)) zero.
End Formula.
