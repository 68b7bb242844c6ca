(* Specifications for the helpers of audio/dsp/signal_vector_util.h. *)
From Verif Require Import Common RealUtil.
Local Open Scope R_scope.

(* sum of f 0, ..., f (n - 1) *)
Fixpoint sumf (n : nat) (f : nat -> R) : R :=
  match n with O => 0 | S k => sumf k f + f k end.
(* the direct form of an FIR filter, newest sample first, for any arithmetic *)
Section Direct.
Context {S H : Type} (zero : S) (add : S -> S -> S) (mul : S -> H -> S).
Fixpoint direct (h : list H) (newest_first : list S) : S :=
  match h, newest_first with
  | [], _ => zero
  | _, [] => zero
  | [c], x :: _ => mul x c
  | c :: hs, x :: past => add (mul x c) (direct hs past)
  end.
End Direct.
(* m is the largest element of l *)
Definition is_largest (m : R) (l : list R) : Prop := In m l /\ forall x, In x l -> x <= m.
(* sin x / x *)
Definition sinc (x : R) : R := if Reqb x 0 then 1 else sin x / x.
(* a x + b y, element by element *)
Definition lin (a b : R) (x y : list R) : list R := map (fun p => a * fst p + b * snd p) (combine x y).
(* the parabola through the three samples around x0, relative to x0 *)
Definition parabola (l : list R) (x0 : nat) (d : R) : R :=
  nth x0 l 0 + (nth (x0 + 1) l 0 - nth (x0 - 1) l 0) / 2 * d + (nth (x0 - 1) l 0 - 2 * nth x0 l 0 + nth (x0 + 1) l 0) / 2 * (d * d).
(* the weighted sum of f over the angles of the values *)
Definition csum (p : R) (vs ws : list R) (f : R -> R) : R := sumf (length vs) (fun i => nth i ws 0 * f (2 * PI / p * nth i vs 0)).
(* the vector (C, S) points in the direction of a *)
Definition points_at (p a C S : R) : Prop := exists r, 0 <= r /\ C = r * cos (2 * PI / p * a) /\ S = r * sin (2 * PI / p * a).
