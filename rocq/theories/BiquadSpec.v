(* The difference equation of a second order section. *)
From Verif Require Import Common BiquadModel.

Section Spec.
Context {F : Type} (zero : F) (add sub mul : F -> F -> F).

(* a0 y[n] = b0 x[n] + b1 x[n-1] + b2 x[n-2] - a1 y[n-1] - a2 y[n-2] for all n, where x1 x2
   y1 y2 are the two previous inputs and outputs *)
Fixpoint difference_equation (c : coeffs F) (x1 x2 y1 y2 : F) (x y : list F) : Prop :=
  match x, y with
  | [], [] => True
  | x0 :: x', y0 :: y' =>
      mul (a0 c) y0 = sub (sub (add (add (mul (b0 c) x0) (mul (b1 c) x1)) (mul (b2 c) x2))
                               (mul (a1 c) y1)) (mul (a2 c) y2) /\
      difference_equation c x0 x1 y0 y1 x' y'
  | _, _ => False
  end.
(* with zero history *)
Definition filters (c : coeffs F) (x y : list F) : Prop :=
  difference_equation c zero zero zero zero x y.
(* the stages one after another, each over the whole signal *)
Fixpoint cascade_filters (cs : list (coeffs F)) (x y : list F) : Prop :=
  match cs with
  | [] => x = y
  | c :: r => exists w, filters c x w /\ cascade_filters r w y
  end.
(* the samples of one channel *)
Definition channel (i : nat) (frames : list (list F)) : list F := map (fun fr => nth i fr zero) frames.
End Spec.
