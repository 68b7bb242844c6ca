(* Convolution and decimation of whole signals. *)
From Verif Require Import Common.

Section Conv.
Context {V : Type} (zero : V) (add mul : V -> V -> V).
(* The contributions of inputs 0 .. upto-1 to output n, accumulated in time order:
   sum over j with 0 <= n - j < length k of k[n-j] * x[j]. *)
Definition contributions (k x : list V) (n upto : nat) : V :=
  fold_left (fun s j => if (j <=? n) && (n - j <? length k)
                        then add s (mul (nth (n - j) k zero) (nth j x zero)) else s)
            (seq 0 upto) zero.
(* y[n] = sum over j <= n of k[n-j] x[j] *)
Definition convolution (k x : list V) : list V :=
  map (fun n => contributions k x n (S n)) (seq 0 (length x)).
End Conv.

(* y[n] = now * x[n] + prev * x[n-1], x[-1] = x0 *)
Fixpoint two_tap_spec {V G : Type} (add : V -> V -> V) (scale : G -> V -> V) (prev now : G) (x0 : V) (x : list V) : list V :=
  match x with
  | [] => []
  | a :: r => add (scale now a) (scale prev x0) :: two_tap_spec add scale prev now a r
  end.

(* the samples at even positions *)
Fixpoint evens {V : Type} (x : list V) : list V :=
  match x with
  | [] => []
  | a :: [] => [a]
  | a :: _ :: r => a :: evens r
  end.
