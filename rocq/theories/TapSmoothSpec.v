(* Convolution with [s, 1 - 2s, s] and the three ways to continue an array. *)
From Coq Require Import ZArith Reals List.
From Verif Require Import TapSmoothModel.
Import ListNotations.
Local Open Scope R_scope.

(* x continued to the positions -1 and length x *)
Definition extended (mode : boundary) (x : list R) (i : Z) : R :=
  let n := Z.of_nat (length x) in
  let at_ k := nth (Z.to_nat k) x 0 in
  if ((0 <=? i) && (i <? n))%Z%bool then at_ i
  else match mode with
       | Circular => at_ (i mod n)%Z
       | Reflect => if (i <? 0)%Z then at_ (- i)%Z else at_ (2 * (n - 1) - i)%Z
       | ZeroPad => 0
       end.
Definition smoothed (mode : boundary) (s : R) (x : list R) : list R :=
  map (fun k => let i := Z.of_nat k in
         s * extended mode x (i - 1) + (1 - 2 * s) * extended mode x i + s * extended mode x (i + 1))
      (seq 0 (length x)).

Fixpoint total (x : list R) : R := match x with [] => 0 | a :: r => a + total r end.
(* where repeated smoothing leads: the mean, the mean with half weights at the ends, zero *)
Definition limit_value (mode : boundary) (x : list R) : R :=
  let n := length x in
  match mode with
  | Circular => total x / INR n
  | Reflect => (total x - nth 0 x 0 / 2 - nth (n - 1) x 0 / 2) / (INR n - 1)
  | ZeroPad => 0
  end.
