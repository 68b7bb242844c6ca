(* What BatchTopN promises. *)
From Verif Require Import Common TopNModel.
From Coq Require Import Permutation.

(* std strict weak order, "greater" *)
Definition strict_weak {A} (gt : A -> A -> bool) : Prop :=
  (forall x, gt x x = false) /\
  (forall x y z, gt x y = true -> gt y z = true -> gt x z = true) /\
  (forall x y z, gt x y = false -> gt y z = false -> gt x z = false).
(* what the C++ standard says about std::sort and std::nth_element *)
Definition sorts (sort : (nat -> nat -> bool) -> list nat -> list nat) : Prop :=
  forall gt l, strict_weak gt -> Permutation l (sort gt l) /\
    forall i j, i < j < length l -> gt (nth j (sort gt l) 0) (nth i (sort gt l) 0) = false.
Definition selects (nth_element : (nat -> nat -> bool) -> nat -> list nat -> list nat) : Prop :=
  forall gt k l, strict_weak gt -> k < length l -> Permutation l (nth_element gt k l) /\
    forall i j, i <= k <= j -> j < length l -> gt (nth j (nth_element gt k l) 0) (nth i (nth_element gt k l) 0) = false.

(* ys are the n greatest of xs, greatest first *)
Definition top_of {A} (gt : A -> A -> bool) (n : nat) (xs ys : list A) : Prop :=
  length ys = Nat.min n (length xs) /\
  (forall d i j, i < j < length ys -> gt (nth j ys d) (nth i ys d) = false) /\
  exists rest, Permutation xs (ys ++ rest) /\ forall y r, In y ys -> In r rest -> gt r y = false.

(* what was pushed since the last Reset *)
Definition pushed {A} (ops : list (topn_op A)) : list A :=
  fold_left (fun l o => match o with Push v => l ++ [v] | Get => l | Reset => [] end) ops [].
