(* The nested loop of number_util.h:239-248, outermost loop last in shape. *)
From Verif Require Import CInt.

Definition zrange (s : Z) : list Z := map Z.of_nat (seq 0 (Z.to_nat s)).

Fixpoint nested_loop (shape : list Z) : list (list Z) :=
  match shape with
  | [] => [[]]
  | s :: rest => flat_map (fun ix => map (fun i => i :: ix) (zrange s)) (nested_loop rest)
  end.

(* Every index lies below its dimension. *)
Definition in_box (shape v : list Z) : Prop := Forall2 (fun s i => 0 <= i < s) shape v.

Definition volume (shape : list Z) : Z := fold_right Z.mul 1 shape.

(* n-fold application. *)
Fixpoint times {A} (n : nat) (f : A -> A) (x : A) : A :=
  match n with O => x | S n' => times n' f (f x) end.
