(* k-element combinations, independently of the iterator. *)
From Verif Require Import Common.

(* c lists a k-subset of {0..n-1} in increasing order. *)
Definition is_combination (n k : nat) (c : list nat) : Prop :=
  length c = k /\ Forall (fun x => x < n) c /\
  forall i j x y, i < j -> nth_error c i = Some x -> nth_error c j = Some y -> x < y.

(* Lexicographic order on lists. *)
Inductive lex_lt : list nat -> list nat -> Prop :=
| lex_head : forall x y l l', x < y -> lex_lt (x :: l) (y :: l')
| lex_tail : forall x l l', lex_lt l l' -> lex_lt (x :: l) (x :: l').

(* Pascal's triangle. *)
Fixpoint binomial (n k : nat) : nat :=
  match n, k with
  | _, 0 => 1
  | 0, S _ => 0
  | S n', S k' => binomial n' k' + binomial n' k
  end.

(* Selecting values by index. *)
Definition selects {V} (values : list V) (idx : list nat) (entry : list V) : Prop :=
  Forall2 (fun i v => nth_error values i = Some v) idx entry.
