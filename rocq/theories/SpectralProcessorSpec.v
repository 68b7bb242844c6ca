(* Specification of the spectral processor: overlap-add of the processed
   blocks of the delayed input. *)
From Verif Require Import Common SpectrogramSpec.

(* Number of blocks that start before output time [n]. *)
Definition blocks_before (hop n : nat) : nat := Nat.div (n + (hop - 1)) hop.

(* Run a stateful block processor over the blocks, in order, each once. *)
Fixpoint process_all {CB A B} (f : CB -> A -> CB * B) (cb : CB) (l : list A)
    : CB * list B :=
  match l with
  | [] => (cb, [])
  | x :: r => let q := process_all f (fst (f cb x)) r in
              (fst q, snd (f cb x) :: snd q)
  end.

(* The blocks of the input preceded by [delay] zero columns. *)
Definition input_blocks {I} (zeroI : I) (delay hop block n : nat)
    (xs : list I) : list (list I) :=
  map (fun i => slice (i * hop) block (repeat zeroI delay ++ xs)) (seq 0 n).

(* Window, transform, callback, transform back, window. *)
Definition window_with {A B} (d : A) (f : nat -> A -> B) (l : list A) : list B :=
  map (fun k => f k (nth k l d)) (seq 0 (length l)).
