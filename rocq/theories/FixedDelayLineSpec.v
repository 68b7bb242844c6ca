(* Specification of a delay line: output = delay zeros followed by the input. *)
From Verif Require Import Common FixedDelayLineModel.

Section Spec.
Context {A : Type}.
Variable zero : A.
Variable delay : nat.

(* All input since the last reset goes in [hist]; a block of n frames gets the
   frames hist_len .. hist_len + n of  0 ... 0 ++ hist ++ block. *)
Fixpoint delayed (hist : list A) (ops : list (dl_op A)) : list (list A) :=
  match ops with
  | [] => []
  | DProcess _ input :: ops' =>
      slice (length hist) (length input) (repeat zero delay ++ hist ++ input)
      :: delayed (hist ++ input) ops'
  | DReset :: ops' => [] :: delayed [] ops'
  end.

(* The blocks of a reset-free call sequence. *)
Definition blocks_to_ops (blocks : list ((nat -> A) * list A)) : list (dl_op A) :=
  map (fun b => DProcess (fst b) (snd b)) blocks.

End Spec.
