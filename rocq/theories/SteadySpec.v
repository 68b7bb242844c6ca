(* Signals without end, for the long-term behaviour of filters. *)
From Verif Require Import Common RealUtil.
From Coquelicot Require Import Coquelicot.
Local Open Scope R_scope.

Fixpoint powC (z : C) (k : nat) : C := match k with O => RtoC 1 | S k' => Cmult z (powC z k') end.
(* sample k of the (complex) sinusoid with amplitude and phase A and a step of z per sample *)
Definition sinusoid (A z : C) (k : nat) : R := Re (Cmult A (powC z k)).
(* x and y are the same in the long run *)
Definition settles (x y : nat -> R) : Prop := is_lim_seq (fun k => x k - y k) 0.
Definition stays_bounded (x : nat -> R) : Prop := exists B, forall k, Rabs (x k) <= B.
(* the first k frames of a signal *)
Definition first_frames (x : nat -> list R) (k : nat) : list (list R) := map x (seq 0 k).
(* an object fed the signal x gives the signal y: any way of cutting the first k frames into blocks gives the first k frames of y *)
Definition runs_as {S} (step : S -> list (list R) -> outcome (S * list (list R))) (s : S) (x y : nat -> list R) : Prop :=
  forall blocks k, concat blocks = first_frames x k -> exists s' outs, run step s blocks = Ok (s', outs) /\ concat outs = first_frames y k.
(* one channel of a signal *)
Definition channel_of (i : nat) (x : nat -> list R) (k : nat) : R := nth i (x k) 0.
