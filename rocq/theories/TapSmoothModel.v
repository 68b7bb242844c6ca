(* Model of audio/dsp/signal_eigen_util.h: ThreeTapSmoother.  Arrays are lists of exact real
   numbers; rounding is not modelled. *)
From Coq Require Import ZArith Reals List.
From Verif Require Import Common CInt RealUtil.
Import ListNotations.
Local Open Scope R_scope.

(* signal_eigen_util.h:88-92 *)
Inductive boundary := Circular | Reflect | ZeroPad.
(* signal_eigen_util.h:130-133 *)
Record smoother := { temp : list R; num_points : nat }.

(* signal_eigen_util.h:45-52; Eigen arrays of negative size are undefined.  The fresh array is
   uninitialised: its contents are the argument. *)
Definition construct (garbage : nat -> R) (n : Z) : outcome smoother :=
  if (n <? 0)%Z then Undef else
  if (1 <? n)%Z then Ok {| temp := map garbage (seq 0 (Z.to_nat n)); num_points := Z.to_nat n |} else CheckFail.

(* signal_eigen_util.h:109-127 *)
Definition handle_endpoints (n : nat) (mode : boundary) (input t : list R) : list R :=
  let at_ k := nth k input 0 in
  match mode with
  | Circular => splice (n - 1) [at_ (n - 2)%nat + at_ 0%nat] (splice 0 [at_ (n - 1)%nat + at_ 1%nat] t)
  | Reflect => splice (n - 1) [at_ (n - 2)%nat + at_ (n - 2)%nat] (splice 0 [at_ 1%nat + at_ 1%nat] t)
  | ZeroPad => splice (n - 1) [at_ (n - 2)%nat] (splice 0 [at_ 1%nat] t)
  end.

(* elementwise operation on two arrays *)
Definition zip_with (f : R -> R -> R) (a b : list R) : list R := map (fun p => f (fst p) (snd p)) (combine a b).

(* signal_eigen_util.h:94-107; the first result is the smoother with its changed temp_, the
   second the changed container.  The null pointer check is not modelled. *)
Definition smooth (o : smoother) (mode : boundary) (coefficient : R) (input : list R) : outcome (smoother * list R) :=
  if negb (length input =? num_points o)%nat then CheckFail else
  if negb (Rltb 0 coefficient) then CheckFail else
  if negb (Rleb coefficient (1 / 3)) then CheckFail else
  let n := num_points o in
  let t1 := splice 1 (zip_with Rplus (slice 0 (n - 2) input) (slice 2 (n - 2) input)) (temp o) in
  let t2 := handle_endpoints n mode input t1 in
  Ok ({| temp := t2; num_points := n |},
      zip_with Rplus input (map (Rmult coefficient) (zip_with Rminus t2 (map (Rmult 2) input)))).

(* signal_eigen_util.h:56-82: one call on the container that is kept beside the smoother *)
Definition call (st : smoother * list R) (c : boundary * R) : outcome ((smoother * list R) * unit) :=
  r <- smooth (fst st) (fst c) (snd c) (snd st) ;; Ok (r, tt).
