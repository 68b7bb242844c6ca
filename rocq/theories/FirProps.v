(* C19: FIR filters are convolutions; C20: the decimator keeps the even samples. *)
From Verif Require Import Common FirModel FirSpec FirProofs.
From Coq Require Import ZArith.

(* Every kernel (the empty one included), every split of every input into blocks; no law of
   arithmetic is used, so the equality is bit for bit in the order of accumulation given
   by [convolution]. *)
Theorem C19_fir_convolution : forall (V : Type) (zero : V) (add mul : V -> V -> V)
    (k : list V) (blocks : list (list V)),
  exists f' outs,
    run (fir_process zero add mul) (fir_init zero k) blocks = Ok (f', outs) /\
    map (@length V) outs = map (@length V) blocks /\
    concat outs = convolution zero add mul k (concat blocks).
Proof. intros V zero add mul k blocks. exact (fir_stream zero add mul k blocks). Qed.
Print Assumptions C19_fir_convolution.

(* Reset forgets everything. *)
Theorem C19_fir_reset : forall (V : Type) (zero : V) (add mul : V -> V -> V)
    (k : list V) (blocks : list (list V)) f' outs,
  run (fir_process zero add mul) (fir_init zero k) blocks = Ok (f', outs) ->
  fir_reset zero f' = fir_init zero k.
Proof.
  intros V zero add mul k blocks f' outs E.
  destruct (fir_run zero add mul k blocks [] _ (fir_init_at zero add mul k)) as (f2 & o2 & E2 & A & _).
  rewrite E in E2. injection E2 as <- <-. exact (fir_reset_init zero add mul k _ _ A).
Qed.
Print Assumptions C19_fir_reset.

(* gains is the pair given to the constructor. *)
Theorem C19_two_tap : forall (V G : Type) (zero : V) (add : V -> V -> V) (scale : G -> V -> V)
    (gains : G * G) (blocks : list (list V)),
  exists f' outs,
    run (fun f x => Ok (tt_process add scale f x)) (tt_init zero gains) blocks = Ok (f', outs) /\
    map (@length V) outs = map (@length V) blocks /\
    concat outs = two_tap_spec add scale (fst gains) (snd gains) zero (concat blocks).
Proof. intros V G zero add scale gains blocks. exact (tt_run add scale blocks (tt_init zero gains)). Qed.
Print Assumptions C19_two_tap.

(* FirstDifferenceFilter (two_tap_fir_filter.h:84-87), over the integers: y[n] = x[n] - x[n-1]. *)
Theorem C19_first_difference : forall (blocks : list (list Z)),
  exists f' outs,
    run (fun f x => Ok (tt_process Z.add Z.mul f x)) (tt_init 0%Z ((-1)%Z, 1%Z)) blocks = Ok (f', outs) /\
    forall n, n < length (concat blocks) ->
      nth n (concat outs) 0%Z
      = (nth n (concat blocks) 0 - match n with O => 0 | S m => nth m (concat blocks) 0 end)%Z.
Proof.
  intros blocks. destruct (tt_run Z.add Z.mul blocks (tt_init 0%Z ((-1)%Z, 1%Z))) as (f' & outs & E & _ & R).
  exists f', outs. split; [exact E|]. rewrite R. cbn [tt_init gain_prev gain_now tstate fst snd].
  generalize (concat blocks) as x. clear. intros x n Hn.
  assert (G : forall x x0 n, n < length x ->
    nth n (two_tap_spec Z.add Z.mul (-1)%Z 1%Z x0 x) 0%Z
    = (nth n x 0 - match n with O => x0 | S m => nth m x 0 end)%Z).
  { clear. induction x as [|a x IH]; intros x0 n Hn; [cbn in Hn; lia|].
    cbn [two_tap_spec length] in *. destruct n as [|n]; cbn [nth]; [lia|].
    rewrite IH by lia. destruct n; reflexivity. }
  rewrite G by exact Hn. destruct n; reflexivity.
Qed.
Print Assumptions C19_first_difference.

(* A three tap kernel, blocks of 1, 0, 4 and 2 samples. *)
Example C19_case :
  exists f, run (fir_process 0 Nat.add Nat.mul) (fir_init 0 [1;10;100]) [[1];[];[2;3;4;5];[6;7]]
    = Ok (f, [[1]; []; [12;123;234;345]; [456;567]]).
Proof. eexists. vm_compute. reflexivity. Qed.
Example C19_two_tap_case :
  exists f, run (fun f x => Ok (tt_process Z.add Z.mul f x)) (tt_init 0%Z ((-1)%Z, 1%Z)) [[3;5]%Z;[];[4]%Z]
    = Ok (f, [[3;2]%Z; []; [-1]%Z]).
Proof. eexists. vm_compute. reflexivity. Qed.

(* A new decimator (skip_next_sample_ = false). *)
Theorem C20_decimator : forall (V : Type) (blocks : list (list V)),
  exists outs,
    run decimate false blocks = Ok (Nat.odd (length (concat blocks)), outs) /\
    concat outs = evens (concat blocks).
Proof. intros V blocks. destruct (decimate_run blocks false) as (outs & E & R). rewrite xorb_false_l in E. now exists outs. Qed.
Print Assumptions C20_decimator.

Theorem C20_evens_are_the_even_samples : forall (V : Type) (x : list V),
  length (evens x) = (length x + 1) / 2 /\
  forall n, n < length (evens x) -> nth_error (evens x) n = nth_error x (2 * n).
Proof.
  assert (G : forall V m (x : list V), length x <= m -> length (evens x) = (length x + 1) / 2 /\
    forall n, n < length (evens x) -> nth_error (evens x) n = nth_error x (2 * n)).
  { induction m as [|m IH]; intros x Hx.
    - destruct x; [|cbn in Hx; lia]. split; [reflexivity|]. cbn. lia.
    - destruct x as [|a [|b x]].
      + split; [reflexivity|]. cbn. lia.
      + split; [reflexivity|]. cbn [evens length]. intros n Hn. replace n with 0 by lia. reflexivity.
      + cbn [length] in Hx. destruct (IH x) as [L N]; [lia|].
        cbn [evens length]. split.
        * rewrite L. replace (S (S (length x)) + 1) with (length x + 1 + 1 * 2) by lia.
          rewrite Nat.div_add by lia. lia.
        * intros [|n] Hn; [reflexivity|]. cbn [nth_error]. rewrite N by lia.
          replace (2 * S n) with (S (S (2 * n))) by lia. reflexivity. }
  intros V x. exact (G V (length x) x (Nat.le_refl _)).
Qed.
Print Assumptions C20_evens_are_the_even_samples.

Example C20_case : run decimate false [[0];[];[1;2];[3];[4;5;6]] = Ok (true, [[0];[];[2];[];[4;6]]).
Proof. vm_compute. reflexivity. Qed.
