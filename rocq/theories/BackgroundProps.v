(* C48: the background level detector. *)
From Verif Require Import Common RealUtil BackgroundModel BackgroundSpec BackgroundProofs.
Local Open Scope R_scope.

(* Whatever calls are made (any parameters that are accepted, changed at any time, resets, blocks of
   any size), every reported level lies between the bounds of the envelopes and of the initial level
   zero; with non-negative envelopes it is never negative, and it never exceeds the largest value of
   the fast envelope. *)
Theorem C48_range : forall lo hi ops s outs, lo <= 0 <= hi -> Forall (op_in_hull lo hi) ops ->
  run bg_step bg_new ops = Ok (s, outs) -> Forall (Forall (fun v => lo <= v <= hi)) (levels outs).
Proof. intros lo hi ops s outs HL HO H. exact (session_hull lo hi HL ops bg_new s outs HO new_good (Forall_nil _) H). Qed.

(* After Init, the level of every channel over any sequence of blocks is exactly the documented one:
   quick adaptation until the level first exceeds the input, then held in the rejection period of a
   transient, and smoothed towards the smaller envelope otherwise. *)
Theorem C48_law : forall s p n fs blocks s' o outs, 0 <= rejection_time p ->
  run bg_step s (BgInit p n fs :: map BgBlock blocks) = Ok (s', o :: outs) ->
  length (levels outs) = length (concat blocks) /\ forall k, (k < n)%nat ->
  background_law (1 - exp (-10 / (time_constant p * envelope_rate p))) (1 - exp (-1 / (time_constant p * envelope_rate p))) (sensitivity p) (Int_part (rejection_time p * envelope_rate p))
    (length (concat blocks)) (fun i => nth i (0 :: map (fun fr => nth k fr 0) (levels outs)) 0)
    (fun i => fst (nth k (nth i (concat blocks) []) (0, 0))) (fun i => snd (nth k (nth i (concat blocks) []) (0, 0))).
Proof. exact law_after_init. Qed.

(* The calls succeed for all valid parameters (also on an object last initialised with valid ones). *)
Theorem C48_total : forall s p0 fs0 p n fs blocks, bparams s = p0 -> valid_params p0 fs0 -> valid_params p fs -> (0 < n)%nat -> Forall (Forall (fun fr => length fr = n)) blocks ->
  exists s' o outs, run bg_step s (BgInit p n fs :: map BgBlock blocks) = Ok (s', o :: outs).
Proof. exact valid_runs. Qed.

(* The levels of a channel depend on the envelopes of that channel only, however the input is split
   into blocks and however many other channels there are. *)
Theorem C48_channels : forall s1 s2 p n1 n2 fs1 fs2 bl1 bl2 t1 t2 o1 o2 outs1 outs2 k1 k2, (k1 < n1)%nat -> (k2 < n2)%nat ->
  run bg_step s1 (BgInit p n1 fs1 :: map BgBlock bl1) = Ok (t1, o1 :: outs1) -> run bg_step s2 (BgInit p n2 fs2 :: map BgBlock bl2) = Ok (t2, o2 :: outs2) ->
  map (fun fr => nth k1 fr (0, 0)) (concat bl1) = map (fun fr => nth k2 fr (0, 0)) (concat bl2) ->
  map (fun fr => nth k1 fr 0) (levels outs1) = map (fun fr => nth k2 fr 0) (levels outs2).
Proof. exact channels_independent. Qed.

(* Init does not validate the parameters it is given: it tests those of the previous Init.  Every
   sensitivity is accepted on a new object, a later Init with valid parameters then aborts, and with
   a negative sensitivity the level freezes for good once the quick adaptation is over, whatever the
   (positive) input. *)
Theorem C48_init_refuted :
  (forall v, exists s, bg_init bg_new (with_sensitivity v) 1 48000 = Ok s) /\
  (forall v s p n fs, v <= 0 \/ 1 < v -> bg_init bg_new (with_sensitivity v) 1 48000 = Ok s -> bg_init s p n fs = CheckFail) /\
  (forall a1 a2 sens T n b f sl, sens < 0 -> (0 < T)%Z -> background_law a1 a2 sens T n b f sl -> (forall i, (i < n)%nat -> 0 < f i /\ 0 <= sl i) ->
   forall i, (i < n)%nat -> ~ adapting b f i -> b (S i) = b i).
Proof.
  split; [exact bad_accepted|]. split; [intros v s p n fs; apply good_rejected|].
  intros a1 a2 sens T n b f sl H1 H2 H3 H4. exact (frozen sens T n b f sl a1 a2 H1 H2 H3 H4).
Qed.

Example C48_example : valid_params default_bg 48000 /\ valid_params (with_sensitivity (1 / 2)) 48000.
Proof.
  split; [exact default_valid|]. destruct default_valid as (V1 & V2 & V3 & V4 & V5 & V6 & V7). unfold valid_params, with_sensitivity.
  cbn [slow_cutoff fast_cutoff time_constant sensitivity rejection_time envelope_rate]. repeat split; try lra. exact V4.
Qed.

Print Assumptions C48_range.
Print Assumptions C48_law.
Print Assumptions C48_total.
Print Assumptions C48_channels.
Print Assumptions C48_init_refuted.
