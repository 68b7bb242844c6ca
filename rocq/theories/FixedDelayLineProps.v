(* C04: FixedDelayLine delays by exactly the configured number of frames. *)
From Verif Require Import Common FixedDelayLineModel FixedDelayLineSpec FixedDelayLineProofs.

(* Any interleaving of blocks of any sizes (bigger or smaller than the declared
   block size) and resets, whatever uninitialised memory holds. *)
Theorem C04_delay : forall (A : Type) (zero : A) (junk : nat -> A) (delay block : nat)
    (ops : list (dl_op A)),
  exists s', dl_session zero junk (Z.of_nat delay) block ops =
    Ok (s', delayed zero delay [] ops).
Proof. exact @session_spec. Qed.
Print Assumptions C04_delay.

(* The same for a stream without resets, as one equation on the whole stream. *)
Theorem C04_delay_stream : forall (A : Type) (zero : A) (junk : nat -> A) (delay block : nat)
    (blocks : list ((nat -> A) * list A)),
  exists s' outs,
    dl_session zero junk (Z.of_nat delay) block (blocks_to_ops blocks) = Ok (s', outs) /\
    map (@length A) outs = map (fun b => length (snd b)) blocks /\
    concat outs = firstn (length (concat (map snd blocks)))
                    (repeat zero delay ++ concat (map snd blocks)).
Proof. exact @stream_spec. Qed.
Print Assumptions C04_delay_stream.

Theorem C04_negative_delay : forall (A : Type) (zero : A) (junk : nat -> A) (delay : Z)
    (block : nat) (ops : list (dl_op A)),
  (delay < 0)%Z -> dl_session zero junk delay block ops = CheckFail.
Proof. exact @init_negative. Qed.
Print Assumptions C04_negative_delay.

(* Delay 2, declared block size 1, blocks of 3, 1 and 5 frames, then a reset. *)
Example C04_case :
  exists s, dl_session 0 (fun _ => 99) 2 1
    [DProcess (fun _ => 77) [1;2;3]; DProcess (fun _ => 77) [4];
     DProcess (fun _ => 77) [5;6;7;8;9]; DReset; DProcess (fun _ => 77) [1;2;3]]
  = Ok (s, [[0;0;1]; [2]; [3;4;5;6;7]; []; [0;0;1]]).
Proof. eexists. vm_compute. reflexivity. Qed.
