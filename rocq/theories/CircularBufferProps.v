(* Properties C01, C02, C03: the circular buffer (audio/dsp/circular_buffer.h). *)
From Verif Require Import Common CircularBufferModel CircularBufferSpec CircularBufferProofs.

(* C01. Every legal history of calls behaves like a bounded FIFO queue. *)
Theorem C01_fifo :
  forall (A : Type) (d : A) (cap : nat) (ops : list (cb_op A))
         (q : list A) (outs : list (cb_out A)),
    0 < cap -> q_run cap [] ops = Some (q, outs) ->
    exists b outs', cb_session d cap ops = Ok (b, outs') /\
                    map hide_full outs' = outs /\
                    num_available b = length q /\
                    cb_peek b (length q) = Ok q.
Proof. exact @session_fifo. Qed.
Print Assumptions C01_fifo.

(* C01, planar buffers: every channel is such a queue. *)
Theorem C01_planar_fifo :
  forall (A : Type) (d : A) (channels cap : nat) (ops : list (pl_op A))
         (qs : list (list A)) (outs : list (pl_out A)),
    0 < cap -> pq_run cap (repeat [] channels) ops = Some (qs, outs) ->
    exists bs, planar_session d channels cap ops = Ok (bs, outs).
Proof. exact @planar_fifo. Qed.
Print Assumptions C01_planar_fifo.

(* C01, error branch: asking for more than is readable, or writing more than
   the capacity, aborts. *)
Theorem C01_misuse_caught :
  forall (A : Type) (d : A) (cap : nat) (ops : list (cb_op A))
         (q : list A) (outs : list (cb_out A)) (b : cbuf A) (outs' : list (cb_out A)),
    0 < cap -> q_run cap [] ops = Some (q, outs) ->
    cb_session d cap ops = Ok (b, outs') ->
    (forall n, length q < n ->
       cb_peek b n = CheckFail /\ cb_read b n = CheckFail
       /\ cb_advance b n = CheckFail) /\
    (forall xs, cap < length xs -> cb_write b xs = CheckFail).
Proof. exact @session_misuse. Qed.
Print Assumptions C01_misuse_caught.

Example C01_example :
  let ops := [CWrite [1;2;3]; CRead 2; CWrite [4;5;6]; CNumReadable; CPeek 4;
              CIsFull; CAdvance 1; CRead 3; CWrite [7;8]; CClear; CNumReadable] in
  q_run 4 [] ops <> None /\
  omap snd (cb_session 0 4 ops) =
    Ok [OUnit; OData [1;2]; OUnit; ONum 4; OData [3;4;5;6]; OBool true;
        OUnit; OData [4;5;6]; OUnit; OUnit; ONum 0].
Proof. vm_compute. split; [discriminate|reflexivity]. Qed.

Example C01_planar_example :
  let ops := [PWrite [[1;2;3];[4;5;6]]; PRead 2; PWrite [[7;8];[9;10]]; PRead 3] in
  pq_run 3 (repeat [] 2) ops =
    Some ([[];[]], [PUnit; PData [[1;2];[4;5]]; PUnit; PData [[3;7;8];[6;9;10]]]).
Proof. vm_compute. reflexivity. Qed.

(* C02 as stated is false of the code: after an overrun the entries come out
   in the wrong order (capacity 4, write 1 2 3 4, write 5: Peek gives 5 2 3 4). *)
Theorem C02_overwrite_order_refuted :
  exists (cap : nat) (h xs : list nat) (b : cbuf nat) (outs : list (cb_out nat)),
    0 < cap /\ length xs <= cap /\ cap < length h + length xs /\
    cb_session 0 cap [CWrite h; CWrite xs] = Ok (b, outs) /\
    num_available b = cap /\
    cb_peek b cap <> Ok (newest cap (h ++ xs)).
Proof.
  exists 4, [1;2;3;4], [5].
  eexists; eexists; split; [lia|]; split; [cbn; lia|]; split; [cbn; lia|].
  split; [vm_compute; reflexivity|]. split; [reflexivity|]. vm_compute. discriminate.
Qed.
Print Assumptions C02_overwrite_order_refuted.

(* C02, what does hold: after any legal history, an overrunning write of at
   most [cap] entries leaves exactly the newest [cap] entries readable, but
   rotated by 2*cap - (unread + written).  The rotation is trivial only when
   a full buffer is overwritten completely.  Missing for the full claim: the
   order. *)
Theorem C02_overwrite_rotated_partial :
  forall (A : Type) (d : A) (cap : nat) (ops : list (cb_op A)) (q : list A)
         (outs : list (cb_out A)) (b : cbuf A) (outs' : list (cb_out A)) (xs : list A),
    0 < cap -> q_run cap [] ops = Some (q, outs) ->
    cb_session d cap ops = Ok (b, outs') ->
    length xs <= cap -> cap < length q + length xs ->
    exists b', cb_write b xs = Ok b' /\ num_available b' = cap /\
      cb_peek b' cap =
        Ok (rotate (2 * cap - (length q + length xs)) (newest cap (q ++ xs))).
Proof. exact @session_overrun. Qed.
Print Assumptions C02_overwrite_rotated_partial.

Example C02_example :
  exists b outs,
    q_run 4 [] [CWrite [1;2;3;4]; CRead 1] = Some ([2;3;4], [OUnit; OData [1]]) /\
    cb_session 0 4 [CWrite [1;2;3;4]; CRead 1] = Ok (b, outs) /\
    rotate (2 * 4 - (3 + 3)) (newest 4 [2;3;4;5;6;7]) = [6;7;4;5].
Proof. eexists; eexists; vm_compute; repeat split. Qed.

(* C03: full flag.  For every legal history without zero-length Read/Advance
   calls, IsFull() tells exactly whether NumReadableEntries() = capacity(). *)
Theorem C03_is_full_partial :
  forall (A : Type) (d : A) (cap : nat) (ops : list (cb_op A))
         (q : list A) (outs : list (cb_out A)),
    0 < cap -> forallb (fun o => negb (zero_consume o)) ops = true ->
    qf_run cap [] ops = Some (q, outs) ->
    exists b, cb_session d cap ops = Ok (b, outs).
Proof. exact @session_full. Qed.
Print Assumptions C03_is_full_partial.

(* C03: with zero-length calls allowed, a positive answer is still reliable. *)
Theorem C03_is_full_sound_partial :
  forall (A : Type) (d : A) (cap : nat) (ops : list (cb_op A)) (q : list A)
         (outs : list (cb_out A)) (b : cbuf A) (outs' : list (cb_out A)),
    0 < cap -> q_run cap [] ops = Some (q, outs) ->
    cb_session d cap ops = Ok (b, outs') -> is_full b = true ->
    num_available b = capacity b.
Proof. exact @session_full_sound. Qed.
Print Assumptions C03_is_full_sound_partial.

Example C03_example :
  let ops := [CWrite [1;2]; CIsFull; CWrite [3]; CIsFull; CWrite []; CIsFull; CRead 1; CIsFull] in
  forallb (fun o => negb (zero_consume o)) ops = true /\
  qf_run 3 [] ops =
    Some ([2;3], [OUnit; OBool false; OUnit; OBool true; OUnit; OBool true; OData [1]; OBool false]).
Proof. vm_compute. split; reflexivity. Qed.

(* C03 as stated is false: (a) Read(0) on a full buffer makes IsFull() false;
   (b) after an overrun IsFull() is false although every slot is unread;
   (c) a later write can make it true although the buffer is not full. *)
Theorem C03_is_full_refuted :
  (exists cap (ops : list (cb_op nat)) b outs,
      forallb (fun o => match o with CWrite xs => length xs <=? cap | _ => true end) ops = true /\
      cb_session 0 cap ops = Ok (b, outs) /\
      num_available b = capacity b /\ is_full b = false) /\
  (exists cap (h xs : list nat) b outs,
      length xs <= cap /\
      cb_session 0 cap [CWrite h; CWrite xs] = Ok (b, outs) /\
      num_available b = capacity b /\ is_full b = false) /\
  (exists cap (ops : list (cb_op nat)) b outs,
      cb_session 0 cap ops = Ok (b, outs) /\
      num_available b < capacity b /\ is_full b = true).
Proof.
  split; [|split].
  - exists 2, [CWrite [1;2]; CRead 0]. eexists; eexists.
    split; [reflexivity|]. split; [vm_compute; reflexivity|]. split; reflexivity.
  - exists 4, [1;2], [3;4;5;6]. eexists; eexists.
    split; [cbn; lia|]. split; [vm_compute; reflexivity|]. split; reflexivity.
  - exists 4, [CWrite [1;2]; CWrite [3;4;5;6]; CAdvance 3; CWrite [7]].
    eexists; eexists. split; [vm_compute; reflexivity|]. split; [cbn; lia|reflexivity].
Qed.
Print Assumptions C03_is_full_refuted.
