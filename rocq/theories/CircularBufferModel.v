(* Model of audio/dsp/circular_buffer.h.

   Simplifications: `int` indices are natural numbers (no overflow of
   write_index_ + num_to_write, i.e. capacity < 2^30); the container is a list
   of elements of an arbitrary type; DCHECKs are active (debug build). *)
From Verif Require Import Common.

Section Buffer.
Context {A : Type}.
(* The value std::vector::resize gives to new elements (circular_buffer.h:55). *)
Variable dflt : A.

(* circular_buffer.h:203-210, the member variables. *)
Record cbuf : Type := {
  capacity : nat;
  is_full : bool;
  num_available : nat;
  data : list A;
  read_index : nat;
  write_index : nat
}.

(* circular_buffer.h:48-49. The other members are uninitialised; they are
   only read after Init. *)
Definition cb_new : cbuf :=
  {| capacity := 0; is_full := false; num_available := 0; data := [];
     read_index := 0; write_index := 0 |}.

(* circular_buffer.h:177-182 *)
Definition cb_clear (b : cbuf) : cbuf :=
  {| capacity := capacity b; is_full := false; num_available := 0;
     data := data b; read_index := 0; write_index := 0 |}.

(* circular_buffer.h:52-57 *)
Definition cb_init (b : cbuf) (cap : nat) : outcome cbuf :=
  ocheck (0 <? cap)
    (Ok (cb_clear
      {| capacity := cap; is_full := is_full b;
         num_available := num_available b;
         data := vresize dflt cap (data b);
         read_index := read_index b; write_index := write_index b |})).

(* A span into data_: (start, length). *)
Definition span : Type := (nat * nat)%type.

(* circular_buffer.h:74-101: Write(int) returns the two spans to be filled. *)
Definition cb_write_spans (b : cbuf) (n : nat) : outcome (cbuf * (span * span)) :=
  ocheck (0 <? capacity b)
  (ocheck (n <=? capacity b)
  (if n =? 0 then Ok (b, ((0, 0), (0, 0)))
   else
     let spans :=
       if write_index b + n <=? capacity b
       then ((write_index b, n), (0, 0))
       else
         let before := capacity b - write_index b in
         ((write_index b, before), (0, n - before)) in
     let w' := (write_index b + n) mod capacity b in
     let avail' :=
       if capacity b <? num_available b + n then capacity b
       else num_available b + n in
     Ok ({| capacity := capacity b;
            is_full := w' =? read_index b;
            num_available := avail';
            data := data b;
            read_index := read_index b;
            write_index := w' |}, spans))).

(* Storing through a MutableSpan; outside of data_ it is undefined. *)
Definition store_span (s : span) (xs : list A) (d : list A) : outcome (list A) :=
  oguard (fst s + length xs <=? length d) (Ok (splice (fst s) xs d)).

(* circular_buffer.h:60-67: Write(Span). *)
Definition cb_write (b : cbuf) (xs : list A) : outcome cbuf :=
  obind (cb_write_spans b (length xs)) (fun r =>
  let '(b', (s1, s2)) := r in
  obind (store_span s1 (firstn (snd s1) xs) (data b')) (fun d1 =>
  obind (store_span s2 (skipn (snd s1) xs) d1) (fun d2 =>
  Ok {| capacity := capacity b'; is_full := is_full b';
        num_available := num_available b'; data := d2;
        read_index := read_index b'; write_index := write_index b' |}))).

(* circular_buffer.h:145-165: Peek(int). *)
Definition cb_peek_spans (b : cbuf) (n : nat) : outcome (span * span) :=
  ocheck (0 <? capacity b)
  (if n =? 0 then Ok ((0, 0), (0, 0))
   else
     ocheck (n <=? num_available b)
     (let e := (read_index b + n) mod capacity b in
      if read_index b <? e
      then Ok ((read_index b, e - read_index b), (0, 0))
      else
        let before := capacity b - read_index b in
        Ok ((read_index b, length (data b) - read_index b), (0, n - before)))).

Definition load_span (s : span) (d : list A) : outcome (list A) :=
  oguard (fst s + snd s <=? length d) (Ok (slice (fst s) (snd s) d)).

(* circular_buffer.h:133-143 and 195-201: Peek into a buffer of n elements;
   copying more than n elements into it would be undefined. *)
Definition cb_peek (b : cbuf) (n : nat) : outcome (list A) :=
  obind (cb_peek_spans b n) (fun ss =>
  obind (load_span (fst ss) (data b)) (fun x1 =>
  obind (load_span (snd ss) (data b)) (fun x2 =>
  oguard (length (x1 ++ x2) =? n) (Ok (x1 ++ x2))))).

(* circular_buffer.h:169-174 *)
Definition cb_advance (b : cbuf) (k : nat) : outcome cbuf :=
  ocheck (k <=? num_available b)
  (oguard (0 <? capacity b) (* % capacity_ *)
  (Ok {| capacity := capacity b; is_full := false;
         num_available := num_available b - k; data := data b;
         read_index := (read_index b + k) mod capacity b;
         write_index := write_index b |})).

(* circular_buffer.h:105-128: Read = Peek then Advance. *)
Definition cb_read (b : cbuf) (n : nat) : outcome (cbuf * list A) :=
  obind (cb_peek b n) (fun xs =>
  obind (cb_advance b n) (fun b' => Ok (b', xs))).

(* The public calls of the class and their observable results
   (circular_buffer.h:52-192). *)
Inductive cb_op : Type :=
| CWrite (xs : list A)
| CRead (n : nat)
| CPeek (n : nat)
| CAdvance (n : nat)
| CClear
| CNumReadable
| CCapacity
| CIsFull.

Inductive cb_out : Type :=
| OUnit
| OData (xs : list A)
| ONum (n : nat)
| OBool (b : bool).

Definition cb_step (b : cbuf) (o : cb_op) : outcome (cbuf * cb_out) :=
  match o with
  | CWrite xs => obind (cb_write b xs) (fun b' => Ok (b', OUnit))
  | CRead n => obind (cb_read b n) (fun r => Ok (fst r, OData (snd r)))
  | CPeek n => obind (cb_peek b n) (fun xs => Ok (b, OData xs))
  | CAdvance n => obind (cb_advance b n) (fun b' => Ok (b', OUnit))
  | CClear => Ok (cb_clear b, OUnit)
  | CNumReadable => Ok (b, ONum (num_available b))
  | CCapacity => Ok (b, ONum (capacity b))
  | CIsFull => Ok (b, OBool (is_full b))
  end.

(* Init on a fresh object followed by a sequence of calls. *)
Definition cb_session (cap : nat) (ops : list cb_op)
    : outcome (cbuf * list cb_out) :=
  obind (cb_init cb_new cap) (fun b => run cb_step b ops).

(* ---- PlanarCircularBuffer, circular_buffer.h:213-261 ---- *)

Definition planar : Type := list cbuf.

Fixpoint omapM {X Y} (f : X -> outcome Y) (l : list X) : outcome (list Y) :=
  match l with
  | [] => Ok []
  | x :: l' => obind (f x) (fun y => obind (omapM f l') (fun ys => Ok (y :: ys)))
  end.

(* circular_buffer.h:219-225, on a fresh object *)
Definition planar_init (channels cap : nat) : outcome planar :=
  omapM (fun b => cb_init b cap) (repeat cb_new channels).

(* circular_buffer.h:228-233; input[i] for i < num_channels_ must exist *)
Fixpoint planar_write_from (n0 : nat) (bs : planar) (input : list (list A))
    : outcome planar :=
  match bs with
  | [] => Ok []
  | b :: bs' =>
      match input with
      | [] => Undef
      | x :: input' =>
          ocheck (length x =? n0)
          (obind (cb_write b x) (fun b' =>
           obind (planar_write_from n0 bs' input') (fun r => Ok (b' :: r))))
      end
  end.
Definition planar_write (bs : planar) (input : list (list A)) : outcome planar :=
  planar_write_from (length (hd [] input)) bs input.

(* circular_buffer.h:236-241 *)
Fixpoint planar_read (bs : planar) (n : nat)
    : outcome (planar * list (list A)) :=
  match bs with
  | [] => Ok ([], [])
  | b :: bs' =>
      obind (cb_read b n) (fun r =>
      obind (planar_read bs' n) (fun r' =>
      Ok (fst r :: fst r', snd r :: snd r')))
  end.

(* circular_buffer.h:245-256: buffers_[0] must exist *)
Definition planar_num_readable (bs : planar) : outcome nat :=
  match bs with [] => Undef | b :: _ => Ok (num_available b) end.
Definition planar_is_full (bs : planar) : outcome bool :=
  match bs with [] => Undef | b :: _ => Ok (is_full b) end.

Inductive pl_op : Type :=
| PWrite (x : list (list A))
| PRead (n : nat)
| PNumReadable.
Inductive pl_out : Type :=
| PUnit
| PData (x : list (list A))
| PNum (n : nat).

Definition planar_step (bs : planar) (o : pl_op) : outcome (planar * pl_out) :=
  match o with
  | PWrite x => obind (planar_write bs x) (fun b' => Ok (b', PUnit))
  | PRead n => obind (planar_read bs n) (fun r => Ok (fst r, PData (snd r)))
  | PNumReadable => obind (planar_num_readable bs) (fun n => Ok (bs, PNum n))
  end.

Definition planar_session (channels cap : nat) (ops : list pl_op)
    : outcome (planar * list pl_out) :=
  obind (planar_init channels cap) (fun bs => run planar_step bs ops).

End Buffer.

Arguments cbuf : clear implicits.
Arguments cb_op : clear implicits.
Arguments cb_out : clear implicits.
Arguments pl_op : clear implicits.
Arguments pl_out : clear implicits.
Arguments planar : clear implicits.
