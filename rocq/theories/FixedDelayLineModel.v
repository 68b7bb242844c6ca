(* Model of audio/dsp/fixed_delay_line.h.

   A frame (one column of the Eigen array, one sample per channel) is an
   element of an arbitrary type [A]; all operations of the class act on whole
   columns. `int` arithmetic does not overflow. *)
From Verif Require Import Common.

Section DelayLine.
Context {A : Type}.
(* A column of zeros (setZero, fixed_delay_line.h:53). *)
Variable zero : A.

(* fixed_delay_line.h:100-105; num_channels_ is part of the type [A]. *)
Record dline : Type := {
  delay_samples : nat;
  last_frame : nat;
  last_request : nat;
  buffer : list A
}.

(* fixed_delay_line.h:48-54 *)
Definition dl_reset (s : dline) : dline :=
  {| delay_samples := delay_samples s;
     last_frame := delay_samples s;
     last_request := 0;
     buffer := map (fun _ => zero) (buffer s) |}.

(* fixed_delay_line.h:40-46. [junk] is the content of freshly allocated
   memory (Eigen's resize leaves it uninitialised). *)
Definition dl_init (junk : nat -> A) (delay : Z) (block_size : nat)
    : outcome dline :=
  ocheck (0 <=? delay)%Z
    (Ok (dl_reset
      {| delay_samples := Z.to_nat delay; last_frame := 0; last_request := 0;
         buffer := map junk (seq 0 (Z.to_nat delay + block_size)) |})).

(* buffer_.middleCols(dst, n) = buffer_.middleCols(src, n), fixed_delay_line.h:85-86;
   Eigen asserts that both ranges lie inside the array. *)
Definition move_cols (dst src n : nat) (b : list A) : outcome (list A) :=
  oguard ((dst + n <=? length b) && (src + n <=? length b))
    (Ok (splice dst (slice src n b) b)).

(* fixed_delay_line.h:77-88: the while loop. The fuel bounds the number of
   iterations; running out of it is reported as [Undef]. *)
Fixpoint shift_loop (fuel shift needed start : nat) (b : list A)
    : outcome (list A) :=
  match fuel with
  | 0 => Undef
  | S fuel' =>
      (* available_to_move = min(shift, needed - (start + shift)); <= 0: break *)
      let avail := Nat.min shift (needed - (start + shift)) in
      if avail =? 0 then Ok b
      else obind (move_cols start (start + shift) avail b)
                 (fun b' => shift_loop fuel' shift needed (start + shift) b')
  end.

(* fixed_delay_line.h:64-97. [junk] is the content of the columns added by
   conservativeResize. Returns the view of the first input.cols() columns. *)
Definition dl_process (junk : nat -> A) (s : dline) (input : list A)
    : outcome (dline * list A) :=
  let n := length input in
  let needed := last_frame s + n in
  let b0 :=
    if length (buffer s) <? needed
    then buffer s ++ map junk (seq (length (buffer s)) (needed - length (buffer s)))
    else buffer s in
  obind (shift_loop (S needed) (last_request s) needed 0 b0) (fun b1 =>
  let pos := last_frame s - last_request s in
  oguard ((last_request s <=? last_frame s) && (pos + n <=? length b1))
  (let b2 := splice pos input b1 in
   let s' := {| delay_samples := delay_samples s;
                last_frame := last_frame s + n - last_request s;
                last_request := n;
                buffer := b2 |} in
   oguard (n <=? length b2) (Ok (s', firstn n b2)))).

(* A call sequence. Each ProcessBlock comes with the junk it may meet. *)
Inductive dl_op : Type :=
| DProcess (junk : nat -> A) (input : list A)
| DReset.

Definition dl_step (s : dline) (o : dl_op) : outcome (dline * list A) :=
  match o with
  | DProcess junk input => dl_process junk s input
  | DReset => Ok (dl_reset s, [])
  end.

Definition dl_session (junk : nat -> A) (delay : Z) (block_size : nat)
    (ops : list dl_op) : outcome (dline * list (list A)) :=
  obind (dl_init junk delay block_size) (fun s => run dl_step s ops).

End DelayLine.
Arguments dline : clear implicits.
Arguments dl_op : clear implicits.
