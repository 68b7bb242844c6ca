(* Model of audio/dsp/spectral_processor.{h,cc}.

   A column of the input (one sample per input channel) has type [TI], a column
   of the output type [TO] with column-wise [add] and [zero]; no laws are
   assumed, so the results hold bit for bit for floats.
   [winI], [winO] multiply column k of a block by window_[k]; [fwd] and [bwd]
   are the forward and inverse transforms of all channels; the callback is a
   function of its own state, of the spectrum and of its second argument
   num_time_domain_frames.  out_fft_workspace_, which the callback may leave
   partly unwritten, counts as part of the callback's state.
   The circular buffer is represented by the list of unread columns: every
   access moves a multiple of num_in_channels_ entries, and circular_buffer.h
   is a FIFO as long as nothing unread is overwritten (C01).  A write that
   would overwrite unread columns is modelled as [Undef]. *)
From Verif Require Import Common CInt NumberUtilModel.
Local Open Scope nat_scope.

Section Proc.
Context {TI TO SI SO CB : Type} (zeroI : TI) (zero : TO) (add : TO -> TO -> TO).
Variables (winI : nat -> TI -> TI) (winO : nat -> TO -> TO)
          (fwd : list TI -> SI) (bwd : SO -> list TO)
          (callback : CB -> SI -> nat -> CB * SO).

(* spectral_processor.h:124-133; [cf_delay] is initial_delay_. *)
Record config := mkConfig {
  cf_hop : nat; cf_block : nat; cf_max : nat; cf_delay : nat
}.

Record proc := mkProc {
  pr_pos : nat;                  (* position_in_output_ *)
  pr_queue : list TI;             (* in_circular_buffer_, unread columns *)
  pr_over : list TO;              (* out_overflow_ *)
  pr_cb : CB                     (* the callback object *)
}.

(* spectral_processor.cc:84-88 *)
Definition gcd_with_hop (sizes : list Z) (hop : Z) : outcome Z :=
  gcd_vector (sizes ++ [hop]).

(* spectral_processor.cc:99-132: the constructor's arguments (num_in_channels
   > 0 and a non-null callback are taken for granted).  max_element of an
   empty vector is dereferenced; a negative number of delay samples makes the
   vector of Reset (line 145) impossible to build. *)
Definition make_config (sizes : list Z) (window_size block hop : Z)
    : outcome config :=
  match sizes with
  | [] => Undef
  | s :: rest =>
      let mx := fold_left Z.max rest s in
      obind (gcd_with_hop sizes hop) (fun g =>
      ocheck (0 <? block)%Z
      (ocheck (0 <? mx)%Z
      (ocheck (window_size =? block)%Z
      (oguard (0 <=? block - g)%Z
       (Ok (mkConfig (Z.to_nat hop) (Z.to_nat block) (Z.to_nat mx)
                     (Z.to_nat (block - g))))))))
  end.

Variable cf : config.

(* spectral_processor.cc:115: columns of out_overflow_. *)
Definition over_cols := cf_max cf + cf_block cf.

(* spectral_processor.cc:137-147; the callback is not touched. *)
Definition reset (cb : CB) : proc :=
  mkProc 0 (repeat zeroI (cf_delay cf)) (repeat zero over_cols) cb.

(* spectral_processor.cc:229-232: [n] iterations from [i] on. *)
Fixpoint shift_loop (n i shift : nat) (l : list TO) : list TO :=
  match n with
  | O => l
  | S n' =>
      let l1 := splice i [nth (i + shift) l zero] l in
      let l2 := splice (i + shift) [zero] l1 in
      shift_loop n' (S i) shift l2
  end.

(* spectral_processor.cc:160-161, 222-233: output.setZero() and
   MoveOverflowIntoOutput; returns the output columns and the new overflow. *)
Definition move_overflow (over : list TO) (cols : nat) : list TO * list TO :=
  let k := Nat.min (length over) cols in
  (firstn k over ++ repeat zero (cols - k),
   shift_loop (length over - k) 0 k over).

(* a.middleCols(start, |b|) += b *)
Definition add_at (start : nat) (b l : list TO) : list TO :=
  splice start
    (map (fun p => add (fst p) (snd p)) (combine (slice start (length b) l) b))
    l.

(* spectral_processor.cc:235-249. *)
Definition move_processed (b : list TO) (start : nat) (out over : list TO)
    : outcome (list TO * list TO) :=
  let f := Nat.min (length b) (length out - start) in
  let e := length b - f in
  oguard (start + f <=? length out)
  (oguard (e <=? length over)
   (let over1 := add_at 0 (slice f e b) over in
    Ok (add_at start (firstn f b) out,
        firstn e over1 ++ repeat zero (length over - e)))).

Definition map_index {A B} (f : nat -> A -> B) (l : list A) : list B :=
  map (fun p => f (fst p) (snd p)) (combine (seq 0 (length l)) l).

(* spectral_processor.cc:189-220.  The second argument of the callback is
   transformer_.GetTransformedSize() = block_length_/2 + 1
   (kiss_fft.h:136-138). *)
Definition window_and_process (cb : CB) (b : list TI) : outcome (CB * list TO) :=
  ocheck (length b =? cf_block cf)
  (let '(cb', so) := callback cb (fwd (map_index winI b))
                       (Nat.div (cf_block cf) 2 + 1) in
   Ok (cb', map_index winO (bwd so))).

(* spectral_processor.cc:166-183.  pos advances by hop_size_ until it reaches
   the chunk length, so for hop_size_ > 0 the chunk length bounds the number
   of iterations; running out of fuel stands for a loop that does not end. *)
Fixpoint chunk_loop (fuel : nat) (p : proc) (out : list TO)
    : outcome (proc * list TO) :=
  if length (pr_queue p) <? cf_block cf then Ok (p, out)
  else
  match fuel with
  | O => Undef
  | S fuel' =>
      let b := firstn (cf_block cf) (pr_queue p) in
      ocheck (cf_hop cf <=? length (pr_queue p))
      (obind (window_and_process (pr_cb p) b) (fun r =>
       obind (move_processed (snd r) (pr_pos p) out (pr_over p)) (fun oo =>
       let p' := mkProc (pr_pos p + cf_hop cf)
                        (skipn (cf_hop cf) (pr_queue p)) (snd oo) (fst r) in
       if length out <=? pr_pos p' then Ok (p', fst oo)
       else chunk_loop fuel' p' (fst oo))))
  end.

(* spectral_processor.cc:149-187 *)
Definition process_chunk (p : proc) (input : list TI)
    : outcome (proc * list TO) :=
  let c := length input in
  ocheck (c <=? cf_max cf)
  (let '(out, over) := move_overflow (pr_over p) c in
   let q := pr_queue p ++ input in
   oguard (length q <=? cf_max cf + cf_block cf)
   (obind (chunk_loop c (mkProc (pr_pos p) q over (pr_cb p)) out) (fun r =>
    ocheck (c <=? pr_pos (fst r))
    (Ok (mkProc (pr_pos (fst r) - c) (pr_queue (fst r)) (pr_over (fst r))
                (pr_cb (fst r)), snd r))))).

End Proc.
