(* Model of audio/linear_filters/fir_filter.{h,cc}, two_tap_fir_filter.h and
   filterbanks/factor_two_decimator.h.

   A frame (one column, one sample per channel) is an element of an arbitrary type
   V; add and mul are the elementwise operations on frames; no law is assumed, so
   everything also holds for floating point.  `int` does not overflow. *)
From Verif Require Import Common FixedDelayLineModel.

Section Fir.
Context {V : Type} (zero : V) (add mul : V -> V -> V).

(* fir_filter.h:101-105.  The columns of filter_ and of state_; workspace_ is
   overwritten before each use. *)
Record fir := { kernel : list V; fstate : list V }.

(* fir_filter.cc:27-40 *)
Definition fir_init (filter : list V) : fir :=
  {| kernel := filter; fstate := repeat zero (length filter) |}.
Definition fir_reset (f : fir) : fir :=
  {| kernel := kernel f; fstate := repeat zero (length (fstate f)) |}.

(* x.middleCols(pos, length v) += v; Eigen asserts that the range is inside. *)
Definition add_cols (pos : nat) (v x : list V) : outcome (list V) :=
  oguard (pos + length v <=? length x)
    (Ok (splice pos (map (fun p => add (fst p) (snd p)) (combine (slice pos (length v) x) v)) x)).

(* fir_filter.h:78-93, the loop over the input frames, from index i on. *)
Fixpoint fir_loop (k : list V) (cols i : nat) (rest : list V) (output state : list V)
    : outcome (list V * list V) :=
  match rest with
  | [] => Ok (output, state)
  | frame :: rest' =>
      let workspace := map (fun c => mul c frame) k in
      let available := cols - i in
      let to_accum := Nat.min available (length k) in
      obind (add_cols i (firstn to_accum workspace) output) (fun output' =>
      (* leftover_frames = kernel_frames_ - available; rightCols(leftover_frames) *)
      obind (if available <? length k
             then add_cols 0 (skipn available workspace) state
             else Ok state) (fun state' =>
      fir_loop k cols (S i) rest' output' state'))
  end.

(* fir_filter.h:50-94; the shift loop of lines 65-75 is the one of FixedDelayLine. *)
Definition fir_process (f : fir) (input : list V) : outcome (fir * list V) :=
  let cols := length input in
  let kf := length (kernel f) in
  if cols =? 0 then Ok (f, []) else
  let flush := Nat.min cols (length (fstate f)) in
  let output := splice 0 (firstn flush (fstate f)) (repeat zero cols) in
  obind (shift_loop (S kf) flush kf 0 (fstate f)) (fun st =>
  let st := splice (length st - flush) (repeat zero flush) st in
  obind (fir_loop (kernel f) cols 0 input output st) (fun os =>
  Ok ({| kernel := kernel f; fstate := snd os |}, fst os))).
End Fir.

Section TwoTap.
Context {V G : Type} (zero : V) (add : V -> V -> V) (scale : G -> V -> V).

(* two_tap_fir_filter.h:36-39: gains = (gain_prev, gain_now) *)
Record two_tap := { gain_prev : G; gain_now : G; tstate : V }.
(* two_tap_fir_filter.h:36-50 *)
Definition tt_init (gains : G * G) : two_tap :=
  {| gain_prev := fst gains; gain_now := snd gains; tstate := zero |}.

(* two_tap_fir_filter.h:55-73 *)
Definition tt_process (f : two_tap) (input : list V) : two_tap * list V :=
  match input with
  | [] => (f, [])
  | x0 :: xs =>
      let right := map (fun p => add (scale (gain_now f) (fst p)) (scale (gain_prev f) (snd p)))
                       (combine xs (firstn (length xs) input)) in
      ({| gain_prev := gain_prev f; gain_now := gain_now f; tstate := last input x0 |},
       add (scale (gain_now f) x0) (scale (gain_prev f) (tstate f)) :: right)
  end.
End TwoTap.

Section Decimator.
Context {V : Type}.

(* factor_two_decimator.h:55-58: a map with stride 2 starting at [off], of n columns;
   reading beyond the input is undefined. *)
Fixpoint strided (n off : nat) (input : list V) : outcome (list V) :=
  match n with
  | 0 => Ok []
  | S n' =>
      match nth_error input off with
      | None => Undef
      | Some x => obind (strided n' (off + 2) input) (fun r => Ok (x :: r))
      end
  end.

(* factor_two_decimator.h:51-63; the state is skip_next_sample_. *)
Definition decimate (skip : bool) (input : list V) : outcome (bool * list V) :=
  obind (strided ((length input + (if skip then 0 else 1)) / 2) (if skip then 1 else 0) input) (fun out =>
  Ok (if length input mod 2 =? 1 then negb skip else skip, out)).
End Decimator.
