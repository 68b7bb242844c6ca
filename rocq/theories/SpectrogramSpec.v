(* Specification for Spectrogram and InverseSpectrogram: frames cut out of the
   whole input and overlap-added frames. *)
From Verif Require Import Common.

(* How many windows of length [w], every [step] samples, fit in [n]. *)
Definition frame_count (w step n : nat) : nat :=
  if n <? w then 0 else 1 + Nat.div (n - w) step.

(* Total number of samples in the first [k] calls. *)
Definition total {M A} (calls : list (M * list A)) : nat :=
  length (concat (map snd calls)).

(* Overlap-add: sample [t] is the sum, in order of frames, of the samples of
   the frames that cover [t] when frame i is placed at i*step. *)
Definition covering {D} (step : nat) (frames : list (list D)) (t : nat)
    : list D :=
  concat (map (fun i =>
    match nth_error frames i with
    | Some y => if i * step <=? t then
                  match nth_error y (t - i * step) with
                  | Some v => [v] | None => [] end
                else []
    | None => [] end) (seq 0 (length frames))).

Definition overlap_add {D} (zero : D) (add : D -> D -> D) (step : nat)
    (frames : list (list D)) (t : nat) : D :=
  fold_left add (covering step frames t) zero.

(* What one frame of the spectrogram is: the samples from [start] on times the
   window, zero padded to [N], transformed. *)
Definition frame_spectrum {D} (zero : D) (mul : D -> D -> D)
    (rdft : list D -> list D) (w : list D) (N : nat) (xs : list D)
    (start : nat) : list D :=
  rdft (map (fun k => if k <? length w
                      then mul (nth (start + k) xs zero) (nth k w zero)
                      else zero) (seq 0 N)).

(* The layout of rdft: real parts of bins 0 and N/2 first, then the pairs. *)
Definition spectrum_bin {D} (zero : D) (N : nat) (b : list D) (j : nat)
    : D * D :=
  if j =? 0 then (nth 0 b zero, zero)
  else if j =? Nat.div N 2 then (nth 1 b zero, zero)
  else (nth (2 * j) b zero, nth (2 * j + 1) b zero).

(* A synthesised frame: inverse transform over N/2, times the window. *)
Definition synth_frame {D} (zero : D) (mul div : D -> D -> D)
    (half : D) (win : nat -> D) (F : nat) (y : list D) : list D :=
  map (fun k => mul (div (nth k y zero) half) (win k)) (seq 0 F).

(* The buffer rdft expects for a half spectrum [sl] of N/2+1 bins: entry 2j is
   the real part and entry 2j+1 the imaginary part of bin j, except that entry
   1 is the real part of bin N/2. *)
Definition spectrum_layout {D} (zero : D) (N : nat) (sl : list (D * D))
    : list D :=
  map (fun i =>
    if i =? 1 then fst (nth (Nat.div N 2) sl (zero, zero))
    else if Nat.even i then fst (nth (Nat.div i 2) sl (zero, zero))
    else snd (nth (Nat.div i 2) sl (zero, zero))) (seq 0 N).
