(* Specification of the mel filterbank, the DCT and the MFCC pipeline. *)
From Coq Require Import List Reals Rtrigo1.
From Verif Require Import RealUtil.
Import ListNotations.
Local Open Scope R_scope.

Definition rsum (l : list R) : R := fold_right Rplus 0 l.

(* The mel scale of the HTK book. *)
Definition mel_scale (f : R) : R := 1127 * ln (1 + f / 700).

(* Triangle [c] of [num] triangles whose centers divide the mel interval from
   [low] to [up] into num + 1 equal parts; each reaches zero at the centers of
   its neighbours. *)
Definition mel_width (num : Z) (low up : R) : R :=
  (mel_scale up - mel_scale low) / (IZR num + 1).
Definition triangle (num : Z) (low up : R) (c : nat) (f : R) : R :=
  Rmax 0 (1 - Rabs (mel_scale f - (mel_scale low + (INR c + 1) * mel_width num low up))
              / mel_width num low up).

(* Frequency of a bin, when [fft] bins cover 0 .. rate/2. *)
Definition bin_hz (fft : Z) (rate : R) : R := rate / (2 * (IZR fft - 1)).

(* The bins in use: more than half a bin above the lower limit, and not above
   the upper limit. *)
Definition bin_used (fft : Z) (rate low up : R) (i : nat) : bool :=
  Rltb (low / bin_hz fft rate + 1 / 2) (INR i) &&
  Rleb (INR i * bin_hz fft rate) up.

(* Weight of bin [i] in channel [c]. *)
Definition mel_weight (fft : Z) (rate : R) (num : Z) (low up : R) (c i : nat) : R :=
  if bin_used fft rate low up i
  then triangle num low up c (INR i * bin_hz fft rate) else 0.

Definition mel_channel (fft : Z) (rate : R) (num : Z) (low up : R) (x : list R)
    (c : nat) : R :=
  rsum (map (fun i => mel_weight fft rate num low up c i * sqrt (nth i x 0))
            (seq 0 (Z.to_nat fft))).

Definition mel_total (fft : Z) (rate : R) (num : Z) (low up : R) (c : nat) : R :=
  rsum (map (mel_weight fft rate num low up c) (seq 0 (Z.to_nat fft))).

(* Bin [i] of the estimated squared magnitude. *)
Definition mel_back (fft : Z) (rate : R) (num : Z) (low up : R) (m : list R)
    (i : nat) : R :=
  let v := rsum (map (fun c => mel_weight fft rate num low up c i * nth c m 0
                                / mel_total fft rate num low up c)
                     (seq 0 (Z.to_nat num))) in
  v * v.

(* Coefficient [i] of the DCT-II of length [n] of the input, truncated or
   extended with zeros to length n. *)
Definition dct_coefficient (n : nat) (x : list R) (i : nat) : R :=
  rsum (map (fun j => sqrt (2 / INR n) * cos (PI * INR i * (INR j + 1 / 2) / INR n)
                      * nth j x 0) (seq 0 n)).
