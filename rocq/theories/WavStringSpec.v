(* What writing float samples to a 16-bit WAV string should do. *)
From Coq Require Import ZArith QArith List.
From Verif Require Import WavStringModel.
Local Open Scope Z_scope.

(* s is the 16-bit sample for the float x, full scale 1.0: values outside
   [-1, 32767/32768] are clipped, the others are rounded towards zero; not a
   number is silence. *)
Definition quantised (x : fval) (s : Z) : Prop :=
  match x with
  | FFin q =>
      ((32767 # 32768 <= q)%Q -> s = 32767) /\
      ((q <= -1)%Q -> s = -32768) /\
      ((0 <= q < 32767 # 32768)%Q -> 0 <= s /\ (inject_Z s <= q * 32768 < inject_Z (s + 1))%Q) /\
      ((-1 < q <= 0)%Q -> s <= 0 /\ (inject_Z (s - 1) < q * 32768 <= inject_Z s)%Q)
  | FPosInf => s = 32767
  | FNegInf => s = -32768
  | FNaN => s = 0
  end.
