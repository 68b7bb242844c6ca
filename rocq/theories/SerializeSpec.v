(* Byte orders, written from the textbook definition. *)
From Verif Require Import CInt.

(* The n base-256 digits of v, least significant first. *)
Fixpoint digits256 (n : nat) (v : Z) : list Z :=
  match n with
  | O => []
  | S n' => v mod 256 :: digits256 n' (v / 256)
  end.

Definition little_endian (n : nat) (v : Z) : list Z := digits256 n v.
Definition big_endian (n : nat) (v : Z) : list Z := rev (digits256 n v).

Definition is_byte (b : Z) : Prop := 0 <= b < 256.

(* Value ranges of the C types of [bits] bits. *)
Definition unsigned_range (bits v : Z) : Prop := 0 <= v < 2 ^ bits.
Definition signed_range (bits v : Z) : Prop := - 2 ^ (bits - 1) <= v < 2 ^ (bits - 1).

(* What it means for a pair of functions to implement an n-byte codec with the
   byte layout [layout] for the values in [range]:
   the written bytes are the layout; reading the written bytes, whatever
   follows them in memory, gives the value back; and every sequence of n bytes
   is the encoding of the value that is read from it. *)
Definition codec (n : nat) (layout : nat -> Z -> list Z) (range : Z -> Prop)
    (write : Z -> list Z) (read : list Z -> outcome Z) : Prop :=
  (forall v, range v -> write v = layout n (v mod 256 ^ Z.of_nat n)) /\
  (forall v after, range v -> read (write v ++ after) = Ok v) /\
  (forall bs after, Forall is_byte bs -> length bs = n ->
     exists v, range v /\ read (bs ++ after) = Ok v /\ write v = bs) /\
  (forall bs, (length bs < n)%nat -> read bs = Undef).
