(* C09: byte serialisation round-trips. *)
From Verif Require Import CInt SerializeModel SerializeSpec SerializeProofs.

Theorem C09_unsigned_little_endian :
  codec 2 little_endian (unsigned_range 16) le_write_u16 le_read_u16 /\
  codec 4 little_endian (unsigned_range 32) le_write_u32 le_read_u32 /\
  codec 8 little_endian (unsigned_range 64) le_write_u64 le_read_u64.
Proof. split; [|split]; apply le_unsigned; tauto. Qed.
Print Assumptions C09_unsigned_little_endian.

Theorem C09_unsigned_big_endian :
  codec 2 big_endian (unsigned_range 16) be_write_u16 be_read_u16 /\
  codec 4 big_endian (unsigned_range 32) be_write_u32 be_read_u32 /\
  codec 8 big_endian (unsigned_range 64) be_write_u64 be_read_u64.
Proof. split; [|split]; apply be_unsigned; tauto. Qed.
Print Assumptions C09_unsigned_big_endian.

Theorem C09_signed :
  codec 2 little_endian (signed_range 16) le_write_s16 le_read_s16 /\
  codec 4 little_endian (signed_range 32) le_write_s32 le_read_s32 /\
  codec 8 little_endian (signed_range 64) le_write_s64 le_read_s64 /\
  codec 2 big_endian (signed_range 16) be_write_s16 be_read_s16 /\
  codec 4 big_endian (signed_range 32) be_write_s32 be_read_s32 /\
  codec 8 big_endian (signed_range 64) be_write_s64 be_read_s64.
Proof.
  destruct C09_unsigned_little_endian as (L2 & L4 & L8).
  destruct C09_unsigned_big_endian as (B2 & B4 & B8).
  exact (conj (signed_codec 2 16 _ _ _ eq_refl eq_refl L2)
        (conj (signed_codec 4 32 _ _ _ eq_refl eq_refl L4)
        (conj (signed_codec 8 64 _ _ _ eq_refl eq_refl L8)
        (conj (signed_codec 2 16 _ _ _ eq_refl eq_refl B2)
        (conj (signed_codec 4 32 _ _ _ eq_refl eq_refl B4)
              (signed_codec 8 64 _ _ _ eq_refl eq_refl B8)))))).
Qed.
Print Assumptions C09_signed.

(* The float functions on IEEE bit patterns: every pattern, including NaN
   payloads and infinities, survives. *)
Theorem C09_float_bits :
  codec 4 little_endian (unsigned_range 32) le_write_f32 le_read_f32 /\
  codec 8 little_endian (unsigned_range 64) le_write_f64 le_read_f64 /\
  codec 4 big_endian (unsigned_range 32) be_write_f32 be_read_f32 /\
  codec 8 big_endian (unsigned_range 64) be_write_f64 be_read_f64.
Proof.
  split; [|split; [|split]];
    first [ apply le_unsigned; tauto | apply be_unsigned; tauto ].
Qed.
Print Assumptions C09_float_bits.

Example C09_ex1 : le_write_u32 305419896 = [120; 86; 52; 18] /\
  be_write_u32 305419896 = [18; 52; 86; 120].
Proof. split; reflexivity. Qed.
Example C09_ex2 : le_write_s16 (-2) = [254; 255] /\ le_read_s16 [254; 255; 7] = Ok (-2).
Proof. split; reflexivity. Qed.
Example C09_ex3 : be_write_s64 (- 2 ^ 63) = [128; 0; 0; 0; 0; 0; 0; 0] /\
  be_read_s64 [128; 0; 0; 0; 0; 0; 0; 0] = Ok (- 2 ^ 63).
Proof. split; reflexivity. Qed.
