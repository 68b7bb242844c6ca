(* Model of audio/dsp/portable/serialize.h.  A byte is a Z in [0,256); a
   `const uint8_t*` argument is the list of bytes readable from the pointer,
   and reading past its end is undefined.  Floats are their IEEE bit patterns
   (the C code converts by a union), so the F32/F64 functions are the U32/U64
   ones up to the type of the value. *)
From Verif Require Import CInt.

(* (uint8_t)v *)
Definition u8 (v : Z) : Z := v mod 256.

(* serialize.h:117-123 *)
Definition le_read_u16 (bytes : list Z) : outcome Z :=
  match bytes with
  | b0 :: b1 :: _ => Ok (Z.lor b0 (Z.shiftl b1 8) mod 2 ^ 16)
  | _ => Undef
  end.

(* serialize.h:125-130 *)
Definition le_read_u32 (bytes : list Z) : outcome Z :=
  match bytes with
  | b0 :: b1 :: b2 :: b3 :: _ =>
      Ok (Z.lor (Z.lor (Z.lor b0 (Z.shiftl b1 8)) (Z.shiftl b2 16))
                (Z.shiftl b3 24) mod 2 ^ 32)
  | _ => Undef
  end.

(* serialize.h:132-141 *)
Definition le_read_u64 (bytes : list Z) : outcome Z :=
  match bytes with
  | b0 :: b1 :: b2 :: b3 :: b4 :: b5 :: b6 :: b7 :: _ =>
      Ok (Z.lor (Z.lor (Z.lor (Z.lor (Z.lor (Z.lor (Z.lor b0
            (Z.shiftl b1 8)) (Z.shiftl b2 16)) (Z.shiftl b3 24))
            (Z.shiftl b4 32)) (Z.shiftl b5 40)) (Z.shiftl b6 48))
            (Z.shiftl b7 56) mod 2 ^ 64)
  | _ => Undef
  end.

(* serialize.h:143-146 *)
Definition le_write_u16 (value : Z) : list Z :=
  [u8 value; u8 (Z.shiftr value 8)].

(* serialize.h:148-153 *)
Definition le_write_u32 (value : Z) : list Z :=
  [u8 value; u8 (Z.shiftr value 8); u8 (Z.shiftr value 16);
   u8 (Z.shiftr value 24)].

(* serialize.h:155-164 *)
Definition le_write_u64 (value : Z) : list Z :=
  [u8 value; u8 (Z.shiftr value 8); u8 (Z.shiftr value 16);
   u8 (Z.shiftr value 24); u8 (Z.shiftr value 32); u8 (Z.shiftr value 40);
   u8 (Z.shiftr value 48); u8 (Z.shiftr value 56)].

(* serialize.h:166-170 *)
Definition be_read_u16 (bytes : list Z) : outcome Z :=
  match bytes with
  | b0 :: b1 :: _ => Ok (Z.lor (Z.shiftl b0 8) b1 mod 2 ^ 16)
  | _ => Undef
  end.

(* serialize.h:172-178 *)
Definition be_read_u32 (bytes : list Z) : outcome Z :=
  match bytes with
  | b0 :: b1 :: b2 :: b3 :: _ =>
      Ok (Z.lor (Z.lor (Z.lor (Z.shiftl b0 24) (Z.shiftl b1 16))
                (Z.shiftl b2 8)) b3 mod 2 ^ 32)
  | _ => Undef
  end.

(* serialize.h:180-190 *)
Definition be_read_u64 (bytes : list Z) : outcome Z :=
  match bytes with
  | b0 :: b1 :: b2 :: b3 :: b4 :: b5 :: b6 :: b7 :: _ =>
      Ok (Z.lor (Z.lor (Z.lor (Z.lor (Z.lor (Z.lor (Z.lor (Z.shiftl b0 56)
            (Z.shiftl b1 48)) (Z.shiftl b2 40)) (Z.shiftl b3 32))
            (Z.shiftl b4 24)) (Z.shiftl b5 16)) (Z.shiftl b6 8))
            b7 mod 2 ^ 64)
  | _ => Undef
  end.

(* serialize.h:192-196 *)
Definition be_write_u16 (value : Z) : list Z :=
  [u8 (Z.shiftr value 8); u8 value].

(* serialize.h:198-204 *)
Definition be_write_u32 (value : Z) : list Z :=
  [u8 (Z.shiftr value 24); u8 (Z.shiftr value 16); u8 (Z.shiftr value 8);
   u8 value].

(* serialize.h:206-216 *)
Definition be_write_u64 (value : Z) : list Z :=
  [u8 (Z.shiftr value 56); u8 (Z.shiftr value 48); u8 (Z.shiftr value 40);
   u8 (Z.shiftr value 32); u8 (Z.shiftr value 24); u8 (Z.shiftr value 16);
   u8 (Z.shiftr value 8); u8 value].

(* The unions of serialize.h:224-240: the same bits seen as a signed integer
   (two's complement). *)
Definition union_signed (bits u : Z) : Z :=
  if u <? 2 ^ (bits - 1) then u else u - 2 ^ bits.

(* The casts (uint16_t)value etc. of serialize.h:254-265. *)
Definition cast_unsigned (bits v : Z) : Z := v mod 2 ^ bits.

(* serialize.h:224-240 *)
Definition le_read_s16 b := omap (union_signed 16) (le_read_u16 b).
Definition le_read_s32 b := omap (union_signed 32) (le_read_u32 b).
Definition le_read_s64 b := omap (union_signed 64) (le_read_u64 b).
(* serialize.h:254-265 *)
Definition le_write_s16 v := le_write_u16 (cast_unsigned 16 v).
Definition le_write_s32 v := le_write_u32 (cast_unsigned 32 v).
Definition le_write_s64 v := le_write_u64 (cast_unsigned 64 v).
(* serialize.h:279-295 *)
Definition be_read_s16 b := omap (union_signed 16) (be_read_u16 b).
Definition be_read_s32 b := omap (union_signed 32) (be_read_u32 b).
Definition be_read_s64 b := omap (union_signed 64) (be_read_u64 b).
(* serialize.h:309-319 *)
Definition be_write_s16 v := be_write_u16 (cast_unsigned 16 v).
Definition be_write_s32 v := be_write_u32 (cast_unsigned 32 v).
Definition be_write_s64 v := be_write_u64 (cast_unsigned 64 v).

(* serialize.h:242-252, 267-277, 297-307, 321-331, on bit patterns. *)
Definition le_read_f32 := le_read_u32.
Definition le_read_f64 := le_read_u64.
Definition le_write_f32 := le_write_u32.
Definition le_write_f64 := le_write_u64.
Definition be_read_f32 := be_read_u32.
Definition be_read_f64 := be_read_u64.
Definition be_write_f32 := be_write_u32.
Definition be_write_f64 := be_write_u64.
