(* Model of the float overload of WriteWavToString,
   audio/dsp/portable/write_wav_string.cc.  (The int16_t overload is
   write_wav_to_string in WavModel.v.)
   A float is a rational number, an infinity or NaN.  The only arithmetic is a
   product with 2^15, which is exact in binary floating point except that it
   can overflow to infinity; as both are cut to the same limit afterwards, the
   model keeps the exact product. *)
From Coq Require Import ZArith QArith List.
From Verif Require Import Common CInt WavModel.
Import ListNotations.
Local Open Scope Z_scope.

Inductive fval := FFin (q : Q) | FPosInf | FNegInf | FNaN.

(* operator< on floats (IEEE 754: false when an operand is NaN) *)
Definition fltb (a b : fval) : bool :=
  match a, b with
  | FNaN, _ | _, FNaN => false
  | FFin p, FFin q => Qnum p * Zpos (Qden q) <? Qnum q * Zpos (Qden p)
  | FFin _, FPosInf | FNegInf, FFin _ | FNegInf, FPosInf => true
  | _, _ => false
  end.

(* std::min(a, b) and std::max(a, b): (b < a) ? b : a and (a < b) ? b : a *)
Definition cpp_min (a b : fval) : fval := if fltb b a then b else a.
Definition cpp_max (a b : fval) : fval := if fltb a b then b else a.

(* operator* by 32768 *)
Definition fscale (a : fval) : fval :=
  match a with FFin q => FFin (Qnum q * 32768 # Qden q) | _ => a end.

(* static_cast<int16_t>: towards zero, undefined when the integer part does not
   fit *)
Definition cast_i16 (a : fval) : outcome Z :=
  match a with
  | FFin q => let t := Z.quot (Qnum q) (Zpos (Qden q)) in
      if (-32768 <=? t) && (t <=? 32767) then Ok t else Undef
  | _ => Undef
  end.

(* write_wav_string.cc:57-68, body of the loop *)
Definition float_sample_to_int (x : fval) : outcome Z :=
  let lowest := FFin (-32768 # 1) in
  let max := FFin (32767 # 1) in
  let f := cpp_max lowest (cpp_min (fscale x) max) in
  let f := match f with FNaN => FFin (0 # 1) | _ => f end in
  cast_i16 f.

(* write_wav_string.cc:57-68; `input` is what is readable from
   input + input_offset and `output` the vector.  Reading or writing past the
   end is undefined. *)
Fixpoint float_samples_to_int (num_elements : nat) (input : list fval) (output : list Z)
    : outcome (list Z) :=
  match num_elements, input, output with
  | O, _, _ => Ok output
  | S n, x :: input', _ :: output' =>
      s <- float_sample_to_int x ;;
      rest <- float_samples_to_int n input' output' ;;
      Ok (s :: rest)
  | _, _, _ => Undef
  end.

(* write_wav_string.cc:83-87: the while loop; every pass handles 512 samples, so
   `fuel` = num_samples is enough.  Returns the writer, the position and the
   buffer. *)
Fixpoint float_blocks (fuel : nat) (w : writer) (samples : list fval)
    (num_samples position : Z) (buffer : list Z) : outcome (writer * Z * list Z) :=
  if 512 <? num_samples - position then
    match fuel with
    | O => Undef
    | S fuel' =>
        buffer <- float_samples_to_int 512 (skipn (Z.to_nat position) samples) buffer ;;
        '(w, _) <- write_wav_samples mem_write w buffer 512 ;;
        float_blocks fuel' w samples num_samples (position + 512) buffer
    end
  else Ok (w, position, buffer).

(* write_wav_string.cc:70-94.  The results of WriteWavSamplesGeneric are
   ignored there too. *)
Definition write_float_wav_to_string (samples : list fval)
    (num_samples sample_rate_hz num_channels : Z) : outcome (list Z * Z) :=
  '(w, r) <- write_wav_header mem_write {| ww_io := []; ww_err := false |}
               num_samples sample_rate_hz num_channels ;;
  if r =? 0 then Ok (ww_io w, 0) else
  '(w, position, buffer) <- float_blocks (Z.to_nat num_samples) w samples num_samples 0
                              (repeat 0 512) ;;
  if num_samples =? position then Ok (ww_io w, 1) else
  let n := num_samples - position in
  buffer <- float_samples_to_int (Z.to_nat n) (skipn (Z.to_nat position) samples) buffer ;;
  '(w, _) <- write_wav_samples mem_write w buffer n ;;
  Ok (ww_io w, 1).
