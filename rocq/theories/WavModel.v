(* Model of the WAV writer and reader:
   audio/dsp/portable/write_wav_file_generic.c, write_wav_file.c,
   write_wav_string.cc (16-bit version), read_wav_file_generic.c and
   read_wav_file.c (Read16BitWavFile). *)
From Verif Require Import CInt SerializeModel.

(* A four-state result pattern: bind of a pair / triple. *)

(* String literals, as bytes. *)
Definition id_riff : list Z := [82; 73; 70; 70].
Definition id_wave : list Z := [87; 65; 86; 69].
Definition id_fmt : list Z := [102; 109; 116; 32].
Definition id_fact : list Z := [102; 97; 99; 116].
Definition id_data : list Z := [100; 97; 116; 97].

(* kWavPcmGuid, write_wav_file_generic.c:12 *)
Definition pcm_guid : list Z := [0; 0; 0; 0; 16; 0; 128; 0; 0; 170; 0; 56; 155; 113].

(* memcmp(id, lit, 4) == 0 *)
Definition bytes_eqb (a b : list Z) : bool :=
  if list_eq_dec Z.eq_dec a b then true else false.

Definition SIZE_MAX : Z := 2 ^ 64 - 1.
Definition UINT32_MAX : Z := 2 ^ 32 - 1.

(* ------------------------------------------------------------------ *)
(* Writer                                                              *)

Section Writer.
(* The user supplied write_fun with its io_ptr state: it returns the new state
   and the number of bytes it says it has written. *)
Context {IO : Type} (write_fun : list Z -> IO -> IO * Z).

(* write_wav_file_generic.h: struct WavWriter (io_ptr, has_error) *)
Record writer := { ww_io : IO; ww_err : bool }.

(* write_wav_file_generic.c:14-18 *)
Definition write_check (bytes : list Z) (w : writer) : writer :=
  let '(io', k) := write_fun bytes (ww_io w) in
  {| ww_io := io'; ww_err := ww_err w || negb (Z.of_nat (length bytes) =? k) |}.

(* write_wav_file_generic.c:35-47; the uint16_t/uint32_t parameter conversion
   is included.  (WriteString, lines 26-33, is write_check on the literal.) *)
Definition write_u16 (v : Z) (w : writer) : writer :=
  write_check (le_write_u16 (v mod 2 ^ 16)) w.
Definition write_u32 (v : Z) (w : writer) : writer :=
  write_check (le_write_u32 (v mod 2 ^ 32)) w.

(* write_wav_file_generic.c:49-102, w and io_ptr not NULL.  num_samples is a
   size_t, sample_rate_hz and num_channels are ints.  Returns the new writer
   and the result 0/1. *)
Definition write_wav_header (w : writer) (num_samples sample_rate_hz num_channels : Z)
    : outcome (writer * Z) :=
  let extended := 2 <? num_channels in
  let fmt_chunk_size := if extended then 40 else 16 in
  let data_chunk_size := (2 * num_samples) mod 2 ^ 32 in
  block_align <- i32 (num_channels * 2) ;;
  let w := {| ww_io := ww_io w; ww_err := false |} in
  let w := write_check id_riff w in
  let w := write_u32 (20 + fmt_chunk_size + (if extended then 12 else 0) + data_chunk_size) w in
  let w := write_check id_wave w in
  if ww_err w then Ok (w, 0) else
  let w := write_check id_fmt w in
  let w := write_u32 fmt_chunk_size w in
  let w := write_u16 (if extended then 65534 else 1) w in
  let w := write_u16 num_channels w in
  let w := write_u32 sample_rate_hz w in
  bytes_per_second <- i32 (block_align * sample_rate_hz) ;;
  let w := write_u32 bytes_per_second w in
  let w := write_u16 block_align w in
  let w := write_u16 16 w in
  if ww_err w then Ok (w, 0) else
  let w := if extended then
    let w := write_u16 22 w in
    let w := write_u16 16 w in
    let w := write_u32 0 w in
    let w := write_u16 1 w in
    let w := write_check pcm_guid w in
    let w := write_check id_fact w in
    let w := write_u32 4 w in
    write_u32 (num_samples / num_channels) w
    else w in
  if ww_err w then Ok (w, 0) else
  let w := write_check id_data w in
  let w := write_u32 data_chunk_size w in
  if ww_err w then Ok (w, 0) else
  Ok (w, 1).

(* write_wav_file_generic.c:104-117, pointers not NULL.  `samples` is what is
   readable from the pointer.  The loop counter is an int compared with a
   size_t: it overflows if num_samples > INT_MAX. *)
Definition write_wav_samples (w : writer) (samples : list Z) (num_samples : Z)
    : outcome (writer * Z) :=
  let w := {| ww_io := ww_io w; ww_err := false |} in
  oguard ((num_samples <=? INT_MAX) && (num_samples <=? Z.of_nat (length samples)))
  (let w := fold_left (fun w s => write_u16 s w)
              (firstn (Z.to_nat num_samples) samples) w in
   Ok (w, if ww_err w then 0 else 1)).

(* write_wav_file.c:30-55.  [fopen] gives the state of the freshly opened file,
   or None when fopen fails; [fclose] says whether closing succeeds.  Returns
   the state of the file, if it was opened, and the result 0/1. *)
Definition write_wav_file (file_name_ok : bool) (fopen : option IO) (fclose : IO -> bool)
    (samples : list Z) (num_samples sample_rate_hz num_channels : Z)
    : outcome (option IO * Z) :=
  if negb file_name_ok || (sample_rate_hz <=? 0) || (num_channels <=? 0)
     || negb (num_samples mod num_channels =? 0)
     || ((UINT32_MAX - 60) / 2 <? num_samples)
  then Ok (None, 0)
  else match fopen with
  | None => Ok (None, 0)
  | Some io =>
      '(w, _) <- write_wav_header {| ww_io := io; ww_err := false |}
                   num_samples sample_rate_hz num_channels ;;
      if ww_err w then Ok (Some (ww_io w), 0) else
      '(w, _) <- write_wav_samples w samples num_samples ;;
      if negb (fclose (ww_io w)) then Ok (Some (ww_io w), 0)
      else Ok (Some (ww_io w), 1)
  end.
End Writer.

(* write_wav_string.cc:31-35: appending to a std::string, which always
   succeeds. *)
Definition mem_write (bytes : list Z) (io : list Z) : list Z * Z :=
  (io ++ bytes, Z.of_nat (length bytes)).

(* write_wav_string.cc:44-55 *)
Definition write_wav_to_string (samples : list Z)
    (num_samples sample_rate_hz num_channels : Z) : outcome (list Z * Z) :=
  '(w, r) <- write_wav_header mem_write {| ww_io := []; ww_err := false |}
               num_samples sample_rate_hz num_channels ;;
  if r =? 0 then Ok (ww_io w, 0) else
  '(w, r) <- write_wav_samples mem_write w samples num_samples ;;
  Ok (ww_io w, r).

(* ------------------------------------------------------------------ *)
(* Reader                                                              *)

(* read_wav_info.h:44-58 *)
Inductive encoding := Pcm16 | Pcm24 | MuLaw | IeeeFloat32 | IeeeFloat64.
Inductive sample_format := FInt16 | FInt32 | FFloat.

(* read_wav_info.h:27-60 *)
Record wav_info := {
  num_channels : Z;
  sample_rate_hz : Z;
  remaining_samples : Z;
  bit_depth : Z;
  dest_align : Z;           (* destination_alignment_bytes *)
  enc : encoding;
  fmt : sample_format
}.

(* seek_fun: the fseek of read_wav_file.c:18-20, which moves past the end of
   the file without error, or NULL (skip by reading,
   read_wav_file_generic.c:43-52). *)
Inductive seek_mode := SeekFile | SeekByReading.

(* A WavReader whose read_fun delivers the bytes of a file / memory area: the
   bytes not read yet, the error flag, and the calls made to custom_chunk_fun
   (id, data).  Short reads happen only at the end of the data; I/O errors in
   the middle of a file are not modelled. *)
Record reader := {
  r_rest : list Z;
  r_err : bool;
  r_log : list (list Z * list Z)
}.

Section Reader.
Context (seek : seek_mode)
        (custom : bool)          (* custom_chunk_fun != NULL *)
        (junk : nat -> Z)        (* content of uninitialised local buffers *)
        (f64_to_f32 : Z -> Z).   (* (float)double, on bit patterns *)

(* An uninitialised array of n bytes. *)
Definition uninit (n : nat) : list Z := map (fun i => u8 (junk i)) (seq 0 n).

(* read_wav_file_generic.c:28-36; [old] is the previous content of the
   destination, of the length of the request. *)
Definition read_check (old : list Z) (r : reader) : list Z * reader :=
  let n := length old in
  let got := firstn n (r_rest r) in
  (got ++ skipn (length got) old,
   {| r_rest := skipn n (r_rest r);
      r_err := r_err r || negb (length got =? n)%nat;
      r_log := r_log r |}).

(* read_wav_file_generic.c:45-51; returns what is left and whether it failed. *)
Fixpoint seek_loop (fuel n : nat) (rest : list Z) : list Z * bool :=
  match fuel with
  | O => (skipn n rest, (length rest <? n)%nat)
  | S fuel' =>
      if (256 <? n)%nat then
        if (length rest <? 256)%nat then ([], true)
        else seek_loop fuel' (n - 256) (skipn 256 rest)
      else (skipn n rest, (length rest <? n)%nat)
  end.

(* read_wav_file_generic.c:38-59 *)
Definition seek_check (num_bytes : Z) (r : reader) : reader :=
  let n := Z.to_nat num_bytes in
  match seek with
  | SeekFile =>
      {| r_rest := skipn n (r_rest r); r_err := r_err r; r_log := r_log r |}
  | SeekByReading =>
      let '(rest', failure) := seek_loop n n (r_rest r) in
      {| r_rest := rest'; r_err := r_err r || failure; r_log := r_log r |}
  end.

(* read_wav_file_generic.c:61-65 *)
Definition read_uint8 (r : reader) : outcome (Z * reader) :=
  match read_check (uninit 1) r with
  | (b :: _, r') => Ok (b, r')
  | ([], _) => Undef
  end.

(* read_wav_file_generic.c:68-101 *)
Definition mulaw_table : list Z := [
  -32124; -31100; -30076; -29052; -28028; -27004; -25980; -24956;
  -23932; -22908; -21884; -20860; -19836; -18812; -17788; -16764;
  -15996; -15484; -14972; -14460; -13948; -13436; -12924; -12412;
  -11900; -11388; -10876; -10364;  -9852;  -9340;  -8828;  -8316;
   -7932;  -7676;  -7420;  -7164;  -6908;  -6652;  -6396;  -6140;
   -5884;  -5628;  -5372;  -5116;  -4860;  -4604;  -4348;  -4092;
   -3900;  -3772;  -3644;  -3516;  -3388;  -3260;  -3132;  -3004;
   -2876;  -2748;  -2620;  -2492;  -2364;  -2236;  -2108;  -1980;
   -1884;  -1820;  -1756;  -1692;  -1628;  -1564;  -1500;  -1436;
   -1372;  -1308;  -1244;  -1180;  -1116;  -1052;   -988;   -924;
    -876;   -844;   -812;   -780;   -748;   -716;   -684;   -652;
    -620;   -588;   -556;   -524;   -492;   -460;   -428;   -396;
    -372;   -356;   -340;   -324;   -308;   -292;   -276;   -260;
    -244;   -228;   -212;   -196;   -180;   -164;   -148;   -132;
    -120;   -112;   -104;    -96;    -88;    -80;    -72;    -64;
     -56;    -48;    -40;    -32;    -24;    -16;     -8;      0;
   32124;  31100;  30076;  29052;  28028;  27004;  25980;  24956;
   23932;  22908;  21884;  20860;  19836;  18812;  17788;  16764;
   15996;  15484;  14972;  14460;  13948;  13436;  12924;  12412;
   11900;  11388;  10876;  10364;   9852;   9340;   8828;   8316;
    7932;   7676;   7420;   7164;   6908;   6652;   6396;   6140;
    5884;   5628;   5372;   5116;   4860;   4604;   4348;   4092;
    3900;   3772;   3644;   3516;   3388;   3260;   3132;   3004;
    2876;   2748;   2620;   2492;   2364;   2236;   2108;   1980;
    1884;   1820;   1756;   1692;   1628;   1564;   1500;   1436;
    1372;   1308;   1244;   1180;   1116;   1052;    988;    924;
     876;    844;    812;    780;    748;    716;    684;    652;
     620;    588;    556;    524;    492;    460;    428;    396;
     372;    356;    340;    324;    308;    292;    276;    260;
     244;    228;    212;    196;    180;    164;    148;    132;
     120;    112;    104;     96;     88;     80;     72;     64;
      56;     48;     40;     32;     24;     16;      8;      0].

(* read_wav_file_generic.c:67-103 *)
Definition read_mulaw (r : reader) : outcome (Z * reader) :=
  '(b, r) <- read_uint8 r ;;
  match nth_error mulaw_table (Z.to_nat b) with
  | Some v => Ok (v, r)
  | None => Undef
  end.

(* read_wav_file_generic.c:105-109 *)
Definition read_uint16 (r : reader) : outcome (Z * reader) :=
  let '(bytes, r') := read_check (uninit 2) r in
  v <- le_read_u16 bytes ;; Ok (v, r').

(* read_wav_file_generic.c:111-118 *)
Definition read_3bytes (r : reader) : outcome (Z * reader) :=
  match read_check (uninit 3) r with
  | (b0 :: b1 :: b2 :: _, r') =>
      Ok (Z.lor (Z.lor (Z.shiftl b0 8) (Z.shiftl b1 16)) (Z.shiftl b2 24), r')
  | _ => Undef
  end.

(* read_wav_file_generic.c:120-124 and 126-130 (ReadFloat32, bit pattern) *)
Definition read_uint32 (r : reader) : outcome (Z * reader) :=
  let '(bytes, r') := read_check (uninit 4) r in
  v <- le_read_u32 bytes ;; Ok (v, r').

(* read_wav_file_generic.c:132-136 *)
Definition read_float64 (r : reader) : outcome (Z * reader) :=
  let '(bytes, r') := read_check (uninit 8) r in
  v <- le_read_f64 bytes ;; Ok (f64_to_f32 v, r').

(* Updates of info in read_wav_file_generic.c:172-218. *)
Definition set_format (i : wav_info) (e : encoding) (align : Z) (f : sample_format) : wav_info :=
  {| num_channels := num_channels i; sample_rate_hz := sample_rate_hz i;
     remaining_samples := remaining_samples i; bit_depth := bit_depth i;
     dest_align := align; enc := e; fmt := f |}.
Definition set_counts (i : wav_info) (ch rate depth : Z) : wav_info :=
  {| num_channels := ch; sample_rate_hz := rate;
     remaining_samples := remaining_samples i; bit_depth := depth;
     dest_align := dest_align i; enc := enc i; fmt := fmt i |}.
Definition set_remaining (i : wav_info) (n : Z) : wav_info :=
  {| num_channels := num_channels i; sample_rate_hz := sample_rate_hz i;
     remaining_samples := n; bit_depth := bit_depth i;
     dest_align := dest_align i; enc := enc i; fmt := fmt i |}.
Definition set_channels (i : wav_info) (n : Z) : wav_info :=
  {| num_channels := n; sample_rate_hz := sample_rate_hz i;
     remaining_samples := remaining_samples i; bit_depth := bit_depth i;
     dest_align := dest_align i; enc := enc i; fmt := fmt i |}.

(* The switch of read_wav_file_generic.c:172-215: the updated info and whether
   the format is supported. *)
Definition select_format (format_code bits : Z) (info : wav_info) : bool * wav_info :=
  if format_code =? 1 then
    if bits =? 16 then (true, set_format info Pcm16 2 FInt16)
    else if bits =? 24 then (true, set_format info Pcm24 4 FInt32)
    else (false, info)
  else if format_code =? 3 then
    if bits =? 32 then (true, set_format info IeeeFloat32 4 FFloat)
    else if bits =? 64 then (true, set_format info IeeeFloat64 4 FFloat)
    else (false, info)
  else if format_code =? 7 then
    (bits =? 8, set_format info MuLaw 2 FInt16)
  else (false, info).

(* read_wav_file_generic.c:138-220.  The block alignment is only compared for a
   log message (lines 165-170). *)
Definition read_fmt_chunk (r : reader) (info : wav_info) (chunk_size : Z)
    : outcome (bool * reader * wav_info) :=
  if chunk_size <? 16 then Ok (false, r, info) else
  '(format_code, r) <- read_uint16 r ;;
  '(channels, r) <- read_uint16 r ;;
  '(rate, r) <- read_uint32 r ;;
  let r := seek_check 4 r in
  '(block_align, r) <- read_uint16 r ;;
  '(bits, r) <- read_uint16 r ;;
  '(format_code, r) <-
    (if (format_code =? 65534) && (26 <=? chunk_size) then
       let r := seek_check 8 r in
       '(format_code, r) <- read_uint16 r ;;
       Ok (format_code, seek_check (chunk_size - 26) r)
     else Ok (format_code, seek_check (chunk_size - 16) r)) ;;
  if r_err r then Ok (false, r, info) else
  if channels =? 0 then Ok (false, r, info) else
  let '(ok, info) := select_format format_code bits info in
  if ok then Ok (true, r, set_counts info channels (to_int32 rate) bits)
  else Ok (false, r, info).

(* read_wav_file_generic.c:222-244.  `int * uint32_t` is computed modulo 2^32. *)
Definition read_fact_chunk (r : reader) (info : wav_info) (chunk_size : Z)
    : outcome (bool * reader * wav_info) :=
  if negb (chunk_size =? 4) || (num_channels info =? 0) then Ok (false, r, info) else
  '(num_frames, r) <- read_uint32 r ;;
  if SIZE_MAX / num_channels info <? num_frames then Ok (false, r, info) else
  Ok (true, r, set_remaining info ((num_channels info * num_frames) mod 2 ^ 32)).

(* The loop of read_wav_file_generic.c:282-331: one unit of fuel per chunk.
   [id] is the local buffer, which keeps its old content on a short read.  The
   Boolean result is false for `goto fail`.  The log message about the fact
   chunk (lines 309-312) is not modelled. *)
Fixpoint chunk_loop (fuel : nat) (id : list Z) (r : reader) (info : wav_info)
    : outcome (bool * reader * wav_info) :=
  match fuel with
  | O => Undef
  | S fuel' =>
      let '(id, r) := read_check id r in
      '(chunk_size, r) <- read_uint32 r ;;
      if bytes_eqb id id_fmt then
        '(ok, r, info) <- read_fmt_chunk r info chunk_size ;;
        if ok : bool then
          if r_err r then Ok (false, r, info) else chunk_loop fuel' id r info
        else Ok (false, r, info)
      else if bytes_eqb id id_fact then
        '(ok, r, info) <- read_fact_chunk r info chunk_size ;;
        if ok : bool then
          if r_err r then Ok (false, r, info) else chunk_loop fuel' id r info
        else Ok (false, r, info)
      else if bytes_eqb id id_data then
        if num_channels info =? 0 then Ok (false, r, info) else
        oguard (negb (Z.quot (bit_depth info) 8 =? 0))
        (Ok (true, r, set_remaining info (chunk_size / Z.quot (bit_depth info) 8)))
      else
        let r :=
          if custom then
            let '(data, r) := read_check (uninit (Z.to_nat chunk_size)) r in
            {| r_rest := r_rest r; r_err := r_err r; r_log := r_log r ++ [(id, data)] |}
          else seek_check chunk_size r in
        if r_err r then Ok (false, r, info) else chunk_loop fuel' id r info
  end.

(* read_wav_file_generic.c:254-331, up to the label `fail` *)
Definition header_body (r : reader) (info : wav_info) : outcome (bool * reader * wav_info) :=
  let r := {| r_rest := r_rest r; r_err := false; r_log := r_log r |} in
  let '(id, r) := read_check (uninit 4) r in
  if negb (bytes_eqb id id_riff) then Ok (false, r, info) else
  let r := seek_check 4 r in
  let '(id, r) := read_check id r in
  if negb (bytes_eqb id id_wave) then Ok (false, r, info) else
  if r_err r then Ok (false, r, info) else
  let info := set_channels info 0 in
  chunk_loop (S (length (r_rest r))) id r info.

(* ReadWavHeaderGeneric, read_wav_file_generic.c:246-341.  None stands for a
   NULL pointer; io_ptr is not NULL. *)
Definition read_wav_header (w : option reader) (info : option wav_info)
    : outcome (Z * option reader * option wav_info) :=
  match w, info with
  | Some r, Some i =>
      '(ok, r, i) <- header_body r i ;;
      if ok : bool then Ok (1, Some r, Some i)
      else Ok (0, Some {| r_rest := r_rest r; r_err := true; r_log := r_log r |},
               Some (set_remaining (set_counts i 0 0 (bit_depth i)) 0))
  | Some r, None =>
      Ok (0, Some {| r_rest := r_rest r; r_err := true; r_log := r_log r |}, None)
  | None, _ => Undef      (* line 339 dereferences w *)
  end.

(* One iteration of the switch of read_wav_file_generic.c:382-420: the value
   stored.  Shifting a negative or large value left (lines 398, 403) is
   undefined in ISO C; the model uses the two's complement result that the
   supported compilers give.  Combinations without a case store nothing; they
   cannot be reached from a header that was read and are modelled as Undef. *)
Definition read_sample (info : wav_info) (r : reader) : outcome (Z * reader) :=
  let src := Z.quot (bit_depth info) 8 in
  if dest_align info =? 2 then
    if src =? 1 then read_mulaw r
    else if src =? 2 then '(v, r) <- read_uint16 r ;; Ok (union_signed 16 v, r)
    else Undef
  else if dest_align info =? 4 then
    if src =? 1 then '(v, r) <- read_mulaw r ;; Ok (to_int32 (Z.shiftl v 16), r)
    else if src =? 2 then '(v, r) <- read_uint16 r ;; Ok (to_int32 (Z.shiftl v 16), r)
    else if src =? 3 then '(v, r) <- read_3bytes r ;; Ok (to_int32 v, r)
    else if src =? 4 then read_uint32 r
    else if src =? 8 then read_float64 r
    else Undef
  else Undef.

(* The loop of read_wav_file_generic.c:381-428.  Returns the samples stored, the
   reader, and whether it stopped on an error (in which case the last store,
   of an indeterminate value, is not included). *)
Fixpoint sample_loop (n : nat) (info : wav_info) (r : reader)
    : outcome (list Z * reader * bool) :=
  match n with
  | O => Ok ([], r, false)
  | S n' =>
      '(v, r) <- read_sample info r ;;
      if r_err r then Ok ([], r, true) else
      '(vs, r, e) <- sample_loop n' info r ;;
      Ok (v :: vs, r, e)
  end.

(* ReadBytesAsSamples, read_wav_file_generic.c:343-432, with w, info and an
   aligned dst_samples not NULL.  Returns the samples delivered (as many as the
   return value), the reader and the info. *)
Definition read_samples (r : reader) (info : wav_info) (num_samples : Z)
    : outcome (list Z * reader * wav_info) :=
  if negb (dest_align info =? 2) && negb (dest_align info =? 4) then Ok ([], r, info) else
  if (remaining_samples info <? num_channels info) || (num_samples <=? 0)
  then Ok ([], r, info) else
  let r := {| r_rest := r_rest r; r_err := false; r_log := r_log r |} in
  let n := if num_samples <? remaining_samples info then num_samples
           else remaining_samples info in
  oguard (negb (num_channels info =? 0))
  (let n := n - n mod num_channels info in
   if SIZE_MAX / dest_align info <? n then Ok ([], r, info) else
   '(vs, r, stopped) <- sample_loop (Z.to_nat n) info r ;;
   if stopped : bool then
     let k := Z.of_nat (length vs) in
     Ok (firstn (Z.to_nat (k - k mod num_channels info)) vs, r, set_remaining info 0)
   else Ok (vs, r, set_remaining info (remaining_samples info - n))).

(* Read16BitWavSamplesGeneric, read_wav_file_generic.c:434-440 *)
Definition read_samples_16 (r : reader) (info : wav_info) (num_samples : Z)
    : outcome (list Z * reader * wav_info) :=
  ocheck ((bit_depth info =? 8) || (bit_depth info =? 16))
  (ocheck (dest_align info =? 2)
  (ocheck (match fmt info with FInt16 => true | _ => false end)
  (read_samples r info num_samples))).

(* Read16BitWavFile, read_wav_file.c:53-105: the bytes of the file, an
   uninitialised info; None for a NULL result.  fopen, malloc and fclose
   succeed. *)
Definition read_16bit_wav_file (file : list Z) (info0 : wav_info)
    : outcome (option (list Z) * Z * Z) :=
  '(ok, r, info) <- header_body {| r_rest := file; r_err := false; r_log := [] |} info0 ;;
  if ok : bool then
    '(vs, _, _) <- read_samples_16 r info (remaining_samples info) ;;
    Ok (Some vs, num_channels info, sample_rate_hz info)
  else Ok (None, 0, 0).

(* ReadWavFile, read_wav_file.c:128-193, without the conversion of float
   samples to int32 (lines 177-180): float files deliver the bit patterns. *)
Definition upgrade_info (info : wav_info) : wav_info :=
  match fmt info with
  | FInt16 => {| num_channels := num_channels info; sample_rate_hz := sample_rate_hz info;
                 remaining_samples := remaining_samples info; bit_depth := bit_depth info;
                 dest_align := 4; enc := enc info; fmt := FInt32 |}
  | _ => info
  end.
Definition read_wav_file (file : list Z) (info0 : wav_info)
    : outcome (option (list Z) * Z * Z) :=
  '(ok, r, info) <- header_body {| r_rest := file; r_err := false; r_log := [] |} info0 ;;
  if ok : bool then
    '(vs, _, _) <- read_samples r (upgrade_info info) (remaining_samples info) ;;
    Ok (Some vs, num_channels info, sample_rate_hz info)
  else Ok (None, 0, 0).
End Reader.
