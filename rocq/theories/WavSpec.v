(* Independent description of the RIFF/WAVE format and of what a reader should
   deliver. *)
From Verif Require Import CInt SerializeModel SerializeSpec WavModel.

(* A RIFF chunk: identifier, length (little endian, 4 bytes), content. *)
Definition chunk_bytes (c : list Z * list Z) : list Z :=
  fst c ++ little_endian 4 (Z.of_nat (length (snd c))) ++ snd c.

(* A WAVE file: "RIFF", a size (any 4 bytes), "WAVE", then chunks, then more. *)
Definition wave_file (size : list Z) (chunks : list (list Z * list Z)) (tail : list Z) : list Z :=
  id_riff ++ size ++ id_wave ++ concat (map chunk_bytes chunks) ++ tail.

Definition known_id (id : list Z) : Prop := id = id_fmt \/ id = id_fact \/ id = id_data.

(* A chunk that can be written down: 4-byte identifier, content of less than
   2^32 bytes. *)
Definition chunk_ok (c : list Z * list Z) : Prop :=
  length (fst c) = 4%nat /\ Forall is_byte (fst c) /\ Forall is_byte (snd c) /\
  Z.of_nat (length (snd c)) < 2 ^ 32.

(* Unsigned value of little-endian bytes; two's complement reading. *)
Fixpoint le_value (bs : list Z) : Z :=
  match bs with [] => 0 | b :: r => b + 256 * le_value r end.
Definition twos (bits v : Z) : Z := if v <? 2 ^ (bits - 1) then v else v - 2 ^ bits.

(* G.711 mu-law expansion of a byte, to 16 bits. *)
Definition mulaw_value (b : Z) : Z :=
  let u := 255 - b in
  let sign := u / 128 in
  let exponent := (u / 16) mod 8 in
  let mantissa := u mod 16 in
  let magnitude := (8 * mantissa + 132) * 2 ^ exponent - 132 in
  if sign =? 1 then - magnitude else magnitude.

(* Bytes per sample of an encoding. *)
Definition width (e : encoding) : nat :=
  match e with Pcm16 => 2 | Pcm24 => 3 | MuLaw => 1 | IeeeFloat32 => 4 | IeeeFloat64 => 8 end%nat.

(* The value delivered for the bytes of one sample.  16-bit samples delivered
   in 32 bits are scaled by 2^16, 24-bit samples by 2^8; floats are bit
   patterns. *)
Definition sample_value (f64_to_f32 : Z -> Z) (e : encoding) (wide : bool) (bs : list Z) : Z :=
  let scale16 := if wide then 65536 else 1 in
  match e with
  | Pcm16 => scale16 * twos 16 (le_value bs)
  | Pcm24 => 256 * twos 24 (le_value bs)
  | MuLaw => scale16 * mulaw_value (le_value bs)
  | IeeeFloat32 => le_value bs
  | IeeeFloat64 => f64_to_f32 (le_value bs)
  end.

(* The first n groups of w bytes. *)
Fixpoint groups (w n : nat) (l : list Z) : list (list Z) :=
  match n with
  | O => []
  | S n' => firstn w l :: groups w n' (skipn w l)
  end.

(* All complete samples in a byte string. *)
Definition decode (f : Z -> Z) (e : encoding) (wide : bool) (l : list Z) : list Z :=
  map (sample_value f e wide) (groups (width e) (length l / width e) l).

Definition floor_to (ch n : nat) : nat := (n / ch * ch)%nat.

(* The samples that a file with [declared] samples, of which the byte string
   [l] is left, can deliver: complete frames only. *)
Definition deliverable (f : Z -> Z) (e : encoding) (wide : bool) (ch declared : nat)
    (l : list Z) : list Z :=
  let d := decode f e wide l in
  firstn (floor_to ch (min declared (length d))) d.

(* Serving requests from a list, whole frames at a time. *)
Fixpoint serve (ch : nat) (l : list Z) (reqs : list nat) : list (list Z) :=
  match reqs with
  | [] => []
  | n :: reqs' => firstn (floor_to ch n) l :: serve ch (skipn (floor_to ch n) l) reqs'
  end.

(* Several reads, one after the other. *)
Definition read_step (f : Z -> Z) (junk : nat -> Z) (s : reader * wav_info) (n : nat)
    : outcome ((reader * wav_info) * list Z) :=
  omap (fun '(vs, r, i) => ((r, i), vs)) (read_samples junk f (fst s) (snd s) (Z.of_nat n)).

(* A 16-bit sample. *)
Definition is_i16 (s : Z) : Prop := -32768 <= s < 32768.

(* The start of the data chunk; chunks before it that are neither fmt nor fact. *)
Definition data_header (dsize : Z) : list Z := id_data ++ little_endian 4 dsize.
Definition unknown (c : list Z * list Z) : bool :=
  negb (bytes_eqb (fst c) id_fmt) && negb (bytes_eqb (fst c) id_fact).

(* RIFF: a chunk with an odd number of bytes is followed by a pad byte. *)
Definition padded_chunk_bytes (c : list Z * list Z) : list Z :=
  chunk_bytes c ++ (if Nat.odd (length (snd c)) then [0] else []).

(* A freshly opened reader. *)
Definition open_reader (file : list Z) : reader :=
  {| r_rest := file; r_err := false; r_log := [] |}.

(* A write function that also remembers whether every call so far reported all
   of its bytes as written. *)
Definition watch {IO} (write_fun : list Z -> IO -> IO * Z) (bytes : list Z) (s : IO * bool)
    : (IO * bool) * Z :=
  let '(io', k) := write_fun bytes (fst s) in
  ((io', snd s && (k =? Z.of_nat (length bytes))), k).

(* A device that takes [cap] bytes in all. *)
Definition device (cap : nat) (bytes : list Z) (io : list Z) : list Z * Z :=
  let taken := firstn (cap - length io) bytes in
  (io ++ taken, Z.of_nat (length taken)).
