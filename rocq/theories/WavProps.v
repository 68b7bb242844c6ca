From Verif Require Import CInt ListLemmas SerializeModel SerializeSpec WavModel WavSpec
  WavProofs WavHeaderProofs WavFileProofs WavWriteProofs WavPropsProofs.

(* ------------------------------------------------------------------ *)
(* C10: writing a WAV file and reading it back gives the same samples, channel
   count and sample rate, in 16-bit form and (scaled by 2^16) in 32-bit form.
   Partial: needs fewer than 65536 channels and a byte rate that fits in an
   int; both restrictions are necessary, see the refutations below. *)
Theorem C10_write_read_round_trip_partial sk custom junk f samples ch rate i0 :
  Forall is_i16 samples -> 0 < ch < 65536 -> 0 < rate -> ch * 2 * rate <= INT_MAX ->
  Z.of_nat (length samples) <= (UINT32_MAX - 60) / 2 ->
  Z.of_nat (length samples) mod ch = 0 ->
  exists file,
    write_wav_file mem_write true (Some []) (fun _ => true) samples
      (Z.of_nat (length samples)) rate ch = Ok (Some file, 1) /\
    write_wav_to_string samples (Z.of_nat (length samples)) rate ch = Ok (file, 1) /\
    read_16bit_wav_file sk custom junk f file i0 = Ok (Some samples, ch, rate) /\
    read_wav_file sk custom junk f file i0 = Ok (Some (map (fun s => 65536 * s) samples), ch, rate).
Proof.
  intros FS Hc Hr Ho Hn Hm. exists (written_file samples ch rate).
  assert (Hn' : Z.of_nat (length samples) <= 2147483617) by exact Hn.
  split; [apply write_file_mem; auto; lia|]. split.
  - apply write_string_mem; [lia|exact Hr|exact Ho|unfold INT_MAX; lia].
  - apply read_written; auto. unfold INT_MAX in *. nia.
Qed.
Print Assumptions C10_write_read_round_trip_partial.

(* An accepted channel count of 65536 is stored modulo 2^16: the file written
   successfully cannot be read. *)
Theorem C10_many_channels_refuted sk custom junk f i0 : exists ch rate file,
  write_wav_file mem_write true (Some []) (fun _ => true) [] 0 rate ch = Ok (Some file, 1) /\
  read_16bit_wav_file sk custom junk f file i0 = Ok (None, 0, 0).
Proof.
  exists 65536, 8000. eexists. split; [vm_compute; reflexivity|].
  destruct sk, custom; vm_compute; reflexivity.
Qed.
Print Assumptions C10_many_channels_refuted.

(* The byte rate is computed in int: two channels at 2^30 Hz overflow. *)
Theorem C10_byte_rate_overflow_refuted : exists samples ch rate,
  0 < ch <= INT_MAX /\ 0 < rate <= INT_MAX /\ Z.of_nat (length samples) mod ch = 0 /\
  write_wav_file mem_write true (Some []) (fun _ => true) samples
    (Z.of_nat (length samples)) rate ch = Undef.
Proof.
  exists [1; 2], 2, 1073741824. unfold INT_MAX. repeat split; try lia; reflexivity.
Qed.
Print Assumptions C10_byte_rate_overflow_refuted.

Example C10_ex : exists file,
  write_wav_file mem_write true (Some []) (fun _ => true) [1; -2; 300; -32768; 32767; 0] 6 48000 3
    = Ok (Some file, 1) /\ length file = 92%nat /\
  read_16bit_wav_file SeekByReading true (fun _ => 77) (fun x => x) file
    {| num_channels := 9; sample_rate_hz := 9; remaining_samples := 9; bit_depth := 9;
       dest_align := 9; enc := MuLaw; fmt := FFloat |}
    = Ok (Some [1; -2; 300; -32768; 32767; 0], 3, 48000).
Proof. eexists. split; [vm_compute; reflexivity|]. split; vm_compute; reflexivity. Qed.

(* ------------------------------------------------------------------ *)
(* C11: after any header that was read successfully, from any byte string, the
   samples delivered by any sequence of read requests are the requests served,
   whole frames at a time, from one fixed list: the complete frames among the
   decoded bytes, at most the declared number.  This holds for the native
   format and after switching to 32-bit delivery, and no request ever fails. *)
Theorem C11_reads_serve_one_stream sk custom junk f file i0 r i wide :
  Forall is_byte file ->
  read_wav_header sk custom junk (Some (open_reader file)) (Some i0) = Ok (1, Some r, Some i) ->
  let info := if wide : bool then upgrade_info i else i in
  let ch := Z.to_nat (num_channels i) in
  let all := deliverable f (enc i) (wide && match fmt i with FInt16 => true | _ => false end)
               ch (Z.to_nat (remaining_samples i)) (r_rest r) in
  (0 < ch)%nat /\
  forall reqs, exists s', run (read_step f junk) (r, info) reqs = Ok (s', serve ch all reqs).
Proof. exact (stream_after_header sk custom junk f file i0 r i wide). Qed.
Print Assumptions C11_reads_serve_one_stream.

(* Consequences for the lists delivered: cutting the requests differently does
   not change the samples, and each read delivers whole frames. *)
Theorem C11_chunking_invisible sk custom junk f file i0 r i wide :
  Forall is_byte file ->
  read_wav_header sk custom junk (Some (open_reader file)) (Some i0) = Ok (1, Some r, Some i) ->
  let info := if wide : bool then upgrade_info i else i in
  let ch := Z.to_nat (num_channels i) in
  exists all : list Z, forall reqs, exists s' outs,
    run (read_step f junk) (r, info) reqs = Ok (s', outs) /\
    concat outs = firstn (list_sum (map (fun n => n / ch * ch)%nat reqs)) all /\
    Forall (fun vs => length vs mod ch = 0)%nat outs.
Proof.
  intros F E info ch.
  destruct (stream_after_header sk custom junk f file i0 r i wide F E) as [Hch H].
  eexists. intros reqs. destruct (H reqs) as [s' Hs]. exists s'. eexists. split; [exact Hs|].
  split; [apply concat_serve|]. apply serve_frames; auto. apply deliverable_frames; auto.
Qed.
Print Assumptions C11_chunking_invisible.

(* A stereo file declaring 4 samples of which one byte is missing. *)
Definition info_zero : wav_info :=
  {| num_channels := 0; sample_rate_hz := 0; remaining_samples := 0; bit_depth := 0;
     dest_align := 0; enc := Pcm16; fmt := FInt16 |}.
Definition stereo_truncated : list Z :=
  wave_file [0; 0; 0; 0] [(id_fmt, fmt_body 2 8000)] (data_header 8 ++ [1; 0; 2; 0; 3; 0; 4]).
Example C11_ex : exists r i,
  read_wav_header SeekFile false (fun _ => 0) (Some (open_reader stereo_truncated)) (Some info_zero)
    = Ok (1, Some r, Some i) /\
  omap snd (run (read_step (fun x => x) (fun _ => 0)) (r, i) [1; 3; 5; 2]%nat)
    = Ok [[]; [1; 2]; []; []] /\
  omap snd (run (read_step (fun x => x) (fun _ => 0)) (r, upgrade_info i) [9]%nat)
    = Ok [[65536; 131072]].
Proof. do 2 eexists. split; [vm_compute; reflexivity|]. split; vm_compute; reflexivity. Qed.

(* ------------------------------------------------------------------ *)
(* C12: chunks with other identifiers, anywhere before the data chunk, change
   neither the result, nor the info, nor the position of the samples; a custom
   chunk handler receives exactly these chunks, in order and complete.
   Partial: the chunks must be written without the pad byte that RIFF puts
   after a chunk of odd size. *)
Theorem C12_unknown_chunks_ignored_partial sk custom junk size chunks dsize payload i0 :
  length size = 4%nat -> Forall chunk_ok chunks -> Forall (fun c => fst c <> id_data) chunks ->
  0 <= dsize < 2 ^ 32 ->
  let known := filter (fun c => negb (unknown c)) chunks in
  exists ok r1 r2 i,
    read_wav_header sk custom junk
      (Some (open_reader (wave_file size chunks (data_header dsize ++ payload)))) (Some i0)
      = Ok (ok, Some r1, Some i) /\
    read_wav_header sk custom junk
      (Some (open_reader (wave_file size known (data_header dsize ++ payload)))) (Some i0)
      = Ok (ok, Some r2, Some i) /\
    (ok = 1 ->
       r_rest r1 = payload /\ r_rest r2 = payload /\ r_err r1 = false /\ r_err r2 = false /\
       r_log r1 = (if custom then filter unknown chunks else []) /\ r_log r2 = []).
Proof. exact (header_known sk custom junk size chunks dsize payload i0). Qed.
Print Assumptions C12_unknown_chunks_ignored_partial.

(* With the pad byte, one odd-sized unknown chunk makes a valid file
   unreadable. *)
Theorem C12_padded_chunk_refuted sk custom : exists junk before chunk after ok r i r' i',
  let file middle := id_riff ++ [0; 0; 0; 0] ++ id_wave ++ before ++ middle ++ after in
  read_wav_header sk custom junk (Some (open_reader (file []))) (Some info_zero)
    = Ok (ok, Some r, Some i) /\ ok = 1 /\
  read_wav_header sk custom junk (Some (open_reader (file (padded_chunk_bytes chunk)))) (Some info_zero)
    = Ok (0, Some r', Some i').
Proof.
  exists (fun _ => 0), (chunk_bytes (id_fmt, fmt_body 2 8000)), ([76; 73; 83; 84], [1; 2; 3]),
    (data_header 8 ++ [1; 0; 2; 0; 3; 0; 4; 0]).
  destruct sk, custom; do 5 eexists; (split; [vm_compute; reflexivity|]);
    (split; [reflexivity|]); vm_compute; reflexivity.
Qed.
Print Assumptions C12_padded_chunk_refuted.

Example C12_ex : exists r i,
  read_wav_header SeekFile true (fun _ => 0)
    (Some (open_reader (wave_file [0; 0; 0; 0]
       [([65; 66; 67; 68], [1; 2; 3]); (id_fmt, fmt_body 1 8000); ([76; 73; 83; 84], [])]
       (data_header 4 ++ [1; 0; 2; 0])))) (Some info_zero) = Ok (1, Some r, Some i) /\
  r_log r = [([65; 66; 67; 68], [1; 2; 3]); ([76; 73; 83; 84], [])] /\
  r_rest r = [1; 0; 2; 0] /\ remaining_samples i = 2.
Proof. do 2 eexists. split; [vm_compute; reflexivity|]. repeat split; reflexivity. Qed.

(* ------------------------------------------------------------------ *)
(* C13: the documented invariant "remaining_samples is a multiple of
   num_channels".  It holds, after the header and after every sequence of
   reads, for files whose data chunk consists of whole frames. *)
Theorem C13_remaining_whole_frames_partial sk custom junk f size chunks frames payload i0 r i dsize :
  length size = 4%nat -> Forall chunk_ok chunks -> Forall (fun c => fst c <> id_data) chunks ->
  0 <= dsize < 2 ^ 32 ->
  read_wav_header sk custom junk
    (Some (open_reader (wave_file size chunks (data_header dsize ++ payload)))) (Some i0)
    = Ok (1, Some r, Some i) ->
  dsize = frames * (num_channels i * Z.of_nat (width (enc i))) ->
  remaining_samples i = frames * num_channels i /\
  forall reqs s' outs, run (read_step f junk) (r, i) reqs = Ok (s', outs) ->
    remaining_samples (snd s') mod num_channels (snd s') = 0.
Proof. intros H1 H2 H3. exact (whole_frames sk custom junk f size chunks frames payload i0 r i H1 H2 H3 dsize). Qed.
Print Assumptions C13_remaining_whole_frames_partial.

(* It fails for a stereo file with an odd number of samples in its data chunk. *)
Theorem C13_remaining_refuted sk custom junk : exists file r i,
  Forall is_byte file /\
  read_wav_header sk custom junk (Some (open_reader file)) (Some info_zero) = Ok (1, Some r, Some i) /\
  remaining_samples i mod num_channels i <> 0.
Proof.
  exists (wave_file [0; 0; 0; 0] [(id_fmt, fmt_body 2 8000)] (data_header 6 ++ [1; 0; 2; 0; 3; 0])).
  do 2 eexists. split; [vm_compute; repeat constructor; discriminate|].
  split; [destruct sk, custom; vm_compute; reflexivity|]. vm_compute. discriminate.
Qed.
Print Assumptions C13_remaining_refuted.

Example C13_ex : exists r i,
  read_wav_header SeekFile false (fun _ => 0)
    (Some (open_reader (wave_file [0; 0; 0; 0] [(id_fmt, fmt_body 2 8000)]
      (data_header 12 ++ [1; 0; 2; 0; 3; 0; 4; 0; 5; 0; 6; 0])))) (Some info_zero)
    = Ok (1, Some r, Some i) /\ remaining_samples i = 6 /\
  omap (fun so => remaining_samples (snd (fst so)))
    (run (read_step (fun x => x) (fun _ => 0)) (r, i) [3]%nat) = Ok 4.
Proof. do 2 eexists. split; [vm_compute; reflexivity|]. split; vm_compute; reflexivity. Qed.

(* ------------------------------------------------------------------ *)
(* C14: error reporting of the writer, for any write function.  The header and
   sample writers return 1 exactly when every call of the write function took
   all of its bytes. *)
Theorem C14_header_and_samples_report_partial {IO} (wf : list Z -> IO -> IO * Z) :
  (forall io e n rate ch w' res,
     write_wav_header (watch wf) {| ww_io := (io, true); ww_err := e |} n rate ch = Ok (w', res) ->
     res = if snd (ww_io w') then 1 else 0) /\
  (forall io e samples n w' res,
     write_wav_samples (watch wf) {| ww_io := (io, true); ww_err := e |} samples n = Ok (w', res) ->
     res = if snd (ww_io w') then 1 else 0).
Proof.
  split.
  - intros io e n rate ch w' res H. exact (proj1 (header_reports wf io e n rate ch w' res H)).
  - exact (samples_report wf).
Qed.
Print Assumptions C14_header_and_samples_report_partial.

(* WriteWavFile does not look at the result of writing the samples: with a
   device that is full after the header it reports success although no sample
   was stored. *)
Theorem C14_write_file_reports_refuted : exists samples file,
  length samples = 2%nat /\
  write_wav_file (device 44) true (Some []) (fun _ => true) samples 2 8000 2 = Ok (Some file, 1) /\
  length file = 44%nat /\
  write_wav_file (watch (device 44)) true (Some ([], true)) (fun _ => true) samples 2 8000 2
    = Ok (Some (file, false), 1).
Proof. exists [1; 2]. eexists. split; [reflexivity|]. split; [vm_compute; reflexivity|]. split; vm_compute; reflexivity. Qed.
Print Assumptions C14_write_file_reports_refuted.

Example C14_ex : exists w,
  write_wav_header (watch (device 20)) {| ww_io := ([], true); ww_err := true |} 2 8000 2 = Ok (w, 0) /\
  snd (ww_io w) = false.
Proof. eexists. split; vm_compute; reflexivity. Qed.

(* ------------------------------------------------------------------ *)
(* C51: "a header is accepted only if it is complete" is false: a file that
   ends right after the word "data" is accepted, and the sample count reported
   is computed from uninitialised memory. *)
Theorem C51_truncated_header_refuted sk custom : exists file,
  forall j, 0 <= j < 256 -> exists r i,
  read_wav_header sk custom (fun _ => j) (Some (open_reader file)) (Some info_zero)
    = Ok (1, Some r, Some i) /\
  skipn (length file - 4) file = id_data /\
  remaining_samples i = j * 16843009 / 2.
Proof.
  exists (wave_file [0; 0; 0; 0] [(id_fmt, fmt_body 1 8000)] id_data). intros j Hj.
  assert (EV : forall v, v = j -> exists r i,
    read_wav_header sk custom (fun _ => v) (Some (open_reader
      (wave_file [0; 0; 0; 0] [(id_fmt, fmt_body 1 8000)] id_data))) (Some info_zero)
      = Ok (1, Some r, Some i) /\ remaining_samples i = v * 16843009 / 2).
  { assert (forall n, (n < 256)%nat -> exists r i,
    read_wav_header sk custom (fun _ => Z.of_nat n) (Some (open_reader
      (wave_file [0; 0; 0; 0] [(id_fmt, fmt_body 1 8000)] id_data))) (Some info_zero)
      = Ok (1, Some r, Some i) /\ remaining_samples i = Z.of_nat n * 16843009 / 2) as K.
    { intros n Hn.
      assert (A : forallb (fun n => match read_wav_header sk custom (fun _ => Z.of_nat n) (Some (open_reader
        (wave_file [0; 0; 0; 0] [(id_fmt, fmt_body 1 8000)] id_data))) (Some info_zero) with
        | Ok (1, Some _, Some i) => remaining_samples i =? Z.of_nat n * 16843009 / 2
        | _ => false end) (seq 0 256) = true) by (destruct sk, custom; vm_compute; reflexivity).
      rewrite forallb_forall in A. specialize (A n ltac:(apply in_seq; lia)).
      destruct (read_wav_header _ _ _ _ _) as [[[k [r|]] [i|]]| |]; try discriminate;
        destruct k as [|[| |]|]; try discriminate.
      exists r, i. split; auto. now apply Z.eqb_eq. }
    intros v ->. specialize (K (Z.to_nat j) ltac:(lia)). rewrite Z2Nat.id in K by lia. exact K. }
  destruct (EV j eq_refl) as (r' & i' & E1 & E2). exists r', i'. split; [exact E1|]. split; [reflexivity|exact E2].
Qed.
Print Assumptions C51_truncated_header_refuted.

(* ------------------------------------------------------------------ *)
(* C52: reading a header from any byte string whatsoever, with or without seek
   and chunk handler, ends without undefined behaviour; success gives a usable
   info, failure gives zero channels, rate and samples. *)
Theorem C52_header_robust sk custom junk file i0 :
  Forall is_byte file ->
  exists ok r i,
    read_wav_header sk custom junk (Some (open_reader file)) (Some i0) = Ok (ok, Some r, Some i) /\
    ((ok = 1 /\ 1 <= num_channels i <= 65535 /\ 0 <= remaining_samples i < 2 ^ 32 /\
      bit_depth i = 8 * Z.of_nat (width (enc i)) /\
      dest_align i = match enc i with Pcm16 | MuLaw => 2 | _ => 4 end /\
      fmt i = match enc i with Pcm16 | MuLaw => FInt16 | Pcm24 => FInt32 | _ => FFloat end) \/
     (ok = 0 /\ num_channels i = 0 /\ sample_rate_hz i = 0 /\ remaining_samples i = 0 /\
      r_err r = true)).
Proof.
  intros F. destruct (header_total sk custom junk file i0 F false []) as (b & r & i & E & _ & X).
  unfold read_wav_header, open_reader. rewrite E. cbn [obind].
  destruct b; do 3 eexists; (split; [reflexivity|]).
  - left. destruct (X eq_refl) as ((A & B & _) & C & D & _). unfold fmt_coherent in D.
    split; [reflexivity|]. split; [lia|]. split; [exact B|].
    destruct (enc i); destruct D as (-> & -> & ->); auto.
  - right. auto.
Qed.
Print Assumptions C52_header_robust.

(* But asking for samples after a failed header divides by the channel count
   zero. *)
Theorem C52_read_after_failure_refuted sk custom junk f : exists file r i,
  Forall is_byte file /\
  read_wav_header sk custom junk (Some (open_reader file)) (Some info_zero) = Ok (0, Some r, Some i) /\
  remaining_samples i = 0 /\
  read_samples junk f r i 1 = Undef.
Proof.
  exists (wave_file [0; 0; 0; 0] [(id_fmt, fmt_body 1 8000); (id_fmt, [1])] []).
  destruct sk, custom; do 2 eexists; (split; [vm_compute; repeat constructor; discriminate|]);
    (split; [vm_compute; reflexivity|]); split; reflexivity.
Qed.
Print Assumptions C52_read_after_failure_refuted.

Example C52_ex : omap (fun x => fst (fst x)) (read_wav_header SeekFile false (fun _ => 0)
  (Some (open_reader stereo_truncated)) (Some info_zero)) = Ok 1 /\
  omap (fun x => fst (fst x)) (read_wav_header SeekFile false (fun _ => 0)
  (Some (open_reader [82; 73; 70; 70])) (Some info_zero)) = Ok 0.
Proof. split; vm_compute; reflexivity. Qed.
