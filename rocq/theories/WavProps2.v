(* More properties of the WAV reader and writer. *)
From Verif Require Import CInt ListLemmas SerializeModel SerializeSpec WavModel WavSpec
  WavProofs WavHeaderProofs WavFileProofs WavWriteProofs WavPropsProofs WavCompleteProofs WavProps.

(* C11: the 16-bit functions read the same samples, and refuse other formats. *)
Theorem C11_16bit sk custom junk f file i0 r i n :
  Forall is_byte file ->
  read_wav_header sk custom junk (Some (open_reader file)) (Some i0) = Ok (1, Some r, Some i) ->
  (fmt i = FInt16 -> read_samples_16 junk f r i n = read_samples junk f r i n) /\
  (fmt i <> FInt16 -> read_samples_16 junk f r i n = CheckFail) /\
  (fmt i = FInt16 -> read_samples_16 junk f r (upgrade_info i) n = CheckFail).
Proof.
  intros F H. destruct (header_total sk custom junk file i0 F false []) as (b & r' & i' & E & _ & X).
  unfold read_wav_header, open_reader in H. rewrite E in H. cbn [obind] in H. destruct b; [|discriminate]. injection H as -> ->.
  destruct (X eq_refl) as (_ & _ & D & _). unfold fmt_coherent in D. unfold read_samples_16, upgrade_info.
  split; [|split]; intros K; destruct (enc i); destruct D as (D1 & D2 & D3); try congruence; rewrite ?K; cbn [bit_depth dest_align fmt]; rewrite ?D1, ?D2, ?D3; reflexivity.
Qed.
Print Assumptions C11_16bit.

(* C13: after any sequence of reads, each read delivers whole frames, no more than asked for, and
   remaining_samples goes down by the number delivered, or to zero at a premature end of the file. *)
Theorem C13_accounting sk custom junk f file i0 r i wide reqs s outs n vs r' i' :
  Forall is_byte file ->
  read_wav_header sk custom junk (Some (open_reader file)) (Some i0) = Ok (1, Some r, Some i) ->
  run (read_step f junk) (r, if wide : bool then upgrade_info i else i) reqs = Ok (s, outs) ->
  read_samples junk f (fst s) (snd s) n = Ok (vs, r', i') ->
  num_channels i' = num_channels i /\ Z.of_nat (length vs) mod num_channels i = 0 /\ Z.of_nat (length vs) <= Z.max 0 n /\
  (remaining_samples i' = remaining_samples (snd s) - Z.of_nat (length vs) \/
   (remaining_samples i' = 0 /\ r_err r' = true /\ Z.of_nat (length vs) < n /\ Z.of_nat (length vs) < remaining_samples (snd s))).
Proof.
  intros F H R RS. assert (C0 : 0 < num_channels i).
  { destruct (header_total sk custom junk file i0 F false []) as (b & r0 & i1 & E & _ & X).
    unfold read_wav_header, open_reader in H. rewrite E in H. cbn [obind] in H. destruct b; [|discriminate]. injection H as -> ->. destruct (X eq_refl) as ((A & _) & _). lia. }
  assert (G : forall reqs s0 s outs, 0 < num_channels (snd s0) -> run (read_step f junk) s0 reqs = Ok (s, outs) -> num_channels (snd s) = num_channels (snd s0)).
  { clear. induction reqs as [|k reqs IH]; intros [r i] s outs HC; cbn [run]; intros R; [now injection R as <- <-|].
    unfold read_step at 1 in R. cbn [fst snd] in *. destruct (read_samples junk f r i (Z.of_nat k)) as [[[vs r1] i1]| |] eqn:E; cbn [omap obind fst snd] in R; try discriminate.
    destruct (read_accounting junk f r i _ vs r1 i1 HC E) as (A & _).
    destruct (run (read_step f junk) (r1, i1) reqs) as [[s2 o2]| |] eqn:ER; cbn [obind fst snd] in R; try discriminate. injection R as <- <-.
    assert (C1 : 0 < num_channels (snd (r1, i1))) by (cbn [snd]; rewrite A; exact HC). cbn [snd]. rewrite (IH (r1, i1) s2 o2 C1 ER). exact A. }
  set (i2 := if wide then upgrade_info i else i) in *. assert (N2 : num_channels i2 = num_channels i) by (subst i2; destruct wide; unfold upgrade_info; [destruct (fmt i)|]; reflexivity).
  assert (C2 : 0 < num_channels (snd (r, i2))) by (cbn [snd]; lia). assert (NC : num_channels (snd s) = num_channels i) by (rewrite (G _ _ _ _ C2 R); exact N2).
  rewrite <- NC. apply (read_accounting junk f (fst s)); [lia|exact RS].
Qed.
Print Assumptions C13_accounting.
Example C13_accounting_ex : exists r i,
  read_wav_header SeekFile false (fun _ => 0) (Some (open_reader stereo_truncated)) (Some info_zero) = Ok (1, Some r, Some i) /\ remaining_samples i = 4 /\
  omap (fun x => (fst (fst x), remaining_samples (snd x))) (read_samples (fun _ => 0) (fun x => x) r i 3) = Ok ([1; 2], 2) /\
  omap (fun x => (fst (fst x), remaining_samples (snd x))) (read_samples (fun _ => 0) (fun x => x) r i 4) = Ok ([1; 2], 0).
Proof. do 2 eexists. split; [vm_compute; reflexivity|]. split; [reflexivity|]. split; vm_compute; reflexivity. Qed.

(* C14: WriteWavFile returns 1 only if the arguments are valid, the file could be opened, every write
   of the header took all of its bytes, and closing succeeded.  Missing: the writes of the samples,
   see C14_write_file_reports_refuted. *)
Theorem C14_write_file_partial {IO} (wf : list Z -> IO -> IO * Z) ok io fclose samples n rate ch s :
  write_wav_file (watch wf) ok (Some (io, true)) fclose samples n rate ch = Ok (Some s, 1) ->
  ok = true /\ 0 < rate /\ 0 < ch /\ n mod ch = 0 /\ n <= (UINT32_MAX - 60) / 2 /\ fclose s = true /\
  exists w, write_wav_header (watch wf) {| ww_io := (io, true); ww_err := false |} n rate ch = Ok (w, 1) /\ snd (ww_io w) = true.
Proof. exact (write_file_reports wf ok io fclose samples n rate ch s). Qed.
Print Assumptions C14_write_file_partial.
(* and bad arguments or a file that cannot be opened give 0 without writing. *)
Theorem C14_refuses {IO} (wf : list Z -> IO -> IO * Z) ok fo fclose samples n rate ch :
  ok = false \/ rate <= 0 \/ ch <= 0 \/ n mod ch <> 0 \/ (UINT32_MAX - 60) / 2 < n \/ fo = None ->
  write_wav_file wf ok fo fclose samples n rate ch = Ok (None, 0).
Proof. exact (write_file_refuses wf ok fo fclose samples n rate ch). Qed.
Print Assumptions C14_refuses.
Example C14_refuses_ex : write_wav_file mem_write true (Some []) (fun _ => true) [1; 2; 3] 3 8000 2 = Ok (None, 0) /\
  write_wav_file mem_write true (Some []) (fun _ => false) [1; 2] 2 8000 2 = omap (fun w => (Some (ww_io (fst w)), 0)) (obind (write_wav_header mem_write {| ww_io := []; ww_err := false |} 2 8000 2) (fun w => write_wav_samples mem_write (fst w) [1; 2] 2)).
Proof. split; vm_compute; reflexivity. Qed.

(* C51: a header accepted without the error flag was completely present: bytes that follow it, and
   the contents of uninitialised buffers, change nothing. *)
Theorem C51_complete_partial sk custom junk junk' file more i0 r i :
  read_wav_header sk custom junk (Some (open_reader file)) (Some i0) = Ok (1, Some r, Some i) -> r_err r = false ->
  exists r', read_wav_header sk custom junk' (Some (open_reader (file ++ more))) (Some i0) = Ok (1, Some r', Some i) /\
    r_err r' = false /\ r_log r' = r_log r /\ r_rest r' = r_rest r ++ more.
Proof. exact (sim_header sk custom junk junk' more file i0 r i). Qed.
Print Assumptions C51_complete_partial.
(* A file cut anywhere in its header is rejected, or the error flag is set. *)
Theorem C51_cut_partial sk custom junk file i0 r i n :
  read_wav_header sk custom junk (Some (open_reader file)) (Some i0) = Ok (1, Some r, Some i) ->
  (n < length file - length (r_rest r))%nat ->
  forall r' i', read_wav_header sk custom junk (Some (open_reader (firstn n file))) (Some i0) = Ok (1, Some r', Some i') -> r_err r' = true.
Proof.
  intros H L r' i' H'. destruct (r_err r') eqn:E; [reflexivity|exfalso].
  destruct (C51_complete_partial sk custom junk junk (firstn n file) (skipn n file) i0 r' i' H' E) as (r2 & E2 & _ & _ & X). rewrite firstn_skipn, H in E2. injection E2 as <- <-.
  apply (f_equal (@length Z)) in X. rewrite app_length, skipn_length in X. lia.
Qed.
Print Assumptions C51_cut_partial.
Example C51_cut_ex : let file := wave_file [0; 0; 0; 0] [(id_fmt, fmt_body 1 8000)] (data_header 4 ++ [1; 0; 2; 0]) in
  exists r i, read_wav_header SeekFile false (fun _ => 0) (Some (open_reader file)) (Some info_zero) = Ok (1, Some r, Some i) /\ r_err r = false /\ length file = 48%nat /\ length (r_rest r) = 4%nat /\
  forallb (fun n => match read_wav_header SeekFile false (fun _ => 0) (Some (open_reader (firstn n file))) (Some info_zero) with Ok (0, _, _) => true | Ok (_, Some r', _) => r_err r' | _ => false end) (seq 0 44) = true.
Proof. do 2 eexists. split; [vm_compute; reflexivity|]. split; [reflexivity|]. split; [reflexivity|]. split; [reflexivity|]. vm_compute. reflexivity. Qed.

(* C68: the file written is a well formed RIFF/WAVE file: the size of each chunk and of the whole
   file is right, the format chunk describes the samples (in the extensible form for more than two
   channels), and the fact chunk counts frames.  Missing: channel counts of 32768 and more and data
   within 12 bytes of the maximal size accepted. *)
Theorem C68_well_formed_partial samples ch rate : 0 < ch < 32768 -> 0 < rate -> ch * 2 * rate <= INT_MAX ->
  Z.of_nat (length samples) <= (UINT32_MAX - 72) / 2 -> Z.of_nat (length samples) mod ch = 0 ->
  let n := Z.of_nat (length samples) in
  exists file body, write_wav_file mem_write true (Some []) (fun _ => true) samples n rate ch = Ok (Some file, 1) /\
  file = wave_file (little_endian 4 (Z.of_nat (length file) - 8))
    ((id_fmt, body) :: (if 2 <? ch then [(id_fact, little_endian 4 (n / ch))] else []) ++ [(id_data, concat (map (little_endian 2) samples))]) [] /\
  Z.of_nat (length file) - 8 < 2 ^ 32 /\
  length body = (if (2 <? ch)%Z then 40 else 16)%nat /\ field 0 2 body = (if 2 <? ch then 65534 else 1) /\ field 2 2 body = ch /\ field 4 4 body = rate /\
  field 8 4 body = ch * 2 * rate /\ field 12 2 body = ch * 2 /\ field 14 2 body = 16 /\
  (2 < ch -> field 16 2 body = 22 /\ field 18 2 body = 16 /\ field 20 4 body = 0 /\ field 24 2 body = 1 /\ skipn 26 body = pcm_guid).
Proof.
  intros Hc Hr Ho Hn Hm n. exists (written_file samples ch rate), (fmt_body ch rate).
  assert (Hn' : n <= 2147483611) by exact Hn.
  assert (H1 : 0 < ch) by (clear - Hc; lia). assert (H2 : Z.of_nat (length samples) <= (UINT32_MAX - 60) / 2) by (change ((UINT32_MAX - 60) / 2) with 2147483617; subst n; clear - Hn'; lia).
  split; [exact (write_file_mem samples ch rate H1 Hr Ho H2 Hm)|]. now apply written_well_formed.
Qed.
Print Assumptions C68_well_formed_partial.
(* With three channels the largest sizes accepted make the RIFF size wrap around. *)
Theorem C68_riff_size_refuted : exists samples rate ch file,
  write_wav_file mem_write true (Some []) (fun _ => true) samples (Z.of_nat (length samples)) rate ch = Ok (Some file, 1) /\
  Z.of_nat (length file) - 8 = 4294967304 /\ le_value (firstn 4 (skipn 4 file)) = 8.
Proof.
  set (k := Z.to_nat 2147483616). exists (repeat 0 k), 8000, 3, (written_file (repeat 0 k) 3 8000).
  assert (L : Z.of_nat (length (repeat 0 k)) = 2147483616) by (rewrite repeat_length; subst k; apply Z2Nat.id; lia). clearbody k.
  destruct (written_size_field (repeat 0 k) 3 8000) as [A B]; [lia|lia|]. rewrite L in A, B.
  split; [apply write_file_mem; rewrite ?L; try (unfold INT_MAX; lia); try reflexivity; change ((UINT32_MAX - 60) / 2) with 2147483617; lia|]. split; [lia|]. rewrite B. reflexivity.
Qed.
Print Assumptions C68_riff_size_refuted.
Example C68_ex : omap (fun x => fst x) (write_wav_file mem_write true (Some []) (fun _ => true) [1; -2; 3] 3 8000 3) =
  Ok (Some [82; 73; 70; 70; 78; 0; 0; 0; 87; 65; 86; 69; 102; 109; 116; 32; 40; 0; 0; 0; 254; 255; 3; 0; 64; 31; 0; 0; 128; 187; 0; 0; 6; 0; 16; 0; 22; 0; 16; 0; 0; 0; 0; 0; 1; 0; 0; 0; 0; 0; 16; 0; 128; 0; 0; 170; 0; 56; 155; 113; 102; 97; 99; 116; 4; 0; 0; 0; 1; 0; 0; 0; 100; 97; 116; 97; 6; 0; 0; 0; 1; 0; 254; 255; 3; 0]).
Proof. vm_compute. reflexivity. Qed.
