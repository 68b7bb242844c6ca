From Verif Require Import CInt ListLemmas NumberUtilProofs SerializeModel SerializeSpec SerializeProofs WavModel WavSpec WavProofs WavHeaderProofs WavFileProofs.

Ltac Zify.zify_post_hook ::= idtac.

(* ---- writing to memory ---- *)
Notation mw io := {| ww_io := io; ww_err := false |}.

Lemma write_check_mem bytes io : write_check mem_write bytes (mw io) = mw (io ++ bytes).
Proof. unfold write_check, mem_write. cbn. now rewrite Z.eqb_refl. Qed.

Lemma le16 v : le_write_u16 (v mod 2 ^ 16) = little_endian 2 v.
Proof. rewrite le_write_u16_digits. apply (digits_mod 2 v). Qed.
Lemma le32 v : le_write_u32 (v mod 2 ^ 32) = little_endian 4 v.
Proof. rewrite le_write_u32_digits. apply (digits_mod 4 v). Qed.

Lemma write_u16_mem v io : write_u16 mem_write v (mw io) = mw (io ++ little_endian 2 v).
Proof. unfold write_u16. now rewrite write_check_mem, le16. Qed.
Lemma write_u32_mem v io : write_u32 mem_write v (mw io) = mw (io ++ little_endian 4 v).
Proof. unfold write_u32. now rewrite write_check_mem, le32. Qed.

(* The chunks the writer produces. *)
Definition fmt_body (ch rate : Z) : list Z :=
  little_endian 2 (if 2 <? ch then 65534 else 1) ++ little_endian 2 ch ++
  little_endian 4 rate ++ little_endian 4 (ch * 2 * rate) ++
  little_endian 2 (ch * 2) ++ little_endian 2 16 ++
  (if 2 <? ch then little_endian 2 22 ++ little_endian 2 16 ++ little_endian 4 0 ++
     little_endian 2 1 ++ pcm_guid else []).

Definition written_chunks (n ch rate : Z) : list (list Z * list Z) :=
  (id_fmt, fmt_body ch rate) ::
  (if 2 <? ch then [(id_fact, little_endian 4 (n / ch))] else []).

Definition size_field (n ch : Z) : list Z :=
  little_endian 4 (20 + (if 2 <? ch then 40 else 16) + (if 2 <? ch then 12 else 0) + (2 * n) mod 2 ^ 32).

Lemma fmt_body_length ch rate : length (fmt_body ch rate) = if 2 <? ch then 40%nat else 16%nat.
Proof. unfold fmt_body. destruct (2 <? ch); rewrite !app_length, !little_endian_length; reflexivity. Qed.

Lemma write_header_mem n ch rate :
  int (ch * 2) -> int (ch * 2 * rate) ->
  forall e io, write_wav_header mem_write {| ww_io := io; ww_err := e |} n rate ch
  = Ok (mw (io ++ wave_file (size_field n ch) (written_chunks n ch rate)
               (data_header (2 * n))), 1).
Proof.
  intros H1 H2 e io. unfold write_wav_header. rewrite i32_ok by auto. cbn [obind ww_io].
  rewrite write_check_mem, write_u32_mem, write_check_mem. cbn [ww_err].
  rewrite write_check_mem, write_u32_mem, !write_u16_mem, write_u32_mem.
  rewrite i32_ok by auto. cbn [obind].
  rewrite write_u32_mem, !write_u16_mem. cbn [ww_err].
  assert (ED : little_endian 4 ((2 * n) mod 2 ^ 32) = little_endian 4 (2 * n)).
  { exact (digits_mod 4 (2 * n)). }
  unfold written_chunks, wave_file, data_header, chunk_bytes, size_field.
  destruct (2 <? ch) eqn:E; cbn [map concat fst snd].
  - repeat (rewrite ?write_u16_mem, ?write_check_mem, ?write_u32_mem; cbn [ww_err]).
    rewrite ED.
    do 3 f_equal. rewrite fmt_body_length, little_endian_length, E. unfold fmt_body. rewrite E.
    rewrite <- !app_assoc. cbn [app Z.of_nat Pos.of_succ_nat Pos.succ]. rewrite ?app_nil_r. reflexivity.
  - repeat (rewrite ?write_u16_mem, ?write_check_mem, ?write_u32_mem; cbn [ww_err]).
    rewrite ED.
    do 3 f_equal. rewrite fmt_body_length, E. unfold fmt_body. rewrite E.
    rewrite <- !app_assoc. cbn [app Z.of_nat Pos.of_succ_nat Pos.succ]. rewrite ?app_nil_r. reflexivity.
Qed.

Lemma write_samples_mem samples e io : Z.of_nat (length samples) <= INT_MAX ->
  write_wav_samples mem_write {| ww_io := io; ww_err := e |} samples (Z.of_nat (length samples))
  = Ok (mw (io ++ concat (map (little_endian 2) samples)), 1).
Proof.
  intros H. unfold write_wav_samples.
  replace ((Z.of_nat (length samples) <=? INT_MAX) && (Z.of_nat (length samples) <=? Z.of_nat (length samples)))
    with true by lia. cbn [oguard ww_io].
  rewrite Nat2Z.id, firstn_all.
  assert (G : forall l io, fold_left (fun w s => write_u16 mem_write s w) l (mw io)
            = mw (io ++ concat (map (little_endian 2) l))).
  { induction l as [|s l IH]; intros io0; cbn [fold_left map concat]; [now rewrite app_nil_r|].
    rewrite write_u16_mem, IH, <- app_assoc. reflexivity. }
  rewrite G. reflexivity.
Qed.

(* ---- reading what was written ---- *)
Lemma decode_written f wide samples : Forall is_i16 samples ->
  decode f Pcm16 wide (concat (map (little_endian 2) samples))
  = map (Z.mul (if wide then 65536 else 1)) samples.
Proof.
  induction 1 as [|s l Hs _ IH]; [reflexivity|].
  cbn [map concat].
  rewrite decode_cons by (rewrite app_length, little_endian_length; cbn; lia).
  cbn [width]. rewrite firstn_exact, skipn_exact by apply little_endian_length.
  rewrite IH. cbn [map]. f_equal. unfold sample_value. f_equal. rewrite le_value_little_endian.
  change (256 ^ Z.of_nat 2) with 65536. unfold twos, is_i16 in *.
  change (2 ^ (16 - 1)) with 32768. change (2 ^ 16) with 65536.
  destruct (Z.ltb_spec s 0).
  - replace (s mod 65536) with (s + 65536) by (apply (Z.mod_unique_pos _ _ (-1)); lia).
    destruct (Z.ltb_spec (s + 65536) 32768); lia.
  - rewrite Z.mod_small by lia. destruct (Z.ltb_spec s 32768); lia.
Qed.

Lemma fields_fmt_body ch rate : 0 < ch < 65536 ->  0 <= rate < 2 ^ 31 -> forall i,
  fmt_result (fmt_body ch rate) i = (true, set_counts (set_format i Pcm16 2 FInt16) ch rate 16).
Proof.
  intros Hc Hr i. unfold fmt_result. rewrite fmt_body_length.
  set (X := little_endian 2 (if 2 <? ch then 65534 else 1)).
  assert (F1 : field 0 2 (fmt_body ch rate) = if 2 <? ch then 65534 else 1).
  { unfold field, fmt_body. cbn [skipn]. rewrite firstn_exact by apply little_endian_length.
    rewrite le_value_little_endian. destruct (2 <? ch); reflexivity. }
  assert (F2 : field 2 2 (fmt_body ch rate) = ch).
  { unfold field, fmt_body. rewrite skipn_exact by apply little_endian_length.
    rewrite firstn_exact by apply little_endian_length. rewrite le_value_little_endian.
    apply Z.mod_small. exact (conj (Z.lt_le_incl _ _ (proj1 Hc)) (proj2 Hc)). }
  assert (SK : forall a b c (l r s : list Z), length l = a -> skipn b r = s -> c = (a + b)%nat -> skipn c (l ++ r) = s).
  { intros a b c l r s <- <- ->. rewrite <- (skipn_skipn' (l ++ r) b (length l)). now rewrite skipn_app_exact. }
  assert (F3 : field 4 4 (fmt_body ch rate) = rate).
  { unfold field, fmt_body.
    erewrite (SK 2%nat 2%nat); [|apply little_endian_length| |reflexivity].
    2:{ apply skipn_exact. apply little_endian_length. }
    rewrite firstn_exact by apply little_endian_length. rewrite le_value_little_endian.
    apply Z.mod_small. change (256 ^ Z.of_nat 4) with (2 ^ 32). lia. }
  assert (S14 : skipn 14 (fmt_body ch rate) = little_endian 2 16 ++
     (if 2 <? ch then little_endian 2 22 ++ little_endian 2 16 ++ little_endian 4 0 ++
     little_endian 2 1 ++ pcm_guid else [])).
  { unfold fmt_body.
    eapply (SK 2%nat 12%nat); [apply little_endian_length| |reflexivity].
    eapply (SK 2%nat 10%nat); [apply little_endian_length| |reflexivity].
    eapply (SK 4%nat 6%nat); [apply little_endian_length| |reflexivity].
    eapply (SK 4%nat 2%nat); [apply little_endian_length| |reflexivity].
    apply skipn_exact. apply little_endian_length. }
  assert (F4 : field 14 2 (fmt_body ch rate) = 16).
  { unfold field. rewrite S14. rewrite firstn_exact by apply little_endian_length.
    rewrite le_value_little_endian. reflexivity. }
  assert (F5 : 2 < ch -> field 24 2 (fmt_body ch rate) = 1).
  { intros H2. unfold field.
    replace (skipn 24 (fmt_body ch rate)) with (little_endian 2 1 ++ pcm_guid).
    { rewrite firstn_exact by apply little_endian_length. rewrite le_value_little_endian. reflexivity. }
    change 24%nat with (14 + 10)%nat. rewrite <- skipn_skipn'. rewrite S14.
    replace (2 <? ch) with true by lia. reflexivity. }
  rewrite F1, F2, F3, F4. replace (ch =? 0) with false by lia.
  rewrite to_int32_small by lia.
  destruct (2 <? ch) eqn:E.
  - change (40 <? 16)%nat with false. change (26 <=? 40)%nat with true.
    rewrite F5 by lia. reflexivity.
  - reflexivity.
Qed.

Lemma fmt_body_bytes ch rate : Forall is_byte (fmt_body ch rate).
Proof.
  assert (HG : Forall is_byte pcm_guid) by (unfold pcm_guid, is_byte; repeat constructor; lia).
  unfold fmt_body. repeat (apply Forall_app; split); try apply little_endian_bytes.
  destruct (2 <? ch); [|constructor].
  repeat (apply Forall_app; split); try apply little_endian_bytes. exact HG.
Qed.

Lemma written_chunks_ok n ch rate : Forall chunk_ok (written_chunks n ch rate) /\
  Forall (fun c => fst c <> id_data) (written_chunks n ch rate).
Proof.
  assert (HB : forall id, id = id_fmt \/ id = id_fact -> length id = 4%nat /\ Forall is_byte id /\ id <> id_data).
  { intros id [-> | ->]; (split; [reflexivity|]; split; [unfold id_fmt, id_fact, is_byte; repeat constructor; lia|discriminate]). }
  assert (H1 : chunk_ok (id_fmt, fmt_body ch rate)).
  { unfold chunk_ok; cbn [fst snd]. destruct (HB id_fmt) as (A & B & C); auto. repeat split; auto.
    apply fmt_body_bytes. rewrite fmt_body_length. destruct (2 <? ch); reflexivity. }
  assert (H2 : chunk_ok (id_fact, little_endian 4 (n / ch))).
  { unfold chunk_ok; cbn [fst snd]. destruct (HB id_fact) as (A & B & C); auto. repeat split; auto.
    apply little_endian_bytes. }
  unfold written_chunks. destruct (2 <? ch); split;
    repeat (apply Forall_cons || apply Forall_nil); try assumption; cbn; discriminate.
Qed.

Lemma set_remaining_twice i a b : set_remaining (set_remaining i a) b = set_remaining i b.
Proof. reflexivity. Qed.

Lemma interpret_written n ch rate i : 0 <= n < 2 ^ 31 -> 0 < ch < 65536 -> 0 <= rate < 2 ^ 31 ->
  exists m, interpret (written_chunks n ch rate) i
   = (true, set_remaining (set_counts (set_format i Pcm16 2 FInt16) ch rate 16) m).
Proof.
  intros Hn Hc Hr. unfold written_chunks. cbn [interpret].
  change (bytes_eqb id_fmt id_fmt) with true. cbn match.
  rewrite fields_fmt_body by auto.
  destruct (2 <? ch) eqn:E; cbn [interpret].
  - change (bytes_eqb id_fact id_fmt) with false. change (bytes_eqb id_fact id_fact) with true. cbn match.
    unfold fact_result. rewrite little_endian_length. cbn [num_channels set_counts].
    replace (ch =? 0) with false by lia. change (4 =? 4)%nat with true. cbn [negb orb].
    rewrite le_value_little_endian.
    assert (HQ : 0 <= n / ch <= n).
    { split. apply Z.div_pos; lia. apply Z.div_le_upper_bound; nia. }
    rewrite Z.mod_small by (change (256 ^ Z.of_nat 4) with (2 ^ 32); lia).
    replace (SIZE_MAX / ch <? n / ch) with false.
    2:{ symmetry. apply Z.ltb_ge. apply Z.div_le_mono; unfold SIZE_MAX; lia. }
    eexists. cbn [num_channels set_remaining set_counts]. replace (ch =? 0) with false by lia. reflexivity.
  - exists (remaining_samples i). cbn [num_channels set_counts]. replace (ch =? 0) with false by lia. reflexivity.
Qed.

(* The file produced. *)
Definition written_file (samples : list Z) (ch rate : Z) : list Z :=
  let n := Z.of_nat (length samples) in
  wave_file (size_field n ch) (written_chunks n ch rate) (data_header (2 * n))
  ++ concat (map (little_endian 2) samples).

Lemma write_file_mem samples ch rate :
  0 < ch -> 0 < rate -> ch * 2 * rate <= INT_MAX ->
  Z.of_nat (length samples) <= (UINT32_MAX - 60) / 2 ->
  Z.of_nat (length samples) mod ch = 0 ->
  write_wav_file mem_write true (Some []) (fun _ => true) samples (Z.of_nat (length samples)) rate ch
  = Ok (Some (written_file samples ch rate), 1).
Proof.
  intros Hc Hr Ho Hn Hm. unfold write_wav_file.
  assert (Hn' : Z.of_nat (length samples) <= 2147483617) by exact Hn.
  replace (negb true || (rate <=? 0) || (ch <=? 0) || negb (Z.of_nat (length samples) mod ch =? 0)
     || ((UINT32_MAX - 60) / 2 <? Z.of_nat (length samples))) with false by lia.
  rewrite write_header_mem by (unfold int, INT_MIN, INT_MAX in *; nia).
  cbn [obind ww_err app].
  rewrite write_samples_mem by (unfold INT_MAX; lia).
  cbn [obind ww_io negb]. reflexivity.
Qed.

Lemma header_written sk custom junk samples ch rate i0 :
  0 < ch < 65536 -> 0 < rate < 2 ^ 31 ->
  Z.of_nat (length samples) <= (UINT32_MAX - 60) / 2 ->
  exists m lg,
  header_body sk custom junk {| r_rest := written_file samples ch rate; r_err := false; r_log := [] |} i0
  = Ok (true, {| r_rest := concat (map (little_endian 2) samples); r_err := false; r_log := lg |},
     set_remaining (set_remaining (set_counts (set_format (set_channels i0 0) Pcm16 2 FInt16) ch rate 16) m)
       (Z.of_nat (length samples))).
Proof.
  intros Hc Hr Hn.
  assert (Hn' : Z.of_nat (length samples) <= 2147483617) by exact Hn.
  set (n := Z.of_nat (length samples)) in *.
  unfold written_file. fold n. cbv zeta.
  destruct (written_chunks_ok n ch rate) as [CK ND].
  unfold wave_file. rewrite <- !app_assoc. fold (wave_file (size_field n ch) (written_chunks n ch rate)
     (data_header (2 * n) ++ concat (map (little_endian 2) samples))).
  destruct (header_parse sk custom junk (size_field n ch) (written_chunks n ch rate) (2 * n)
     (concat (map (little_endian 2) samples)) false i0) as (r' & E & X); auto.
  { lia. }
  destruct (interpret_written n ch rate (set_channels i0 0)) as (m & EI); try lia.
  cbv zeta in E, X. rewrite EI in E, X. cbn [fst snd] in E, X. rewrite E.
  destruct (X eq_refl) as [-> _]. clear X E.
  cbn [bit_depth set_remaining set_counts].
  change (16 / 8) with 2. replace (2 * n / 2) with n by (rewrite Z.mul_comm, Z.div_mul; lia).
  eexists m, _. reflexivity.
Qed.

Lemma samples_written junk f samples ch i wide lg :
  Forall is_i16 samples -> coherent i wide -> enc i = Pcm16 -> num_channels i = ch ->
  remaining_samples i = Z.of_nat (length samples) ->
  Z.of_nat (length samples) mod ch = 0 ->
  exists r' i', read_samples junk f
    {| r_rest := concat (map (little_endian 2) samples); r_err := false; r_log := lg |} i (Z.of_nat (length samples))
  = Ok (map (Z.mul (if wide then 65536 else 1)) samples, r', i').
Proof.
  intros FS CO EE Ech ER Hm.
  set (rd := {| r_rest := concat (map (little_endian 2) samples); r_err := false; r_log := lg |}).
  assert (FB : Forall is_byte (r_rest rd)).
  { cbn. apply Forall_concat. apply Forall_map. apply Forall_forall. intros; apply little_endian_bytes. }
  destruct (read_samples_spec junk f i wide rd (length samples) CO FB) as (r2 & i2 & E & _).
  exists r2, i2. rewrite E. do 3 f_equal.
  unfold avail, deliverable. rewrite EE, Ech, ER. cbn [r_rest rd].
  change (r_rest rd) with (concat (map (little_endian 2) samples)).
  rewrite decode_written by auto. rewrite map_length, Nat2Z.id, Nat.min_id.
  assert (EF : floor_to (Z.to_nat ch) (length samples) = length samples).
  { destruct CO as (HC & _).
    pose proof (floor_to_Z f ch (Z.of_nat (length samples)) ltac:(lia) ltac:(lia)) as Q. rewrite Hm, Z.sub_0_r in Q.
    rewrite Nat2Z.id in Q. now symmetry. }
  rewrite EF.
  set (l := map _ _).
  replace (length samples) with (length l) by (subst l; apply map_length).
  now rewrite !firstn_all.
Qed.

Lemma read_written sk custom junk f samples ch rate i0 :
  Forall is_i16 samples -> 0 < ch < 65536 -> 0 < rate < 2 ^ 31 ->
  Z.of_nat (length samples) <= (UINT32_MAX - 60) / 2 ->
  Z.of_nat (length samples) mod ch = 0 ->
  read_16bit_wav_file sk custom junk f (written_file samples ch rate) i0
  = Ok (Some samples, ch, rate) /\
  read_wav_file sk custom junk f (written_file samples ch rate) i0
  = Ok (Some (map (fun s => 65536 * s) samples), ch, rate).
Proof.
  intros FS Hc Hr Hn Hm.
  assert (Hn' : Z.of_nat (length samples) <= 2147483617) by exact Hn.
  destruct (header_written sk custom junk samples ch rate i0 Hc Hr Hn) as (m & lg & E).
  unfold read_16bit_wav_file, read_wav_file. rewrite E. cbn [obind].
  set (i := set_remaining _ _). split.
  - unfold read_samples_16. cbn -[read_samples Z.of_nat].
    destruct (samples_written junk f samples ch i false lg) as (r' & i' & ->); auto.
    { unfold coherent. cbn. repeat split; lia. }
    cbn [obind]. do 4 f_equal. rewrite <- (map_id samples) at 2. apply map_ext. intros; lia.
  - destruct (samples_written junk f samples ch (upgrade_info i) true lg) as (r' & i' & E2); auto.
    { unfold coherent. cbn. repeat split; lia. }
    change (remaining_samples i) with (Z.of_nat (length samples)). rewrite E2. reflexivity.
Qed.

(* The string writer produces the same bytes. *)
Lemma write_string_mem samples ch rate :
  0 < ch -> 0 < rate -> ch * 2 * rate <= INT_MAX ->
  Z.of_nat (length samples) <= INT_MAX ->
  write_wav_to_string samples (Z.of_nat (length samples)) rate ch
  = Ok (written_file samples ch rate, 1).
Proof.
  intros Hc Hr Ho Hn. unfold write_wav_to_string.
  rewrite write_header_mem by (unfold int, INT_MIN, INT_MAX in *; nia).
  cbn [obind ww_err app Z.eqb].
  rewrite write_samples_mem by auto.
  reflexivity.
Qed.
