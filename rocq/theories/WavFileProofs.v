From Verif Require Import CInt ListLemmas SerializeModel SerializeSpec SerializeProofs WavModel WavSpec WavProofs WavHeaderProofs.

Lemma bytes_eqb_refl a : bytes_eqb a a = true.
Proof. unfold bytes_eqb. destruct (list_eq_dec Z.eq_dec a a); congruence. Qed.
Lemma bytes_eqb_neq a b : a <> b -> bytes_eqb a b = false.
Proof. unfold bytes_eqb. destruct (list_eq_dec Z.eq_dec a b); congruence. Qed.
Lemma bytes_eqb_spec a b : bytes_eqb a b = true <-> a = b.
Proof. unfold bytes_eqb. destruct (list_eq_dec Z.eq_dec a b); split; congruence. Qed.

Lemma firstn_exact {A} n (a b : list A) : length a = n -> firstn n (a ++ b) = a.
Proof. intros <-. apply firstn_app_exact. Qed.
Lemma skipn_exact {A} n (a b : list A) : length a = n -> skipn n (a ++ b) = b.
Proof. intros <-. apply skipn_app_exact. Qed.

Lemma little_endian_length n v : length (little_endian n v) = n.
Proof. apply length_digits. Qed.
Lemma little_endian_bytes n v : Forall is_byte (little_endian n v).
Proof. apply digits_bytes. Qed.
Lemma le_value_little_endian n v : le_value (little_endian n v) = v mod 256 ^ Z.of_nat n.
Proof. change le_value with value256. apply value_digits. Qed.

Section R.
Context (sk : seek_mode) (custom : bool) (junk : nat -> Z).

Notation mk rest lg := {| r_rest := rest; r_err := false; r_log := lg |}.

Lemma read_check_mk old a rest lg : length a = length old ->
  read_check old (mk (a ++ rest) lg) = (a, mk rest lg).
Proof.
  intros H. rewrite read_check_ok by (cbn; rewrite app_length; lia).
  cbn [r_rest r_err r_log]. rewrite firstn_exact, skipn_exact by auto. reflexivity.
Qed.

Lemma read_u16_mk a rest lg : length a = 2%nat -> Forall is_byte a ->
  read_uint16 junk (mk (a ++ rest) lg) = Ok (le_value a, mk rest lg).
Proof. intros L F. now rewrite (read_uint16_app junk a _ rest). Qed.
Lemma read_u32_mk a rest lg : length a = 4%nat -> Forall is_byte a ->
  read_uint32 junk (mk (a ++ rest) lg) = Ok (le_value a, mk rest lg).
Proof. intros L F. now rewrite (read_uint32_app junk a _ rest). Qed.
Lemma seek_mk a rest lg n : Z.of_nat (length a) = n ->
  seek_check sk n (mk (a ++ rest) lg) = mk rest lg.
Proof.
  intros <-. rewrite seek_check_ok by (cbn [r_rest]; try rewrite app_length; lia).
  cbn [r_rest r_err r_log]. rewrite Nat2Z.id, skipn_app_exact. reflexivity.
Qed.

(* Contents of a fmt chunk. *)
Definition field (pos n : nat) (body : list Z) : Z := le_value (firstn n (skipn pos body)).
Definition fmt_result (body : list Z) (i : wav_info) : bool * wav_info :=
  if (length body <? 16)%nat then (false, i) else
  let code := if (field 0 2 body =? 65534) && (26 <=? length body)%nat then field 24 2 body
              else field 0 2 body in
  if field 2 2 body =? 0 then (false, i) else
  let '(ok, i') := select_format code (field 14 2 body) i in
  if ok then (true, set_counts i' (field 2 2 body) (to_int32 (field 4 4 body)) (field 14 2 body))
  else (false, i').

Lemma cut n (l : list Z) : (n <= length l)%nat ->
  exists a b, l = a ++ b /\ length a = n /\ a = firstn n l /\ b = skipn n l.
Proof.
  intros H. exists (firstn n l), (skipn n l). rewrite firstn_skipn, firstn_length_le by auto. auto.
Qed.

Lemma read_fmt_body body rest lg i :
  Forall is_byte body ->
  exists r', read_fmt_chunk sk junk (mk (body ++ rest) lg) i (Z.of_nat (length body))
    = Ok (fst (fmt_result body i), r', snd (fmt_result body i)) /\
  (fst (fmt_result body i) = true -> r' = mk rest lg).
Proof.
  intros F. unfold read_fmt_chunk, fmt_result.
  destruct (Nat.ltb_spec (length body) 16) as [L|L].
  { replace (Z.of_nat (length body) <? 16) with true by lia. eexists; split; [reflexivity|discriminate]. }
  replace (Z.of_nat (length body) <? 16) with false by lia.
  (* cut the body into fields *)
  set (a0 := firstn 2 (skipn 0 body)). set (a1 := firstn 2 (skipn 2 body)). set (a2 := firstn 4 (skipn 4 body)).
  set (a3 := firstn 4 (skipn 8 body)). set (a4 := firstn 2 (skipn 12 body)). set (a5 := firstn 2 (skipn 14 body)).
  set (b := skipn 16 body).
  assert (EB : body = a0 ++ a1 ++ a2 ++ a3 ++ a4 ++ a5 ++ b).
  { subst a0 a1 a2 a3 a4 a5 b.
    rewrite <- (firstn_skipn 2 body) at 1. f_equal.
    rewrite <- (firstn_skipn 2 (skipn 2 body)) at 1. f_equal. rewrite skipn_skipn'. cbn [Nat.add].
    rewrite <- (firstn_skipn 4 (skipn 4 body)) at 1. f_equal. rewrite skipn_skipn'. cbn [Nat.add].
    rewrite <- (firstn_skipn 4 (skipn 8 body)) at 1. f_equal. rewrite skipn_skipn'. cbn [Nat.add].
    rewrite <- (firstn_skipn 2 (skipn 12 body)) at 1. f_equal. rewrite skipn_skipn'. cbn [Nat.add].
    rewrite <- (firstn_skipn 2 (skipn 14 body)) at 1. f_equal. rewrite skipn_skipn'. reflexivity. }
  assert (FS : forall p n, Forall is_byte (firstn n (skipn p body))).
  { intros. apply Forall_firstn'. now apply Forall_skipn'. }
  assert (LS : forall p n, (p + n <= 16)%nat -> length (firstn n (skipn p body)) = n).
  { intros. rewrite firstn_length, skipn_length. lia. }
  unfold field. fold a0 a1 a2 a5.
  set (size := Z.of_nat (length body)).
  replace (26 <=? length body)%nat with (26 <=? size) by (subst size; lia).
  assert (Lb : Z.of_nat (length b) = size - 16) by (subst b size; rewrite skipn_length; lia).
  set (c24 := firstn 2 (skipn 24 body)).
  assert (Ec24 : (26 <= length body)%nat -> b = firstn 8 b ++ c24 ++ skipn 10 b /\ length (firstn 8 b) = 8%nat /\ length c24 = 2%nat).
  { intros L26. subst b c24. split; [|split].
    - rewrite <- (firstn_skipn 8 (skipn 16 body)) at 1. f_equal. rewrite skipn_skipn'. cbn [Nat.add].
      rewrite <- (firstn_skipn 2 (skipn 24 body)) at 1. f_equal. rewrite !skipn_skipn'. reflexivity.
    - rewrite firstn_length, skipn_length. lia.
    - rewrite firstn_length, skipn_length. lia. }
  assert (Fc24 : Forall is_byte c24) by apply FS.
  replace (body ++ rest) with (a0 ++ a1 ++ a2 ++ a3 ++ a4 ++ a5 ++ b ++ rest)
    by (clearbody a0 a1 a2 a3 a4 a5 b; rewrite EB; now rewrite <- !app_assoc).
  rewrite read_u16_mk by (try (apply LS; lia); apply FS). cbn [obind].
  rewrite read_u16_mk by (try (apply LS; lia); apply FS). cbn [obind].
  rewrite read_u32_mk by (try (apply LS; lia); apply FS). cbn [obind].
  rewrite (seek_mk a3) by (unfold a3; rewrite LS by lia; reflexivity).
  rewrite read_u16_mk by (try (apply LS; lia); apply FS). cbn [obind].
  rewrite read_u16_mk by (try (apply LS; lia); apply FS). cbn [obind].
  match goal with |- context [obind (if ?b then ?x else ?y) _] =>
    set (m := if b then x else y) end.
  assert (Em : m = Ok (if (le_value a0 =? 65534) && (26 <=? size) then le_value c24 else le_value a0, mk rest lg)).
  { subst m. destruct ((le_value a0 =? 65534) && (26 <=? size)) eqn:E26.
    - destruct Ec24 as (E8 & L8 & L2); [subst size; lia|].
      rewrite E8, <- !app_assoc.
      rewrite (seek_mk (firstn 8 b)) by (rewrite L8; reflexivity).
      rewrite read_u16_mk by auto. cbn [obind].
      rewrite (seek_mk (skipn 10 b)) by (rewrite skipn_length; lia). reflexivity.
    - rewrite (seek_mk b) by lia. reflexivity. }
  rewrite Em. cbn [obind r_err].
  destruct (le_value a1 =? 0). { eexists; split; [reflexivity|discriminate]. }
  destruct (select_format _ (le_value a5) i) as [[|] i']; eexists; (split; [reflexivity|]); auto; discriminate.
Qed.

Definition fact_result (body : list Z) (i : wav_info) : bool * wav_info :=
  if negb (length body =? 4)%nat || (num_channels i =? 0) then (false, i)
  else if SIZE_MAX / num_channels i <? le_value body then (false, i)
  else (true, set_remaining i ((num_channels i * le_value body) mod 2 ^ 32)).

Lemma read_fact_body body rest lg i : Forall is_byte body ->
  exists r', read_fact_chunk junk (mk (body ++ rest) lg) i (Z.of_nat (length body))
    = Ok (fst (fact_result body i), r', snd (fact_result body i)) /\
  (fst (fact_result body i) = true -> r' = mk rest lg).
Proof.
  intros F. unfold read_fact_chunk, fact_result.
  replace (Z.of_nat (length body) =? 4) with (length body =? 4)%nat by lia.
  destruct (negb (length body =? 4)%nat || (num_channels i =? 0)) eqn:E.
  { eexists; split; [reflexivity|discriminate]. }
  rewrite read_u32_mk by (auto; lia). cbn [obind].
  destruct (SIZE_MAX / num_channels i <? le_value body); eexists; (split; [reflexivity|]); auto; discriminate.
Qed.

(* The meaning of the chunks before the data chunk; unknown ones are ignored. *)
Fixpoint interpret (chunks : list (list Z * list Z)) (i : wav_info) : bool * wav_info :=
  match chunks with
  | [] => (negb (num_channels i =? 0), i)
  | (id, body) :: chunks' =>
      if bytes_eqb id id_fmt then
        let '(ok, i') := fmt_result body i in
        if ok then interpret chunks' i' else (false, i')
      else if bytes_eqb id id_fact then
        let '(ok, i') := fact_result body i in
        if ok then interpret chunks' i' else (false, i')
      else interpret chunks' i
  end.

Lemma interpret_known chunks i :
  interpret (filter (fun c => negb (unknown c)) chunks) i = interpret chunks i.
Proof.
  revert i. induction chunks as [|[id body] chunks IH]; intros i; [reflexivity|].
  cbn [filter interpret]. unfold unknown at 1. cbn [fst].
  destruct (bytes_eqb id id_fmt) eqn:E1; cbn [negb andb].
  - cbn [interpret]. rewrite E1. destruct (fmt_result body i) as [[|] i']; auto.
  - destruct (bytes_eqb id id_fact) eqn:E2; cbn [negb andb].
    + cbn [interpret]. rewrite E1, E2. destruct (fact_result body i) as [[|] i']; auto.
    + apply IH.
Qed.

Lemma id_lens : length id_fmt = 4%nat /\ length id_fact = 4%nat /\ length id_data = 4%nat.
Proof. repeat split. Qed.

Lemma info_inv_fmt body i : Forall is_byte body -> fst (fmt_result body i) = true -> info_inv (snd (fmt_result body i)).
Proof.
  intros F H. destruct (read_fmt_body body [] [] i F) as (r' & E & _).
  destruct (read_fmt_total sk junk (mk (body ++ []) []) i (Z.of_nat (length body))) as (b & r2 & i2 & E2 & _ & _ & HI).
  { unfold good. cbn. now rewrite app_nil_r. }
  rewrite E in E2. injection E2 as E2 _ <-. apply HI. congruence.
Qed.
Lemma info_inv_fact body i : info_inv i -> fst (fact_result body i) = true -> info_inv (snd (fact_result body i)).
Proof.
  intros HI. unfold fact_result.
  destruct (negb (length body =? 4)%nat || (num_channels i =? 0)); [discriminate|].
  destruct (SIZE_MAX / num_channels i <? le_value body); [discriminate|].
  intros _. exact HI.
Qed.

Lemma loop_chunks chunks : forall fuel id lg i dsize payload,
  Forall chunk_ok chunks -> Forall (fun c => fst c <> id_data) chunks ->
  length id = 4%nat -> (length chunks < fuel)%nat -> info_inv i -> 0 <= dsize < 2 ^ 32 ->
  exists r', chunk_loop sk custom junk fuel id
      (mk (concat (map chunk_bytes chunks) ++ data_header dsize ++ payload) lg) i
    = Ok (fst (interpret chunks i), r',
        if fst (interpret chunks i)
        then set_remaining (snd (interpret chunks i))
               (dsize / (bit_depth (snd (interpret chunks i)) / 8))
        else snd (interpret chunks i)) /\
    (fst (interpret chunks i) = true ->
       r' = mk payload (lg ++ if custom then filter unknown chunks else []) /\
       info_inv (snd (interpret chunks i))).
Proof.
  induction chunks as [|[idc body] chunks IH]; intros fuel id lg i dsize payload CK ND LI LF HI HD.
  - destruct fuel as [|fuel]; [cbn in LF; lia|]. cbn [map concat app chunk_loop].
    unfold data_header. rewrite <- app_assoc.
    rewrite (read_check_mk id id_data) by auto.
    rewrite read_u32_mk by (try apply little_endian_length; apply little_endian_bytes).
    cbn [obind]. rewrite le_value_little_endian.
    rewrite Z.mod_small by exact HD.
    change (bytes_eqb id_data id_fmt) with false. change (bytes_eqb id_data id_fact) with false.
    change (bytes_eqb id_data id_data) with true. cbn [interpret].
    destruct (Z.eqb_spec (num_channels i) 0) as [E|E]; cbn [negb fst snd].
    { eexists; split; [reflexivity|discriminate]. }
    destruct HI as [HI|(HC & HS & HF)]; [contradiction|].
    assert (HB : exists k, Z.quot (bit_depth i) 8 = k /\ bit_depth i / 8 = k /\ 1 <= k).
    { unfold fmt_coherent in HF. destruct (enc i); destruct HF as [-> _]; eexists; repeat split; try reflexivity; lia. }
    destruct HB as (k & -> & -> & Hk).
    replace (k =? 0) with false by lia. cbn [negb oguard].
    eexists; split; [reflexivity|]. intros _. split; [|right; auto].
    destruct custom; now rewrite app_nil_r.
  - destruct fuel as [|fuel]; [cbn in LF; lia|]. cbn [length] in LF.
    inversion CK as [|? ? (Lc & Fc & Fb & Lb) CK']; subst. inversion ND as [|? ? Hn ND']; subst.
    cbn [fst snd] in *.
    cbn [map concat chunk_loop]. unfold chunk_bytes at 1. cbn [fst snd]. rewrite <- !app_assoc.
    rewrite (read_check_mk id idc) by lia.
    rewrite read_u32_mk by (try apply little_endian_length; apply little_endian_bytes).
    cbn [obind]. rewrite le_value_little_endian.
    change (256 ^ Z.of_nat 4) with (2 ^ 32). rewrite Z.mod_small by lia.
    cbn [interpret].
    destruct (bytes_eqb idc id_fmt) eqn:E1.
    { destruct (read_fmt_body body (concat (map chunk_bytes chunks) ++ data_header dsize ++ payload) lg i Fb) as (r' & -> & Hr).
      pose proof (info_inv_fmt body i Fb) as HI'.
      destruct (fmt_result body i) as [[|] i']; cbn [fst snd] in *; cbn [obind].
      - rewrite Hr by reflexivity. cbn [r_err].
        destruct (IH fuel idc lg i' dsize payload) as (r2 & E & X); auto; try lia.
        exists r2. split; [exact E|]. intros Y. destruct (X Y) as [-> Z0]. split; auto.
        cbn [filter]. unfold unknown at 2. cbn [fst]. rewrite E1. cbn. reflexivity.
      - eexists; split; [reflexivity|discriminate]. }
    destruct (bytes_eqb idc id_fact) eqn:E2.
    { destruct (read_fact_body body (concat (map chunk_bytes chunks) ++ data_header dsize ++ payload) lg i Fb) as (r' & -> & Hr).
      pose proof (info_inv_fact body i HI) as HI'.
      destruct (fact_result body i) as [[|] i']; cbn [fst snd] in *; cbn [obind].
      - rewrite Hr by reflexivity. cbn [r_err].
        destruct (IH fuel idc lg i' dsize payload) as (r2 & E & X); auto; try lia.
        exists r2. split; [exact E|]. intros Y. destruct (X Y) as [-> Z0]. split; auto.
        cbn [filter]. unfold unknown at 2. cbn [fst]. rewrite E1, E2. cbn. reflexivity.
      - eexists; split; [reflexivity|discriminate]. }
    rewrite (bytes_eqb_neq idc id_data) by auto.
    assert (EU : unknown (idc, body) = true). { unfold unknown. cbn [fst]. rewrite E1, E2. reflexivity. }
    destruct custom eqn:EC.
    + rewrite (read_check_mk _ body) by (rewrite uninit_length; lia).
      cbn [r_rest r_err r_log].
      destruct (IH fuel idc (lg ++ [(idc, body)]) i dsize payload) as (r2 & E & X); auto; try lia.
      exists r2. split; [exact E|]. intros Y. destruct (X Y) as [-> Z0]. split; auto.
      cbn [filter]. rewrite EU. rewrite <- app_assoc. reflexivity.
    + rewrite (seek_mk body) by reflexivity. cbn [r_err].
      apply IH; auto. lia.
Qed.

Definition total_size (chunks : list (list Z * list Z)) : nat :=
  length (concat (map chunk_bytes chunks)).

Lemma chunks_shorter chunks : Forall chunk_ok chunks ->
  (length chunks <= length (concat (map chunk_bytes chunks)))%nat.
Proof.
  induction 1 as [|c chunks H _ IH]; cbn [map concat length]; [lia|].
  rewrite app_length. unfold chunk_bytes at 1. rewrite app_length. destruct H as [H _]. lia.
Qed.

(* Parsing a whole well-formed file. *)
Lemma header_parse size chunks dsize payload e0 i :
  length size = 4%nat -> Forall chunk_ok chunks -> Forall (fun c => fst c <> id_data) chunks ->
  0 <= dsize < 2 ^ 32 ->
  let res := interpret chunks (set_channels i 0) in
  exists r', header_body sk custom junk
      {| r_rest := wave_file size chunks (data_header dsize ++ payload); r_err := e0; r_log := [] |} i
    = Ok (fst res, r', if fst res then set_remaining (snd res) (dsize / (bit_depth (snd res) / 8)) else snd res) /\
    (fst res = true -> r' = mk payload (if custom then filter unknown chunks else []) /\ info_inv (snd res)).
Proof.
  intros LS CK ND HD res. unfold header_body, wave_file. cbn [r_rest r_log].
  rewrite (read_check_mk _ id_riff) by (now rewrite uninit_length).
  rewrite bytes_eqb_refl. cbn [negb].
  rewrite (seek_mk size) by (rewrite LS; reflexivity).
  rewrite (read_check_mk _ id_wave) by reflexivity.
  rewrite bytes_eqb_refl. cbn [negb r_err].
  apply loop_chunks; auto.
  - cbn [r_rest]. rewrite app_length. pose proof (chunks_shorter chunks CK). lia.
  - left. reflexivity.
Qed.
End R.
