From Verif Require Import CInt ListLemmas SerializeModel SerializeSpec SerializeProofs WavModel WavSpec.

Ltac Zify.zify_post_hook ::= idtac.

Lemma le_value_eq bs : le_value bs = value256 bs.
Proof. induction bs; cbn [le_value value256]; congruence. Qed.

Section R0.
Context (junk : nat -> Z).

Lemma uninit_length n : length (uninit junk n) = n.
Proof. unfold uninit. now rewrite map_length, seq_length. Qed.

Lemma uninit_bytes n : Forall is_byte (uninit junk n).
Proof.
  apply Forall_forall. intros x Hx. apply in_map_iff in Hx.
  destruct Hx as (i & <- & _). unfold u8, is_byte. apply Z.mod_pos_bound. lia.
Qed.

Lemma read_check_ok old r : (length old <= length (r_rest r))%nat ->
  read_check old r = (firstn (length old) (r_rest r),
    {| r_rest := skipn (length old) (r_rest r); r_err := r_err r; r_log := r_log r |}).
Proof.
  intros H. unfold read_check.
  rewrite firstn_length_le by lia.
  rewrite skipn_all, app_nil_r, Nat.eqb_refl. cbn [negb]. now rewrite orb_false_r.
Qed.

Lemma read_check_short old r : (length (r_rest r) < length old)%nat ->
  read_check old r = (r_rest r ++ skipn (length (r_rest r)) old,
    {| r_rest := []; r_err := true; r_log := r_log r |}).
Proof.
  intros H. unfold read_check.
  rewrite firstn_all2 by lia. rewrite (skipn_all2 (r_rest r)) by lia.
  replace (length (r_rest r) =? length old)%nat with false by lia.
  cbn [negb]. now rewrite orb_true_r.
Qed.

Lemma Forall_firstn' {A} (P : A -> Prop) n l : Forall P l -> Forall P (firstn n l).
Proof. revert l. induction n; intros l H; cbn; auto. destruct H; auto. Qed.
Lemma Forall_skipn' {A} (P : A -> Prop) n l : Forall P l -> Forall P (skipn n l).
Proof. revert l. induction n; intros l H; cbn; auto. destruct H; auto. Qed.

Lemma read_check_gen old r buf r' : read_check old r = (buf, r') ->
  length buf = length old /\
  (Forall is_byte old -> Forall is_byte (r_rest r) -> Forall is_byte buf) /\
  (Forall is_byte (r_rest r) -> Forall is_byte (r_rest r')) /\
  (length (r_rest r') <= length (r_rest r))%nat /\
  r_log r' = r_log r /\
  (r_err r' = false -> r_err r = false /\ (length old <= length (r_rest r))%nat /\
     r_rest r = buf ++ r_rest r').
Proof.
  intros H. destruct (Nat.le_gt_cases (length old) (length (r_rest r))) as [L|L].
  - rewrite read_check_ok in H by lia. injection H as <- <-. cbn [r_rest r_err r_log].
    rewrite firstn_length_le, skipn_length by lia.
    split; [reflexivity|]. split; [intros; now apply Forall_firstn'|].
    split; [intros; now apply Forall_skipn'|]. split; [lia|]. split; [reflexivity|].
    intros E. split; [exact E|]. split; [lia|]. symmetry. apply firstn_skipn.
  - rewrite read_check_short in H by lia. injection H as <- <-. cbn [r_rest r_err r_log length].
    rewrite app_length, skipn_length.
    split; [lia|]. split; [intros; apply Forall_app; split; auto; now apply Forall_skipn'|].
    split; [constructor|]. split; [lia|]. split; [reflexivity|]. discriminate.
Qed.

(* Reading a fixed-size word. *)
Lemma read_uint16_app b r rest : length b = 2%nat -> Forall is_byte b -> r_rest r = b ++ rest ->
  read_uint16 junk r = Ok (le_value b,
    {| r_rest := rest; r_err := r_err r; r_log := r_log r |}).
Proof.
  intros L F E. unfold read_uint16.
  rewrite read_check_ok.
  2:{ rewrite uninit_length, E, app_length. lia. }
  rewrite uninit_length. cbn [r_rest].
  destruct (le_read_val 2 le_read_u16) as [R _]; [tauto|].
  rewrite E.
  replace (firstn 2 (b ++ rest)) with b by (rewrite <- L; symmetry; apply firstn_app_exact).
  replace (skipn 2 (b ++ rest)) with rest by (rewrite <- L; symmetry; apply skipn_app_exact).
  specialize (R b [] L F). rewrite app_nil_r in R. rewrite R.
  reflexivity.
Qed.

Lemma read_uint32_app b r rest : length b = 4%nat -> Forall is_byte b -> r_rest r = b ++ rest ->
  read_uint32 junk r = Ok (le_value b,
    {| r_rest := rest; r_err := r_err r; r_log := r_log r |}).
Proof.
  intros L F E. unfold read_uint32.
  rewrite read_check_ok.
  2:{ rewrite uninit_length, E, app_length. lia. }
  rewrite uninit_length. cbn [r_rest].
  destruct (le_read_val 4 le_read_u32) as [R _]; [tauto|].
  rewrite E.
  replace (firstn 4 (b ++ rest)) with b by (rewrite <- L; symmetry; apply firstn_app_exact).
  replace (skipn 4 (b ++ rest)) with rest by (rewrite <- L; symmetry; apply skipn_app_exact).
  specialize (R b [] L F). rewrite app_nil_r in R. rewrite R.
  reflexivity.
Qed.

(* Whatever is left, a word read is defined; on a short read the error flag is
   set. *)
Lemma read_uint16_total r : Forall is_byte (r_rest r) ->
  exists v r', read_uint16 junk r = Ok (v, r') /\ Forall is_byte (r_rest r') /\
    0 <= v < 65536 /\ r_log r' = r_log r /\
    (length (r_rest r') <= length (r_rest r))%nat /\
    (r_err r' = false -> r_err r = false /\ (2 <= length (r_rest r))%nat).
Proof.
  intros F. unfold read_uint16.
  destruct (read_check (uninit junk 2) r) as [buf r'] eqn:E.
  apply read_check_gen in E. rewrite uninit_length in E.
  destruct E as (L & FB & FR & LR & LG & ER).
  specialize (FB (uninit_bytes 2) F).
  destruct (le_read_val 2 le_read_u16) as [R _]; [tauto|].
  specialize (R buf [] L FB). rewrite app_nil_r in R. rewrite R.
  exists (value256 buf), r'. split; [reflexivity|]. split; [auto|].
  pose proof (value256_range buf FB). rewrite L in *. change (256 ^ Z.of_nat 2) with 65536 in *.
  split; [lia|]. split; [auto|]. split; [auto|]. intros X. destruct (ER X) as (? & ? & _). split; auto.
Qed.

Lemma read_uint32_total r : Forall is_byte (r_rest r) ->
  exists v r', read_uint32 junk r = Ok (v, r') /\ Forall is_byte (r_rest r') /\
    0 <= v < 2 ^ 32 /\ r_log r' = r_log r /\
    (length (r_rest r') <= length (r_rest r))%nat /\
    (r_err r' = false -> r_err r = false /\ (4 <= length (r_rest r))%nat /\
        r_rest r' = skipn 4 (r_rest r) ).
Proof.
  intros F. unfold read_uint32.
  destruct (read_check (uninit junk 4) r) as [buf r'] eqn:E.
  apply read_check_gen in E. rewrite uninit_length in E.
  destruct E as (L & FB & FR & LR & LG & ER).
  specialize (FB (uninit_bytes 4) F).
  destruct (le_read_val 4 le_read_u32) as [R _]; [tauto|].
  specialize (R buf [] L FB). rewrite app_nil_r in R. rewrite R.
  exists (value256 buf), r'. split; [reflexivity|]. split; [auto|].
  pose proof (value256_range buf FB). rewrite L in *. change (256 ^ Z.of_nat 4) with (2 ^ 32) in *.
  split; [lia|]. split; [auto|]. split; [auto|].
  intros X. destruct (ER X) as (? & ? & EE). split; auto. split; auto.
  rewrite EE. rewrite skipn_app, L, Nat.sub_diag, skipn_all2 by lia. reflexivity.
Qed.

Lemma groups_length w n l : length (groups w n l) = n.
Proof. revert l. induction n; intros; cbn [groups length]; auto. Qed.

(* mu-law table = G.711 *)
Lemma mulaw_table_ok : forallb (fun i =>
    match nth_error mulaw_table i with
    | Some v => v =? mulaw_value (Z.of_nat i) | None => false end) (seq 0 256) = true.
Proof. vm_compute. reflexivity. Qed.

Lemma mulaw_table_spec b : is_byte b ->
  nth_error mulaw_table (Z.to_nat b) = Some (mulaw_value b).
Proof.
  intros H. unfold is_byte in H. pose proof mulaw_table_ok as T.
  rewrite forallb_forall in T. specialize (T (Z.to_nat b)).
  rewrite in_seq in T. specialize (T ltac:(lia)).
  destruct (nth_error mulaw_table (Z.to_nat b)) as [v|]; [|discriminate].
  f_equal. rewrite Z2Nat.id in T by lia. lia.
Qed.

Lemma mulaw_value_range b : is_byte b -> -32768 <= mulaw_value b < 32768.
Proof.
  intros H. unfold is_byte in H.
  assert (T : forallb (fun i => let v := mulaw_value (Z.of_nat i) in
    (-32768 <=? v) && (v <? 32768)) (seq 0 256) = true) by (vm_compute; reflexivity).
  rewrite forallb_forall in T. specialize (T (Z.to_nat b)).
  rewrite in_seq in T. specialize (T ltac:(lia)).
  rewrite Z2Nat.id in T by lia. cbv zeta in T. lia.
Qed.

(* The info struct describes a supported format; [wide] tells whether samples
   are delivered in 4 bytes. *)
Definition coherent (i : wav_info) (wide : bool) : Prop :=
  1 <= num_channels i /\ 0 <= remaining_samples i < 2 ^ 32 /\
  match enc i with
  | Pcm16 => bit_depth i = 16 /\ dest_align i = (if wide then 4 else 2)
  | Pcm24 => bit_depth i = 24 /\ dest_align i = 4
  | MuLaw => bit_depth i = 8 /\ dest_align i = (if wide then 4 else 2)
  | IeeeFloat32 => bit_depth i = 32 /\ dest_align i = 4
  | IeeeFloat64 => bit_depth i = 64 /\ dest_align i = 4
  end.

Lemma to_int32_small z : - 2 ^ 31 <= z < 2 ^ 31 -> to_int32 z = z.
Proof. intros. unfold to_int32. rewrite Z.mod_small by lia. lia. Qed.

Lemma to_int32_add z k : to_int32 (z + k * 2 ^ 32) = to_int32 z.
Proof.
  unfold to_int32. change 4294967296 with (2 ^ 32).
  replace (z + k * 2 ^ 32 + 2147483648) with (z + 2147483648 + k * 2 ^ 32) by lia.
  now rewrite Z.mod_add by lia.
Qed.

Lemma split_firstn n (l : list Z) : (n <= length l)%nat ->
  length (firstn n l) = n /\ l = firstn n l ++ skipn n l.
Proof. intros. split; [now apply firstn_length_le|]. symmetry. apply firstn_skipn. Qed.

Lemma read_uint8_app b r rest : r_rest r = b :: rest ->
  read_uint8 junk r = Ok (b, {| r_rest := rest; r_err := r_err r; r_log := r_log r |}).
Proof.
  intros E. unfold read_uint8. rewrite read_check_ok.
  2:{ rewrite uninit_length, E. cbn. lia. }
  rewrite uninit_length, E. reflexivity.
Qed.

Lemma twos_union bits v : twos bits v = union_signed bits v.
Proof. reflexivity. Qed.

End R0.

Section R.
Context (junk : nat -> Z) (f64 : Z -> Z).

Lemma read_float64_app b r rest : length b = 8%nat -> Forall is_byte b -> r_rest r = b ++ rest ->
  read_float64 junk f64 r = Ok (f64 (le_value b),
    {| r_rest := rest; r_err := r_err r; r_log := r_log r |}).
Proof.
  intros L F E. unfold read_float64.
  rewrite read_check_ok.
  2:{ rewrite uninit_length, E, app_length. lia. }
  rewrite uninit_length. cbn [r_rest].
  destruct (le_read_val 8 le_read_u64) as [R _]; [tauto|].
  rewrite E.
  replace (firstn 8 (b ++ rest)) with b by (rewrite <- L; symmetry; apply firstn_app_exact).
  replace (skipn 8 (b ++ rest)) with rest by (rewrite <- L; symmetry; apply skipn_app_exact).
  specialize (R b [] L F). rewrite app_nil_r in R. unfold le_read_f64. rewrite R.
  reflexivity.
Qed.

Lemma read_sample_ok i wide r : coherent i wide -> Forall is_byte (r_rest r) ->
  (width (enc i) <= length (r_rest r))%nat ->
  read_sample junk f64 i r = Ok (sample_value f64 (enc i) wide (firstn (width (enc i)) (r_rest r)),
    {| r_rest := skipn (width (enc i)) (r_rest r); r_err := r_err r; r_log := r_log r |}).
Proof.
  intros (_ & _ & C) F L. unfold read_sample, sample_value.
  destruct (split_firstn _ _ L) as [LF EQ].
  pose proof (Forall_firstn' _ (width (enc i)) _ F) as FF.
  destruct (enc i); cbn [width] in *; destruct C as [-> ->].
  - (* pcm16 *)
    change (Z.quot 16 8) with 2.
    rewrite (read_uint16_app junk (firstn 2 (r_rest r)) r (skipn 2 (r_rest r))) by auto.
    assert (HV : 0 <= le_value (firstn 2 (r_rest r)) < 65536).
    { change le_value with value256. pose proof (value256_range _ FF) as H. rewrite LF in H. exact H. }
    destruct wide; cbn [Z.eqb Pos.eqb obind]; f_equal; f_equal.
    + rewrite Z.shiftl_mul_pow2 by lia. unfold twos. destruct (Z.ltb_spec (le_value (firstn 2 (r_rest r))) (2 ^ (16 - 1))).
      * rewrite to_int32_small by lia. lia.
      * replace (le_value (firstn 2 (r_rest r)) * 2 ^ 16) with (65536 * (le_value (firstn 2 (r_rest r)) - 2 ^ 16) + 1 * 2 ^ 32) by lia.
        rewrite to_int32_add, to_int32_small by lia. reflexivity.
    + rewrite <- twos_union. lia.
  - (* pcm24 *)
    change (Z.quot 24 8) with 3. cbn [Z.eqb Pos.eqb].
    unfold read_3bytes. rewrite read_check_ok by (now rewrite uninit_length).
    rewrite uninit_length.
    destruct (firstn 3 (r_rest r)) as [|b0 [|b1 [|b2 [|]]]] eqn:EB; try discriminate LF.
    cbn [obind]. f_equal. f_equal.
    inversion FF as [|? ? H0 FF1]; subst. inversion FF1 as [|? ? H1 FF2]; subst.
    inversion FF2 as [|? ? H2 FF3]; subst. unfold is_byte in *.
    cbn [le_value].
    rewrite (Z.shiftl_mul_pow2 b0) by lia.
    rewrite (lor_shift _ b1 16) by lia. rewrite (lor_shift _ b2 24) by lia.
    unfold twos. destruct (Z.ltb_spec (b0 + 256 * (b1 + 256 * (b2 + 256 * 0))) (2 ^ (24 - 1))).
    + rewrite to_int32_small by lia. lia.
    + replace (b0 * 2 ^ 8 + b1 * 2 ^ 16 + b2 * 2 ^ 24) with
        (256 * (b0 + 256 * (b1 + 256 * (b2 + 256 * 0)) - 2 ^ 24) + 1 * 2 ^ 32) by lia.
      rewrite to_int32_add, to_int32_small by lia. reflexivity.
  - (* mulaw *)
    change (Z.quot 8 8) with 1.
    destruct (r_rest r) as [|b rest] eqn:ER; [cbn in L; lia|].
    cbn [firstn skipn] in *. inversion FF as [|? ? H0 _]; subst.
    assert (EM : read_mulaw junk r = Ok (mulaw_value b, {| r_rest := rest; r_err := r_err r; r_log := r_log r |})).
    { unfold read_mulaw. rewrite (read_uint8_app junk b r rest ER). cbn [obind].
      now rewrite mulaw_table_spec. }
    cbn [le_value]. replace (b + 256 * 0) with b by lia.
    destruct wide; cbn [Z.eqb Pos.eqb]; rewrite EM; cbn [obind]; f_equal; f_equal.
    + rewrite Z.shiftl_mul_pow2 by lia. pose proof (mulaw_value_range b H0).
      rewrite to_int32_small by lia. lia.
    + lia.
  - (* f32 *)
    change (Z.quot 32 8) with 4. cbn [Z.eqb Pos.eqb].
    now rewrite (read_uint32_app junk (firstn 4 (r_rest r)) r (skipn 4 (r_rest r))) by auto.
  - (* f64 *)
    change (Z.quot 64 8) with 8. cbn [Z.eqb Pos.eqb].
    now rewrite (read_float64_app (firstn 8 (r_rest r)) r (skipn 8 (r_rest r))) by auto.
Qed.
Lemma read_check_err old r buf r' : read_check old r = (buf, r') ->
  (length (r_rest r) < length old)%nat -> r_err r' = true.
Proof. intros H L. rewrite read_check_short in H by auto. now injection H as _ <-. Qed.

Lemma read_sample_short i wide r : coherent i wide -> Forall is_byte (r_rest r) ->
  (length (r_rest r) < width (enc i))%nat ->
  exists v r', read_sample junk f64 i r = Ok (v, r') /\ r_err r' = true.
Proof.
  intros (_ & _ & C) F L. unfold read_sample.
  assert (H16 : (length (r_rest r) < 2)%nat -> exists v r', read_uint16 junk r = Ok (v, r') /\ r_err r' = true).
  { intros Hl. destruct (read_uint16_total junk r F) as (v & r' & E & _ & _ & _ & _ & X).
    exists v, r'. split; [exact E|]. destruct (r_err r'); auto. destruct X as [_ X]; auto. lia. }
  assert (H32 : (length (r_rest r) < 4)%nat -> exists v r', read_uint32 junk r = Ok (v, r') /\ r_err r' = true).
  { intros Hl. destruct (read_uint32_total junk r F) as (v & r' & E & _ & _ & _ & _ & X).
    exists v, r'. split; [exact E|]. destruct (r_err r'); auto. destruct X as (_ & X & _); auto. lia. }
  destruct (enc i); cbn [width] in L; destruct C as [-> ->].
  - change (Z.quot 16 8) with 2. destruct (H16 L) as (v & r' & E & X).
    destruct wide; cbn [Z.eqb Pos.eqb]; rewrite E; cbn [obind]; eauto.
  - change (Z.quot 24 8) with 3. cbn [Z.eqb Pos.eqb]. unfold read_3bytes.
    destruct (read_check (uninit junk 3) r) as [buf r'] eqn:E.
    pose proof (read_check_err _ _ _ _ E) as X. rewrite uninit_length in X.
    apply read_check_gen in E. destruct E as (LB & _). rewrite uninit_length in LB.
    destruct buf as [|b0 [|b1 [|b2 buf]]]; try discriminate LB.
    cbn [obind]. eauto.
  - change (Z.quot 8 8) with 1.
    assert (HM : exists v r', read_mulaw junk r = Ok (v, r') /\ r_err r' = true).
    { unfold read_mulaw, read_uint8.
      destruct (read_check (uninit junk 1) r) as [buf r'] eqn:E.
      pose proof (read_check_err _ _ _ _ E) as X. rewrite uninit_length in X.
      apply read_check_gen in E. rewrite uninit_length in E. destruct E as (LB & FB & _).
      specialize (FB (uninit_bytes junk 1) F).
      destruct buf as [|b buf]; [discriminate LB|].
      inversion FB; subst. cbn [obind]. rewrite mulaw_table_spec by auto. eauto. }
    destruct HM as (v & r' & E & X).
    destruct wide; cbn [Z.eqb Pos.eqb]; rewrite E; cbn [obind]; eauto.
  - change (Z.quot 32 8) with 4. cbn [Z.eqb Pos.eqb]. auto.
  - change (Z.quot 64 8) with 8. cbn [Z.eqb Pos.eqb].
    unfold read_float64.
    destruct (read_check (uninit junk 8) r) as [buf r'] eqn:E.
    pose proof (read_check_err _ _ _ _ E) as X. rewrite uninit_length in X.
    apply read_check_gen in E. rewrite uninit_length in E. destruct E as (LB & FB & _).
    specialize (FB (uninit_bytes junk 8) F).
    destruct (le_read_val 8 le_read_u64) as [R _]; [tauto|].
    specialize (R buf [] LB FB). rewrite app_nil_r in R. unfold le_read_f64. rewrite R.
    cbn [obind]. eauto.
Qed.

Lemma width_pos e : (0 < width e)%nat.
Proof. destruct e; cbn; lia. Qed.

Lemma decode_short e wide l : (length l < width e)%nat -> decode f64 e wide l = [].
Proof. intros H. unfold decode. now rewrite Nat.div_small by auto. Qed.

Lemma decode_cons e wide l : (width e <= length l)%nat ->
  decode f64 e wide l = sample_value f64 e wide (firstn (width e) l) :: decode f64 e wide (skipn (width e) l).
Proof.
  intros H. unfold decode. pose proof (width_pos e) as W.
  replace (length l / width e)%nat with (S (length (skipn (width e) l) / width e)).
  - reflexivity.
  - rewrite skipn_length.
    replace (length l) with (length l - width e + 1 * width e)%nat at 2 by lia.
    rewrite Nat.div_add by lia. lia.
Qed.

Lemma decode_length e wide l : length (decode f64 e wide l) = (length l / width e)%nat.
Proof. unfold decode. now rewrite map_length, groups_length. Qed.

Lemma sample_loop_spec i wide n r : coherent i wide -> Forall is_byte (r_rest r) ->
  r_err r = false ->
  let D := decode f64 (enc i) wide (r_rest r) in
  if (n <=? length D)%nat then
    sample_loop junk f64 n i r = Ok (firstn n D,
      {| r_rest := skipn (n * width (enc i)) (r_rest r); r_err := false; r_log := r_log r |}, false)
  else exists r', sample_loop junk f64 n i r = Ok (D, r', true).
Proof.
  intros C. revert r. induction n as [|n IH]; intros r F E D.
  - cbn [Nat.leb sample_loop firstn Nat.mul skipn]. destruct r; cbn in *. now subst.
  - destruct (Nat.le_gt_cases (width (enc i)) (length (r_rest r))) as [L|L].
    + subst D. rewrite (decode_cons _ _ _ L). cbn [length Nat.leb].
      cbn [sample_loop]. rewrite (read_sample_ok i wide r C F L). cbn [obind].
      cbn [r_err]. rewrite E.
      specialize (IH {| r_rest := skipn (width (enc i)) (r_rest r); r_err := r_err r; r_log := r_log r |}).
      cbn [r_rest r_err r_log] in IH.
      specialize (IH (Forall_skipn' _ _ _ F) E). cbv zeta in IH. rewrite E in IH.
      destruct (n <=? length (decode f64 (enc i) wide (skipn (width (enc i)) (r_rest r))))%nat.
      * rewrite IH. cbn [obind firstn]. f_equal. f_equal. f_equal. f_equal.
        rewrite skipn_skipn'. f_equal.
      * destruct IH as (r' & ->). cbn [obind]. eauto.
    + subst D. rewrite (decode_short _ _ _ L). cbn [length Nat.leb].
      cbn [sample_loop].
      destruct (read_sample_short i wide r C F L) as (v & r' & EE & X).
      rewrite EE. cbn [obind]. rewrite X. eauto.
Qed.

Lemma floor_to_le ch n : (floor_to ch n <= n)%nat.
Proof.
  unfold floor_to. destruct ch; [lia|]. pose proof (Nat.div_mod n (S ch)). nia.
Qed.

Lemma floor_to_mono ch a b : (a <= b)%nat -> (floor_to ch a <= floor_to ch b)%nat.
Proof.
  intros H. unfold floor_to. destruct ch; [lia|].
  apply Nat.mul_le_mono_r. apply Nat.div_le_mono; lia.
Qed.

Lemma floor_to_min ch a b : (0 < ch)%nat -> floor_to ch (min a b) = min (floor_to ch a) (floor_to ch b).
Proof.
  intros H. destruct (Nat.le_gt_cases a b) as [L|L].
  - rewrite (Nat.min_l a b) by lia. pose proof (floor_to_mono ch a b L). lia.
  - rewrite (Nat.min_r a b) by lia. pose proof (floor_to_mono ch b a). lia.
Qed.

Lemma floor_to_sub ch a k : (0 < ch)%nat -> (floor_to ch k <= a)%nat ->
  floor_to ch (a - floor_to ch k) = (floor_to ch a - floor_to ch k)%nat.
Proof.
  intros H L. unfold floor_to in *.
  set (q := (k / ch)%nat) in *.
  assert (E : (a / ch = (a - q * ch) / ch + q)%nat).
  { rewrite <- Nat.div_add by lia. f_equal. lia. }
  rewrite E, Nat.mul_add_distr_r. symmetry. apply Nat.add_sub.
Qed.

Lemma floor_to_Z ch n : 0 < ch -> 0 <= n ->
  Z.to_nat (n - n mod ch) = floor_to (Z.to_nat ch) (Z.to_nat n).
Proof.
  intros Hc Hn. unfold floor_to.
  rewrite <- Z2Nat.inj_div by lia.
  pose proof (Z.div_pos n ch Hn Hc).
  rewrite <- Z2Nat.inj_mul by lia.
  f_equal. pose proof (Z.div_mod n ch). lia.
Qed.

(* Deliverable samples after skipping k of them. *)
Lemma decode_skipn e wide k l :
  decode f64 e wide (skipn (k * width e) l) = skipn k (decode f64 e wide l).
Proof.
  revert l. induction k as [|k IH]; intros l; [reflexivity|].
  replace (S k * width e)%nat with (width e + k * width e)%nat by lia.
  destruct (Nat.le_gt_cases (width e) (length l)) as [L|L].
  - rewrite (decode_cons e wide l L). cbn [skipn].
    rewrite <- IH. rewrite skipn_skipn'. f_equal.
  - rewrite (decode_short e wide l L). rewrite skipn_all2 by lia.
    rewrite decode_short; [now destruct k|]. cbn. apply width_pos.
Qed.

Ltac rb H := apply read_check_gen in H; decompose [and] H; clear H; auto.
Lemma read_uint8_bytes r v r' : Forall is_byte (r_rest r) -> read_uint8 junk r = Ok (v, r') -> Forall is_byte (r_rest r').
Proof.
  intros F. unfold read_uint8. destruct (read_check (uninit junk 1) r) as [[|b bs] q] eqn:E; [discriminate|].
  intros H. injection H as <- <-. rb E.
Qed.
Lemma read_mulaw_bytes r v r' : Forall is_byte (r_rest r) -> read_mulaw junk r = Ok (v, r') -> Forall is_byte (r_rest r').
Proof.
  intros F. unfold read_mulaw. destruct (read_uint8 junk r) as [[b q]| |] eqn:E; try discriminate.
  cbn [obind]. destruct (nth_error mulaw_table (Z.to_nat b)); [|discriminate].
  intros H. injection H as <- <-. eapply read_uint8_bytes; eauto.
Qed.
Lemma read_uint16_bytes r v r' : Forall is_byte (r_rest r) -> read_uint16 junk r = Ok (v, r') -> Forall is_byte (r_rest r').
Proof.
  intros F. unfold read_uint16. destruct (read_check (uninit junk 2) r) as [bs q] eqn:E.
  destruct (le_read_u16 bs); try discriminate. cbn [obind].
  intros H. injection H as <- <-. rb E.
Qed.
Lemma read_uint32_bytes r v r' : Forall is_byte (r_rest r) -> read_uint32 junk r = Ok (v, r') -> Forall is_byte (r_rest r').
Proof.
  intros F. unfold read_uint32. destruct (read_check (uninit junk 4) r) as [bs q] eqn:E.
  destruct (le_read_u32 bs); try discriminate. cbn [obind].
  intros H. injection H as <- <-. rb E.
Qed.
Lemma read_float64_bytes r v r' : Forall is_byte (r_rest r) -> read_float64 junk f64 r = Ok (v, r') -> Forall is_byte (r_rest r').
Proof.
  intros F. unfold read_float64. destruct (read_check (uninit junk 8) r) as [bs q] eqn:E.
  destruct (le_read_f64 bs); try discriminate. cbn [obind].
  intros H. injection H as <- <-. rb E.
Qed.
Lemma read_3bytes_bytes r v r' : Forall is_byte (r_rest r) -> read_3bytes junk r = Ok (v, r') -> Forall is_byte (r_rest r').
Proof.
  intros F. unfold read_3bytes. destruct (read_check (uninit junk 3) r) as [[|b0 [|b1 [|b2 bs]]] q] eqn:E; try discriminate.
  intros H. injection H as <- <-. rb E.
Qed.
Lemma read_sample_bytes i r v r' : Forall is_byte (r_rest r) -> read_sample junk f64 i r = Ok (v, r') -> Forall is_byte (r_rest r').
Proof.
  intros F. unfold read_sample.
  assert (M : forall (m : outcome (Z * reader)) (f : Z -> Z),
     (forall v r', m = Ok (v, r') -> Forall is_byte (r_rest r')) ->
     obind m (fun z => let '(v, r) := z in Ok (f v, r)) = Ok (v, r') -> Forall is_byte (r_rest r')).
  { intros m f Hm E. destruct m as [[v0 r0]| |]; try discriminate. cbn [obind] in E.
    injection E as <- <-. eauto. }
  repeat match goal with |- context [if ?c then _ else _] => destruct c end; try discriminate; intros H.
  - eapply read_mulaw_bytes; eauto.
  - eapply (M _ (union_signed 16)); [|exact H]. intros; eapply read_uint16_bytes; eauto.
  - eapply (M _ (fun v => to_int32 (Z.shiftl v 16))); [|exact H]. intros; eapply read_mulaw_bytes; eauto.
  - eapply (M _ (fun v => to_int32 (Z.shiftl v 16))); [|exact H]. intros; eapply read_uint16_bytes; eauto.
  - eapply (M _ to_int32); [|exact H]. intros; eapply read_3bytes_bytes; eauto.
  - eapply read_uint32_bytes; eauto.
  - eapply read_float64_bytes; eauto.
Qed.

Definition avail (i : wav_info) (wide : bool) (r : reader) : list Z :=
  deliverable f64 (enc i) wide (Z.to_nat (num_channels i)) (Z.to_nat (remaining_samples i)) (r_rest r).

Lemma firstn_min {A} a b (l : list A) : firstn a (firstn b l) = firstn (min a b) l.
Proof. apply firstn_firstn. Qed.

Lemma read_samples_spec i wide r n : coherent i wide -> Forall is_byte (r_rest r) ->
  exists r' i',
    read_samples junk f64 r i (Z.of_nat n) =
      Ok (firstn (floor_to (Z.to_nat (num_channels i)) n) (avail i wide r), r', i') /\
    coherent i' wide /\ Forall is_byte (r_rest r') /\
    num_channels i' = num_channels i /\ enc i' = enc i /\
    avail i' wide r' = skipn (floor_to (Z.to_nat (num_channels i)) n) (avail i wide r) /\
    (Z.of_nat (length (decode f64 (enc i) wide (r_rest r))) >= remaining_samples i ->
     remaining_samples i' = remaining_samples i -
        Z.of_nat (length (firstn (floor_to (Z.to_nat (num_channels i)) n) (avail i wide r))) /\
     Z.of_nat (length (decode f64 (enc i) wide (r_rest r'))) >= remaining_samples i').
Proof.
  intros C F. pose proof C as (HC & HR & HE).
  set (ch := Z.to_nat (num_channels i)). assert (Hch : (0 < ch)%nat) by lia.
  assert (HD : dest_align i = 2 \/ dest_align i = 4).
  { destruct (enc i); destruct HE as [_ ->]; destruct wide; auto. }
  unfold read_samples.
  replace (negb (dest_align i =? 2) && negb (dest_align i =? 4)) with false by lia.
  set (D := decode f64 (enc i) wide (r_rest r)).
  set (rem := Z.to_nat (remaining_samples i)).
  destruct ((remaining_samples i <? num_channels i) || (Z.of_nat n <=? 0)) eqn:E0.
  - (* nothing to do *)
    exists r, i. assert (EA : firstn (floor_to ch n) (avail i wide r) = [] /\
      skipn (floor_to ch n) (avail i wide r) = avail i wide r).
    { apply orb_true_iff in E0. destruct E0 as [E0|E0].
      - unfold avail, deliverable. fold D. fold ch. fold rem.
        replace (floor_to ch (min rem (length D))) with 0%nat.
        + cbn [firstn]. now rewrite firstn_nil, skipn_nil.
        + unfold floor_to. rewrite Nat.div_small; [lia|]. lia.
      - replace n with 0%nat by lia. replace (floor_to ch 0) with 0%nat. cbn. auto.
        unfold floor_to. rewrite Nat.div_0_l by lia. reflexivity. }
    destruct EA as [E1 E2]. rewrite E1, E2.
    split; [reflexivity|]. repeat split; auto; cbn [length]; lia.
  - apply orb_false_iff in E0. destruct E0 as [E0 E0'].
    replace (num_channels i =? 0) with false by lia. cbn [negb oguard].
    set (m := if Z.of_nat n <? remaining_samples i then Z.of_nat n else remaining_samples i).
    assert (Hm : m = Z.of_nat (min n rem)) by (subst m; destruct (Z.ltb_spec (Z.of_nat n) (remaining_samples i)); lia).
    pose proof (Z.mod_pos_bound m (num_channels i)) as HMB.
    assert (Hmle : m - m mod num_channels i <= m) by lia.
    replace (SIZE_MAX / dest_align i <? m - m mod num_channels i) with false.
    2:{ assert (m < 2 ^ 32) by lia.
        destruct HD as [-> | ->]; unfold SIZE_MAX.
        change ((2 ^ 64 - 1) / 2) with 9223372036854775807. lia.
        change ((2 ^ 64 - 1) / 4) with 4611686018427387903. lia. }
    rewrite floor_to_Z by lia. fold ch.
    replace (Z.to_nat m) with (min n rem) by lia.
    set (k := floor_to ch (min n rem)).
    pose proof (sample_loop_spec i wide k {| r_rest := r_rest r; r_err := false; r_log := r_log r |} C F eq_refl) as SL.
    cbv zeta in SL. cbn [r_rest r_err r_log] in SL. fold D in SL.
    assert (Ek : k = min (floor_to ch n) (floor_to ch rem)) by (apply floor_to_min; auto).
    destruct (Nat.leb_spec k (length D)) as [LD|LD].
    + (* not truncated *)
      rewrite SL. cbn [obind].
      eexists _, _. split.
      { f_equal. f_equal. f_equal.
        unfold avail, deliverable. fold D. fold ch. fold rem.
        rewrite firstn_min. f_equal.
        rewrite (floor_to_min ch rem) by auto.
        assert (floor_to ch k <= floor_to ch (length D))%nat by (apply floor_to_mono; auto).
        assert (floor_to ch k = k).
        { unfold k, floor_to. rewrite Nat.div_mul by lia. reflexivity. }
        lia. }
      pose proof (floor_to_le ch rem). pose proof (floor_to_le ch n).
      pose proof (floor_to_le ch (min n rem)). fold k in H1.
      assert (HmZ : m - m mod num_channels i = Z.of_nat k).
      { unfold k. replace (min n rem) with (Z.to_nat m) by lia. subst ch. rewrite <- floor_to_Z by lia.
        rewrite Z2Nat.id by (pose proof (Z.mod_le m (num_channels i)); lia). reflexivity. }
      assert (Fk : floor_to ch k = k).
      { unfold k, floor_to. rewrite Nat.div_mul by lia. reflexivity. }
      assert (HLD : (floor_to ch k <= floor_to ch (length D))%nat) by (apply floor_to_mono; auto).
      cbn [set_remaining num_channels enc remaining_samples r_rest].
      split.
      { unfold coherent, set_remaining; cbn. split; [lia|]. split; [lia|]. exact HE. }
      split; [now apply Forall_skipn'|].
      split; [reflexivity|]. split; [reflexivity|].
      assert (HAV : avail i wide r = firstn (floor_to ch (min rem (length D))) D) by reflexivity.
      split.
      * rewrite HAV. unfold avail, deliverable. cbn [set_remaining num_channels enc remaining_samples r_rest].
        fold ch. rewrite decode_skipn. fold D.
        rewrite HmZ. replace (Z.to_nat (remaining_samples i - Z.of_nat k)) with (rem - k)%nat by lia.
        rewrite skipn_length.
        replace (min (rem - k) (length D - k)) with (min rem (length D) - k)%nat by lia.
        rewrite <- Fk at 1. rewrite floor_to_sub by (auto; lia). rewrite Fk.
        rewrite skipn_firstn_comm.
        (* compare skipping k and skipping floor n *)
        assert (HN : k = floor_to ch n \/ (k = floor_to ch rem /\ k <= floor_to ch n)%nat) by lia.
        destruct HN as [<-|[HN HN2]]; [reflexivity|].
        rewrite (floor_to_min ch rem) by auto.
        replace (min (floor_to ch rem) (floor_to ch (length D)) - k)%nat with 0%nat by lia.
        replace (min (floor_to ch rem) (floor_to ch (length D)) - floor_to ch n)%nat with 0%nat by lia.
        reflexivity.
      * intros HG. rewrite decode_skipn. fold D. rewrite skipn_length.
        replace (length (firstn (floor_to ch n) (avail i wide r))) with k.
        { fold D in HG. lia. }
        rewrite HAV, firstn_min, firstn_length.
        rewrite (floor_to_min ch rem) by auto. lia.
    + (* truncated *)
      destruct SL as (r' & SL). rewrite SL. cbn [obind].
      pose proof (floor_to_le ch (min n rem)). fold k in H.
      assert (HA : avail i wide r = firstn (floor_to ch (length D)) D).
      { unfold avail, deliverable. fold D. fold ch. fold rem. f_equal. f_equal. lia. }
      assert (HL : (floor_to ch (length D) <= floor_to ch n)%nat) by (apply floor_to_mono; lia).
      eexists _, _. split.
      { f_equal. f_equal. f_equal.
        rewrite HA, firstn_min.
        rewrite floor_to_Z by lia. rewrite Nat2Z.id. fold ch.
        rewrite Nat.min_r by lia. reflexivity. }
      split.
      { unfold coherent, set_remaining; cbn. split; [lia|]. split; [lia|]. exact HE. }
      assert (Forall is_byte (r_rest r')).
      { clear - SL F C. (* bytes are only consumed *)
        revert SL. generalize (r_log r). intros lg.
        assert (G : forall k rr vs r' b, Forall is_byte (r_rest rr) ->
          sample_loop junk f64 k i rr = Ok (vs, r', b) -> Forall is_byte (r_rest r')).
        { induction k0 as [|k0 IH]; intros rr vs r1 b0 Fr H; cbn [sample_loop] in H.
          - injection H as <- <- <-. auto.
          - destruct (read_sample junk f64 i rr) as [[v r2]| |] eqn:ES; try discriminate.
            cbn [obind] in H.
            assert (F2 : Forall is_byte (r_rest r2)).
            { destruct (Nat.le_gt_cases (width (enc i)) (length (r_rest rr))) as [L|L].
              - rewrite (read_sample_ok i wide rr C Fr L) in ES. injection ES as <- <-.
                now apply Forall_skipn'.
              - eapply read_sample_bytes; eauto. }
            destruct (r_err r2).
            + injection H as <- <- <-. auto.
            + destruct (sample_loop junk f64 k0 i r2) as [[[vs2 r3] e]| |] eqn:E2; try discriminate.
              cbn [obind] in H. injection H as <- <- <-. eapply IH; eauto. }
        eapply G; eauto. }
      split; [assumption|]. split; [reflexivity|]. split; [reflexivity|].
      split.
      * rewrite HA. rewrite skipn_all2.
        { unfold avail, deliverable. cbn [set_remaining remaining_samples].
          change (Z.to_nat 0) with 0%nat. cbn [Nat.min]. unfold floor_to.
          rewrite Nat.div_0_l by (cbn; lia). reflexivity. }
        rewrite firstn_length. pose proof (floor_to_le ch (length D)). lia.
      * intros HG. fold D in HG. exfalso. lia.
Qed.
End R.
