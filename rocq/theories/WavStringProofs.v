From Coq Require Import ZArith QArith List Lia Bool.
From Verif Require Import Common CInt ListLemmas NumberUtilProofs SerializeModel SerializeSpec WavModel WavSpec WavProofs
  WavHeaderProofs WavFileProofs WavWriteProofs WavStringModel WavStringSpec.
Import ListNotations.
Local Open Scope Z_scope.

Lemma finite_sample (q : Q) : exists s, float_sample_to_int (FFin q) = Ok s /\ is_i16 s /\ quantised (FFin q) s.
Proof.
  destruct q as [n d]. unfold float_sample_to_int, fscale, cpp_min, cpp_max, fltb, cast_i16. cbn [Qnum Qden].
  rewrite !Z.mul_1_r.
  destruct (32767 * Zpos d <? n * 32768) eqn:E1; [|destruct (-32768 * Zpos d <? n * 32768) eqn:E2]; cbn [Qnum Qden];
    rewrite ?Z.mul_1_r.
  - cbn. exists 32767. split; [reflexivity|]. unfold is_i16. split; [lia|]. unfold quantised, Qle, Qlt. cbn [Qnum Qden Qopp inject_Z Qmult Z.opp].
    repeat split; intros; try lia.
  - rewrite ?E2. cbv beta iota zeta. cbn [Qnum Qden]. set (t := Z.quot (n * 32768) (Z.pos d)).
    assert (B : (0 <= n -> 0 <= t /\ t * Z.pos d <= n * 32768 < (t + 1) * Z.pos d) /\
                (n <= 0 -> t <= 0 /\ (t - 1) * Z.pos d < n * 32768 <= t * Z.pos d)).
    { pose proof (Z.quot_rem (n * 32768) (Z.pos d) ltac:(lia)) as QR. fold t in QR. split; intros H.
      - pose proof (Z.rem_bound_pos (n * 32768) (Z.pos d) ltac:(lia) ltac:(lia)) as RB.
        assert (0 <= t) as QP by (apply Z.quot_pos; lia).
        set (r := Z.rem _ _) in *. clearbody r t. clear - QR RB QP. split; [exact QP|]. lia.
      - pose proof (Z.rem_bound_pos_neg (n * 32768) (Z.pos d) ltac:(lia) ltac:(lia)) as RB.
        set (r := Z.rem _ _) in *. clearbody r t. clear - QR RB H. split; [|lia]. enough (t < 1) by lia. nia. }
    assert (R : -32768 <= t <= 32767).
    { destruct B as [B1 B2]. destruct (Z.le_ge_cases 0 n) as [H|H]; [specialize (B1 H); clear B2|specialize (B2 H); clear B1]; nia. }
    destruct ((-32768 <=? t) && (t <=? 32767)) eqn:E3; [|lia].
    exists t. split; [reflexivity|]. split; [unfold is_i16; lia|].
    unfold quantised, Qle, Qlt. cbn [Qnum Qden inject_Z Qmult]. change (Qnum (-1)%Q) with (-1). change (Qden (-1)%Q) with 1%positive.
    change (Qnum 0%Q) with 0. change (Qden 0%Q) with 1%positive. change (Qnum (32768)%Q) with 32768. change (Qden 32768%Q) with 1%positive.
    rewrite !Pos.mul_1_r, !Z.mul_1_r. destruct B as [B1 B2]. rewrite ?Z.mul_0_l.
    split; [|split; [|split]].
    + intros H. assert (n >= 0) by nia. specialize (B1 ltac:(lia)). nia.
    + intros H. specialize (B2 ltac:(lia)). nia.
    + intros [H1 H2]. specialize (B1 ltac:(lia)). lia.
    + intros [H1 H2]. specialize (B2 ltac:(lia)). lia.
  - rewrite ?E2. cbv beta iota zeta. exists (-32768). split; [reflexivity|]. unfold is_i16. split; [lia|].
    unfold quantised, Qle, Qlt; cbn [Qnum Qden Qopp inject_Z Qmult Z.opp]; repeat split; intros; try lia.
Qed.

Definition not_nan (x : fval) : Prop := match x with FNaN => False | _ => True end.

Lemma sample_ok x : not_nan x -> exists s, float_sample_to_int x = Ok s /\ is_i16 s /\ quantised x s.
Proof.
  destruct x as [q| | |]; intros N.
  - apply finite_sample.
  - exists 32767. repeat split; cbn; unfold is_i16; lia.
  - exists (-32768). repeat split; cbn; unfold is_i16; lia.
  - destruct N.
Qed.

Lemma samples_ok samples : Forall not_nan samples -> exists ints,
  Forall2 (fun x s => float_sample_to_int x = Ok s) samples ints /\
  Forall is_i16 ints /\ Forall2 quantised samples ints.
Proof.
  induction 1 as [|x l N _ (ints & A & B & D)].
  - exists []. repeat split; constructor.
  - destruct (sample_ok x N) as (s & E & I & Q). exists (s :: ints). repeat split; now constructor.
Qed.

Lemma block_ok n : forall input ints output,
  Forall2 (fun x s => float_sample_to_int x = Ok s) input ints ->
  (n <= length ints)%nat -> (n <= length output)%nat ->
  float_samples_to_int n input output = Ok (firstn n ints ++ skipn n output).
Proof.
  induction n as [|n IH]; intros input ints output F L1 L2; [now destruct input|].
  destruct F as [|x s input ints E F]; [cbn in L1; lia|].
  destruct output as [|o output]; [cbn in L2; lia|].
  cbn [float_samples_to_int firstn skipn app]. rewrite E. cbn [obind].
  rewrite (IH input ints output F) by (cbn in L1, L2; lia). reflexivity.
Qed.

Lemma samples_prefix buffer n io e : Z.of_nat n <= INT_MAX -> (n <= length buffer)%nat ->
  write_wav_samples mem_write {| ww_io := io; ww_err := e |} buffer (Z.of_nat n)
  = Ok (mw (io ++ concat (map (little_endian 2) (firstn n buffer))), 1).
Proof.
  intros H L. pose proof (write_samples_mem (firstn n buffer) e io) as W.
  rewrite firstn_length_le in W by exact L. specialize (W H).
  unfold write_wav_samples in *. rewrite firstn_length_le in W by exact L.
  replace ((Z.of_nat n <=? INT_MAX) && (Z.of_nat n <=? Z.of_nat n)) with true in W by lia.
  replace ((Z.of_nat n <=? INT_MAX) && (Z.of_nat n <=? Z.of_nat (length buffer))) with true by lia.
  rewrite Nat2Z.id in *. rewrite firstn_firstn, Nat.min_id in W. exact W.
Qed.

Lemma Forall2_len {A B} (P : A -> B -> Prop) l m : Forall2 P l m -> length l = length m.
Proof. induction 1; cbn; congruence. Qed.

Lemma Forall2_skip {A B} (P : A -> B -> Prop) n : forall l m, Forall2 P l m -> Forall2 P (skipn n l) (skipn n m).
Proof. induction n; intros l m F; [exact F|]. destruct F; cbn; [constructor|auto]. Qed.

Lemma firstn_S_skip {A} a b (l : list A) : firstn (a + b) l = firstn a l ++ firstn b (skipn a l).
Proof. revert l; induction a; intros [|x l]; cbn; [reflexivity|reflexivity|now rewrite firstn_nil|]. now rewrite IHa. Qed.

Lemma blocks_ok samples ints io0 :
  Forall2 (fun x s => float_sample_to_int x = Ok s) samples ints ->
  forall fuel p buffer, length buffer = 512%nat -> (p <= length ints)%nat ->
  (length ints <= p + fuel)%nat ->
  exists p' buffer',
    float_blocks fuel (mw (io0 ++ concat (map (little_endian 2) (firstn p ints)))) samples
      (Z.of_nat (length ints)) (Z.of_nat p) buffer
    = Ok (mw (io0 ++ concat (map (little_endian 2) (firstn p' ints))), Z.of_nat p', buffer') /\
    length buffer' = 512%nat /\ (p' <= length ints <= p' + 512)%nat.
Proof.
  intros F. induction fuel as [|fuel IH]; intros p buffer LB LP LF; cbn [float_blocks].
  - destruct (Z.ltb_spec 512 (Z.of_nat (length ints) - Z.of_nat p)); [lia|].
    exists p, buffer. repeat split; auto; lia.
  - destruct (Z.ltb_spec 512 (Z.of_nat (length ints) - Z.of_nat p)).
    2:{ exists p, buffer. repeat split; auto; lia. }
    rewrite Nat2Z.id.
    rewrite (block_ok 512 _ (skipn p ints) buffer) by
      (try apply Forall2_skip; try rewrite skipn_length; auto; lia).
    cbn [obind].
    assert (L : length (firstn 512 (skipn p ints)) = 512%nat) by (rewrite firstn_length_le; [reflexivity|rewrite skipn_length; lia]).
    rewrite (skipn_all2 buffer) by lia. rewrite app_nil_r.
    rewrite (samples_prefix (firstn 512 (skipn p ints)) 512) by (unfold INT_MAX; lia).
    cbn [obind]. rewrite firstn_firstn, Nat.min_id, <- app_assoc, <- concat_app, <- map_app, <- firstn_S_skip.
    replace (Z.of_nat p + 512) with (Z.of_nat (p + 512)) by lia.
    apply IH; lia.
Qed.

Lemma float_string_ok samples ints ch rate :
  Forall2 (fun x s => float_sample_to_int x = Ok s) samples ints ->
  0 < ch -> 0 < rate -> ch * 2 * rate <= INT_MAX ->
  write_float_wav_to_string samples (Z.of_nat (length samples)) rate ch
  = Ok (written_file ints ch rate, 1).
Proof.
  intros F Hc Hr Ho. rewrite (Forall2_len _ _ _ F). unfold write_float_wav_to_string.
  rewrite write_header_mem by (unfold int, INT_MIN, INT_MAX in *; nia).
  cbn [obind ww_err app Z.eqb]. rewrite Nat2Z.id.
  set (hdr := wave_file _ _ _).
  destruct (blocks_ok samples ints hdr F (length ints) 0 (repeat 0 512) (repeat_length _ _) ltac:(lia) ltac:(lia))
    as (p & buffer & E & LB & LP).
  cbn [firstn map concat] in E. rewrite app_nil_r in E. change (Z.of_nat 0) with 0 in E. rewrite E. clear E.
  cbn [obind].
  assert (W : forall k : nat, k = length ints -> hdr ++ concat (map (little_endian 2) (firstn k ints)) = written_file ints ch rate).
  { intros k ->. rewrite firstn_all. reflexivity. }
  destruct (Z.eqb_spec (Z.of_nat (length ints)) (Z.of_nat p)) as [E|NE].
  - cbn [ww_io]. rewrite W by lia. reflexivity.
  - replace (Z.of_nat (length ints) - Z.of_nat p) with (Z.of_nat (length ints - p)) by lia. rewrite !Nat2Z.id.
    rewrite (block_ok _ _ (skipn p ints) buffer) by
      (try apply Forall2_skip; try rewrite skipn_length; auto; lia).
    cbn [obind]. rewrite samples_prefix.
    + cbn [obind ww_io]. rewrite firstn_app, firstn_firstn, Nat.min_id.
      rewrite firstn_length_le by (rewrite skipn_length; lia). rewrite Nat.sub_diag, firstn_O, app_nil_r.
      rewrite <- app_assoc, <- concat_app, <- map_app, <- firstn_S_skip. rewrite W by lia. reflexivity.
    + unfold INT_MAX; lia.
    + rewrite app_length, firstn_length_le by (rewrite skipn_length; lia). lia.
Qed.

Lemma quantised_unique x s t : quantised x s -> quantised x t -> s = t.
Proof.
  destruct x as [q| | |]; cbn; try congruence. intros (A1 & A2 & A3 & A4) (B1 & B2 & B3 & B4).
  destruct (Qlt_le_dec q (32767 # 32768)) as [H1|H1]; [|now rewrite A1, B1].
  destruct (Qlt_le_dec (-1) q) as [H2|H2]; [|now rewrite A2, B2].
  destruct (Qlt_le_dec q 0) as [H3|H3].
  - destruct (A4 ltac:(split; [exact H2|apply Qlt_le_weak; exact H3])) as [_ [C1 C2]].
    destruct (B4 ltac:(split; [exact H2|apply Qlt_le_weak; exact H3])) as [_ [D1 D2]].
    pose proof (Qlt_le_trans _ _ _ C1 D2) as X. pose proof (Qlt_le_trans _ _ _ D1 C2) as Y.
    rewrite <- Zlt_Qlt in X, Y. lia.
  - destruct (A3 (conj H3 H1)) as [_ [C1 C2]]. destruct (B3 (conj H3 H1)) as [_ [D1 D2]].
    pose proof (Qle_lt_trans _ _ _ C1 D2) as X. pose proof (Qle_lt_trans _ _ _ D1 C2) as Y.
    rewrite <- Zlt_Qlt in X, Y. lia.
Qed.
