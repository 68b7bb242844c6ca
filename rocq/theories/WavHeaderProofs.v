From Verif Require Import CInt ListLemmas SerializeModel SerializeSpec SerializeProofs WavModel WavSpec WavProofs.

Section SK.
Context (sk : seek_mode).

(* ---- seeking ---- *)
Lemma seek_loop_spec fuel n rest : (n <= fuel)%nat ->
  (if (n <=? length rest)%nat then seek_loop fuel n rest = (skipn n rest, false)
   else exists rest', seek_loop fuel n rest = (rest', true) /\
     (length rest' <= length rest)%nat /\ (Forall is_byte rest -> Forall is_byte rest')).
Proof.
  revert n rest. induction fuel as [|fuel IH]; intros n rest H.
  - replace n with 0%nat by lia. cbn. reflexivity.
  - cbn [seek_loop]. destruct (Nat.ltb_spec 256 n) as [L|L].
    + destruct (Nat.ltb_spec (length rest) 256) as [L2|L2].
      * replace (n <=? length rest)%nat with false by lia.
        exists []. cbn. split; auto. split; [lia|]. constructor.
      * specialize (IH (n - 256)%nat (skipn 256 rest) ltac:(lia)).
        rewrite skipn_length in IH.
        destruct (Nat.leb_spec n (length rest)).
        -- replace (n - 256 <=? length rest - 256)%nat with true in IH by lia.
           rewrite IH. rewrite skipn_skipn'. do 2 f_equal. lia.
        -- replace (n - 256 <=? length rest - 256)%nat with false in IH by lia.
           destruct IH as (rest' & E & L3 & F3). exists rest'. split; auto. split; [lia|].
           intros F. apply F3. now apply Forall_skipn'.
    + destruct (Nat.leb_spec n (length rest)).
      * f_equal. apply Nat.ltb_ge. lia.
      * exists (skipn n rest). split; [f_equal; now apply Nat.ltb_lt|].
        rewrite skipn_length. split; [lia|]. intros. now apply Forall_skipn'.
Qed.

Lemma seek_check_ok n r : 0 <= n -> (Z.to_nat n <= length (r_rest r))%nat ->
  seek_check sk n r = {| r_rest := skipn (Z.to_nat n) (r_rest r); r_err := r_err r; r_log := r_log r |}.
Proof.
  intros Hn H. unfold seek_check. destruct sk; [reflexivity|].
  pose proof (seek_loop_spec (Z.to_nat n) (Z.to_nat n) (r_rest r) ltac:(lia)) as S.
  replace (Z.to_nat n <=? length (r_rest r))%nat with true in S by lia.
  rewrite S. now rewrite orb_false_r.
Qed.

Lemma seek_check_gen n r :
  (length (r_rest (seek_check sk n r)) <= length (r_rest r))%nat /\
  (Forall is_byte (r_rest r) -> Forall is_byte (r_rest (seek_check sk n r))) /\
  (r_err (seek_check sk n r) = false -> r_err r = false).
Proof.
  unfold seek_check. destruct sk.
  - cbn. rewrite skipn_length. split; [lia|]. split; auto. intros. now apply Forall_skipn'.
  - pose proof (seek_loop_spec (Z.to_nat n) (Z.to_nat n) (r_rest r) ltac:(lia)) as S.
    destruct (Z.to_nat n <=? length (r_rest r))%nat.
    + rewrite S. cbn. rewrite skipn_length. split; [lia|]. split.
      intros. now apply Forall_skipn'. now rewrite orb_false_r.
    + destruct S as (rest' & -> & L & F). cbn. split; auto. split; auto.
      now rewrite orb_true_r.
Qed.

End SK.

Section R.
Context (sk : seek_mode) (custom : bool) (junk : nat -> Z).

(* ---- the parser never goes wrong on any byte string ---- *)
Definition good (r : reader) := Forall is_byte (r_rest r).
Definition le_r (r' r : reader) := (length (r_rest r') <= length (r_rest r))%nat /\ (r_err r' = false -> r_err r = false).

Lemma le_r_trans a b c : le_r a b -> le_r b c -> le_r a c.
Proof. unfold le_r. intuition lia. Qed.
Lemma le_r_refl a : le_r a a.
Proof. unfold le_r. auto. Qed.

Definition fmt_coherent (i : wav_info) : Prop :=
  match enc i with
  | Pcm16 => bit_depth i = 16 /\ dest_align i = 2 /\ fmt i = FInt16
  | Pcm24 => bit_depth i = 24 /\ dest_align i = 4 /\ fmt i = FInt32
  | MuLaw => bit_depth i = 8 /\ dest_align i = 2 /\ fmt i = FInt16
  | IeeeFloat32 => bit_depth i = 32 /\ dest_align i = 4 /\ fmt i = FFloat
  | IeeeFloat64 => bit_depth i = 64 /\ dest_align i = 4 /\ fmt i = FFloat
  end.
Definition info_inv (i : wav_info) : Prop :=
  num_channels i = 0 \/
  (1 <= num_channels i < 65536 /\ - 2 ^ 31 <= sample_rate_hz i < 2 ^ 31 /\ fmt_coherent i).

Lemma select_format_ok code bits i i' : select_format code bits i = (true, i') ->
  forall ch rate, fmt_coherent (set_counts i' ch rate bits) /\
  num_channels i' = num_channels i.
Proof.
  unfold select_format, fmt_coherent.
  destruct (code =? 1); [|destruct (code =? 3); [|destruct (code =? 7)]].
  - destruct (Z.eqb_spec bits 16); [intros H; injection H as <-; intros; cbn; auto|].
    destruct (Z.eqb_spec bits 24); [intros H; injection H as <-; intros; cbn; auto|]. try discriminate.
  - destruct (Z.eqb_spec bits 32); [intros H; injection H as <-; intros; cbn; auto|].
    destruct (Z.eqb_spec bits 64); [intros H; injection H as <-; intros; cbn; auto|]. try discriminate.
  - intros H; injection H as H1 <-; intros; cbn. repeat split; auto. lia.
  - try discriminate.
Qed.

Lemma to_int32_range z : - 2 ^ 31 <= to_int32 z < 2 ^ 31.
Proof. unfold to_int32. pose proof (Z.mod_pos_bound (z + 2147483648) 4294967296). lia. Qed.

Ltac step_u16 r F := let v := fresh "v" in let r' := fresh "r" in let E := fresh "E" in
  let F' := fresh "F" in let V := fresh "V" in let LG := fresh "LG" in let LE := fresh "LE" in let EE := fresh "EE" in
  destruct (read_uint16_total junk r F) as (v & r' & E & F' & V & LG & LE & EE);
  rewrite E; cbn [obind].

Lemma read_fmt_total r i size : good r -> exists b r' i',
  read_fmt_chunk sk junk r i size = Ok (b, r', i') /\ good r' /\ le_r r' r /\
  (b = true -> info_inv i').
Proof.
  intros F. unfold read_fmt_chunk.
  destruct (size <? 16). { exists false, r, i. split; auto. split; auto. split; [apply le_r_refl|discriminate]. }
  step_u16 r F. step_u16 r0 F0.
  destruct (read_uint32_total junk r1 F1) as (rate & r2 & E2 & F2 & V2 & LG2 & LE2 & EE2). rewrite E2. cbn [obind].
  destruct (seek_check_gen sk 4 r2) as (SL & SF & SE). specialize (SF F2).
  set (r3 := seek_check sk 4 r2) in *.
  step_u16 r3 SF. step_u16 r4 F3.
  assert (LE5 : le_r r5 r).
  { unfold le_r. split; [lia|]. intros X. destruct (EE3 X) as [X1 _]. destruct (EE1 X1) as [X2 _].
    apply SE in X2. destruct (EE2 X2) as (X3 & _). destruct (EE0 X3) as [X4 _]. now destruct (EE X4). }
  match goal with |- context [obind (if ?b then ?x else ?y) _] =>
    set (m := if b then x else y) end.
  assert (H : exists c r6, m = Ok (c, r6) /\ good r6 /\ le_r r6 r5).
  { subst m. destruct ((v =? 65534) && (26 <=? size)).
    - destruct (seek_check_gen sk 8 r5) as (SL' & SF' & SE'). specialize (SF' F4). cbv zeta.
      destruct (read_uint16_total junk _ SF') as (c & r7 & E7 & F7 & V7 & LG7 & LE7 & EE7).
      rewrite E7. cbn [obind].
      destruct (seek_check_gen sk (size - 26) r7) as (SL8 & SF8 & SE8).
      eexists _, _. split; [reflexivity|]. split; [now apply SF8|]. split; [lia|].
      intros X. apply SE8 in X. destruct (EE7 X) as [X1 _]. now apply SE'.
    - destruct (seek_check_gen sk (size - 16) r5) as (SL8 & SF8 & SE8).
      eexists _, _. split; [reflexivity|]. split; [now apply SF8|]. split; auto. }
  destruct H as (c & r6 & -> & G6 & LE6). cbn [obind].
  pose proof (le_r_trans _ _ _ LE6 LE5) as LL.
  destruct (r_err r6). { exists false, r6, i. split; auto. split; auto. split; auto; try discriminate. }
  destruct (Z.eqb_spec v0 0). { exists false, r6, i. split; auto. split; auto. split; auto; try discriminate. }
  destruct (select_format c v2 i) as [[|] i'] eqn:ES.
  - eexists _, _, _. split; [reflexivity|]. split; auto. split; auto. intros _. right.
    destruct (select_format_ok _ _ _ _ ES v0 (to_int32 rate)) as [FC _]. cbn [set_counts num_channels sample_rate_hz].
    split; [lia|]. split; [apply to_int32_range|exact FC].
  - exists false, r6, i'. split; auto. split; auto. split; auto; try discriminate.
Qed.

Lemma read_fact_total r i size : good r -> info_inv i -> exists b r' i',
  read_fact_chunk junk r i size = Ok (b, r', i') /\ good r' /\ le_r r' r /\
  (b = true -> info_inv i').
Proof.
  intros F HI. unfold read_fact_chunk.
  destruct (negb (size =? 4) || (num_channels i =? 0)).
  { exists false, r, i. split; auto. split; auto. split; [apply le_r_refl|discriminate]. }
  destruct (read_uint32_total junk r F) as (v & r' & E & F' & V & LG & LE & EE). rewrite E. cbn [obind].
  assert (LL : le_r r' r). { split; auto. intros X. now destruct (EE X). }
  destruct (SIZE_MAX / num_channels i <? v).
  - exists false, r', i. auto 8.
  - eexists _, _, _. split; [reflexivity|]. split; auto.
Qed.

Lemma chunk_loop_total fuel : forall id r i, good r -> Forall is_byte id -> length id = 4%nat ->
  info_inv i -> (length (r_rest r) < fuel)%nat ->
  exists b r' i', chunk_loop sk custom junk fuel id r i = Ok (b, r', i') /\ good r' /\
   (b = true -> coherent i' false /\ num_channels i' < 65536 /\ fmt_coherent i' /\
      - 2 ^ 31 <= sample_rate_hz i' < 2 ^ 31).
Proof.
  induction fuel as [|fuel IH]; intros id r i G FI LI HI LF; [lia|].
  cbn [chunk_loop].
  destruct (read_check id r) as [id' r1] eqn:E1.
  apply read_check_gen in E1. destruct E1 as (L1 & F1 & G1 & LE1 & _ & X1).
  specialize (F1 FI G). specialize (G1 G). rewrite LI in *.
  destruct (read_uint32_total junk r1 G1) as (size & r2 & E2 & G2 & V2 & _ & LE2 & X2).
  rewrite E2. cbn [obind].
  assert (P : forall r3, le_r r3 r2 -> r_err r3 = false -> (length (r_rest r3) < fuel)%nat).
  { intros r3 [A B] C. specialize (B C). destruct (X2 B) as (D & E & Eq). rewrite Eq in A.
    rewrite skipn_length in A. lia. }
  destruct (bytes_eqb id' id_fmt).
  { destruct (read_fmt_total r2 i size G2) as (b & r3 & i3 & -> & G3 & LE3 & I3). cbn [obind].
    destruct b.
    - destruct (r_err r3) eqn:ER. { eexists _, _, _. split; [reflexivity|]. split; auto; try discriminate. }
      apply IH; auto.
    - eexists _, _, _. split; [reflexivity|]. split; auto; try discriminate. }
  destruct (bytes_eqb id' id_fact).
  { destruct (read_fact_total r2 i size G2 HI) as (b & r3 & i3 & -> & G3 & LE3 & I3). cbn [obind].
    destruct b.
    - destruct (r_err r3) eqn:ER. { eexists _, _, _. split; [reflexivity|]. split; auto; try discriminate. }
      apply IH; auto.
    - eexists _, _, _. split; [reflexivity|]. split; auto; try discriminate. }
  destruct (bytes_eqb id' id_data).
  { destruct (Z.eqb_spec (num_channels i) 0) as [EN|EN].
    { eexists _, _, _. split; [reflexivity|]. split; auto; try discriminate. }
    destruct HI as [HI|(HC & HS & HF)]; [contradiction|].
    assert (HB : exists k, Z.quot (bit_depth i) 8 = k /\ 1 <= k).
    { unfold fmt_coherent in HF. destruct (enc i); destruct HF as [-> _]; eexists; split; try reflexivity; lia. }
    destruct HB as (k & -> & Hk).
    replace (k =? 0) with false by lia. cbn [negb oguard].
    eexists _, _, _. split; [reflexivity|]. split; auto. intros _.
    split; [|cbn; split; [lia|auto]].
    unfold coherent. cbn [set_remaining num_channels remaining_samples enc bit_depth dest_align].
    split; [lia|]. split.
    { split. apply Z.div_pos; lia. apply Z.le_lt_trans with size; [|lia].
      apply Z.div_le_upper_bound; nia. }
    unfold fmt_coherent in HF. destruct (enc i); destruct HF as (? & ? & ?); auto. }
  destruct custom.
  - destruct (read_check (uninit junk (Z.to_nat size)) r2) as [data r3] eqn:E3.
    apply read_check_gen in E3. destruct E3 as (L3 & F3 & G3 & LE3 & _ & X3). cbn [r_err].
    destruct (r_err r3) eqn:ER.
    { eexists _, _, _. split; [reflexivity|]. split; [now apply G3|]. try discriminate. }
    apply IH; auto; [now apply G3|].
    apply (P {| r_rest := r_rest r3; r_err := r_err r3; r_log := r_log r3 ++ [(id', data)] |}); [|exact ER].
    split; cbn; auto. intros _. now destruct (X3 eq_refl).
  - destruct (seek_check_gen sk size r2) as (SL & SF & SE).
    destruct (r_err (seek_check sk size r2)) eqn:ER.
    { eexists _, _, _. split; [reflexivity|]. split; [now apply SF|]. try discriminate. }
    apply IH; auto. now apply SF. apply P; auto. split; auto.
Qed.

Lemma header_total file i : Forall is_byte file -> forall err0 lg,
  exists b r' i', header_body sk custom junk {| r_rest := file; r_err := err0; r_log := lg |} i
     = Ok (b, r', i') /\ good r' /\
   (b = true -> coherent i' false /\ num_channels i' < 65536 /\ fmt_coherent i' /\
      - 2 ^ 31 <= sample_rate_hz i' < 2 ^ 31).
Proof.
  intros F err0 lg. unfold header_body. cbn [r_rest r_log].
  destruct (read_check (uninit junk 4) _) as [id r1] eqn:E1.
  apply read_check_gen in E1. destruct E1 as (L1 & F1 & G1 & _). cbn [r_rest] in *.
  specialize (F1 (uninit_bytes junk 4) F). specialize (G1 F). rewrite uninit_length in L1.
  destruct (bytes_eqb id id_riff); cbn [negb].
  2:{ eexists _, _, _. split; [reflexivity|]. split; auto; try discriminate. }
  destruct (seek_check_gen sk 4 r1) as (SL & SF & SE). specialize (SF G1).
  destruct (read_check id (seek_check sk 4 r1)) as [id2 r2] eqn:E2.
  apply read_check_gen in E2. destruct E2 as (L2 & F2 & G2 & _).
  specialize (F2 F1 SF). specialize (G2 SF).
  destruct (bytes_eqb id2 id_wave); cbn [negb].
  2:{ eexists _, _, _. split; [reflexivity|]. split; auto; try discriminate. }
  destruct (r_err r2).
  { eexists _, _, _. split; [reflexivity|]. split; auto; try discriminate. }
  apply chunk_loop_total; auto. lia. left. reflexivity.
Qed.
End R.

Section S.
Context (junk : nat -> Z) (f64 : Z -> Z).
(* ---- serving a list of requests ---- *)
Lemma serve_run i wide r reqs : coherent i wide -> Forall is_byte (r_rest r) ->
  exists s', run (read_step f64 junk) (r, i) reqs
    = Ok (s', serve (Z.to_nat (num_channels i)) (avail f64 i wide r) reqs) /\
    (Z.of_nat (length (decode f64 (enc i) wide (r_rest r))) >= remaining_samples i ->
     remaining_samples (snd s') = remaining_samples i -
       Z.of_nat (length (concat (serve (Z.to_nat (num_channels i)) (avail f64 i wide r) reqs)))).
Proof.
  revert r i. induction reqs as [|n reqs IH]; intros r i C F.
  - exists (r, i). split; [reflexivity|]. cbn. lia.
  - destruct (read_samples_spec junk f64 i wide r n C F) as (r' & i' & E & C' & F' & EC & EE & EA & ER).
    destruct (IH r' i' C' F') as (s' & RS & RR). exists s'.
    cbn [run serve]. unfold read_step at 1. cbn [fst snd]. rewrite E. cbn [omap obind fst snd].
    rewrite RS. cbn [obind fst snd]. rewrite EC, EA. split; [reflexivity|].
    intros HG. destruct (ER HG) as [E1 E2]. rewrite <- EE in E2.
    rewrite RR by exact E2. cbn [concat]. rewrite app_length, EC, EA, E1. lia.
Qed.

End S.
