From Verif Require Import CInt SerializeModel SerializeSpec.

Ltac Zify.zify_post_hook ::= Z.div_mod_to_equations.

Lemma land_shift a b k : 0 <= k -> 0 <= a < 2 ^ k -> Z.land a (Z.shiftl b k) = 0.
Proof.
  intros Hk Ha. apply Z.bits_inj'. intros n Hn.
  rewrite Z.land_spec, Z.bits_0, Z.shiftl_spec by lia.
  destruct (Z.ltb_spec n k).
  - rewrite (Z.testbit_neg_r b) by lia. apply andb_false_r.
  - destruct (Z.eq_dec a 0) as [->|]; [now rewrite Z.bits_0|].
    rewrite (Z.bits_above_log2 a n); [reflexivity|lia|].
    assert (Z.log2 a < k) by (apply Z.log2_lt_pow2; lia). lia.
Qed.

Lemma lor_shift a b k : 0 <= k -> 0 <= a < 2 ^ k ->
  Z.lor a (Z.shiftl b k) = a + b * 2 ^ k.
Proof.
  intros Hk Ha. rewrite <- Z.lxor_lor by (apply land_shift; lia).
  rewrite <- Z.add_nocarry_lxor by (apply land_shift; lia).
  now rewrite Z.shiftl_mul_pow2 by lia.
Qed.

Lemma lor_shift_l a b k : 0 <= k -> 0 <= a < 2 ^ k ->
  Z.lor (Z.shiftl b k) a = a + b * 2 ^ k.
Proof. intros. rewrite Z.lor_comm. now apply lor_shift. Qed.

From Coq Require Import Btauto.
Lemma be_read_u16_rev b0 b1 r r' :
  be_read_u16 (b0 :: b1 :: r) = le_read_u16 (b1 :: b0 :: r').
Proof. cbn [be_read_u16 le_read_u16]. f_equal. f_equal. apply Z.lor_comm. Qed.

Lemma be_read_u32_rev b0 b1 b2 b3 r r' :
  be_read_u32 (b0 :: b1 :: b2 :: b3 :: r) = le_read_u32 (b3 :: b2 :: b1 :: b0 :: r').
Proof.
  cbn [be_read_u32 le_read_u32]. f_equal. f_equal.
  apply Z.bits_inj'. intros n Hn. rewrite !Z.lor_spec. btauto.
Qed.

Lemma be_read_u64_rev b0 b1 b2 b3 b4 b5 b6 b7 r r' :
  be_read_u64 (b0 :: b1 :: b2 :: b3 :: b4 :: b5 :: b6 :: b7 :: r)
  = le_read_u64 (b7 :: b6 :: b5 :: b4 :: b3 :: b2 :: b1 :: b0 :: r').
Proof.
  cbn [be_read_u64 le_read_u64]. f_equal. f_equal.
  apply Z.bits_inj'. intros n Hn. rewrite !Z.lor_spec. btauto.
Qed.

(* The value of an n-byte little-endian word. *)
Fixpoint value256 (bs : list Z) : Z :=
  match bs with [] => 0 | b :: r => b + 256 * value256 r end.

Lemma le_read_u16_val b0 b1 r : is_byte b0 -> is_byte b1 ->
  le_read_u16 (b0 :: b1 :: r) = Ok (value256 [b0; b1]).
Proof.
  intros. unfold is_byte in *. cbn [le_read_u16 value256]. f_equal.
  rewrite lor_shift by lia. rewrite Z.mod_small by lia. lia.
Qed.

Lemma le_read_u32_val b0 b1 b2 b3 r : is_byte b0 -> is_byte b1 -> is_byte b2 -> is_byte b3 ->
  le_read_u32 (b0 :: b1 :: b2 :: b3 :: r) = Ok (value256 [b0; b1; b2; b3]).
Proof.
  intros. unfold is_byte in *. cbn [le_read_u32 value256]. f_equal.
  rewrite (lor_shift _ b1 8) by lia. rewrite (lor_shift _ b2 16) by lia.
  rewrite (lor_shift _ b3 24) by lia.
  rewrite Z.mod_small by lia. lia.
Qed.

Lemma le_read_u64_val b0 b1 b2 b3 b4 b5 b6 b7 r :
  is_byte b0 -> is_byte b1 -> is_byte b2 -> is_byte b3 ->
  is_byte b4 -> is_byte b5 -> is_byte b6 -> is_byte b7 ->
  le_read_u64 (b0 :: b1 :: b2 :: b3 :: b4 :: b5 :: b6 :: b7 :: r)
  = Ok (value256 [b0; b1; b2; b3; b4; b5; b6; b7]).
Proof.
  intros. unfold is_byte in *. cbn [le_read_u64 value256]. f_equal.
  rewrite (lor_shift _ b1 8) by lia. rewrite (lor_shift _ b2 16) by lia.
  rewrite (lor_shift _ b3 24) by lia. rewrite (lor_shift _ b4 32) by lia.
  rewrite (lor_shift _ b5 40) by lia. rewrite (lor_shift _ b6 48) by lia.
  rewrite (lor_shift _ b7 56) by lia.
  rewrite Z.mod_small by lia. lia.
Qed.

Lemma value256_range bs : Forall is_byte bs ->
  0 <= value256 bs < 256 ^ Z.of_nat (length bs).
Proof.
  induction 1 as [|b bs Hb _ IH]; cbn [value256 length]; [lia|].
  rewrite Nat2Z.inj_succ, Z.pow_succ_r by lia. unfold is_byte in Hb. lia.
Qed.

Lemma digits_value bs : Forall is_byte bs -> digits256 (length bs) (value256 bs) = bs.
Proof.
  induction 1 as [|b bs Hb _ IH]; cbn [value256 length digits256]; [reflexivity|].
  unfold is_byte in Hb.
  replace ((b + 256 * value256 bs) mod 256) with b by lia.
  replace ((b + 256 * value256 bs) / 256) with (value256 bs) by lia.
  now rewrite IH.
Qed.

Lemma value_digits n v : value256 (digits256 n v) = v mod 256 ^ Z.of_nat n.
Proof.
  revert v. induction n as [|n IH]; intros v; cbn [value256 digits256].
  - now rewrite Z.mod_1_r.
  - rewrite IH, Nat2Z.inj_succ, Z.pow_succ_r by lia.
    rewrite Z.rem_mul_r by lia. lia.
Qed.

Lemma digits_bytes n v : Forall is_byte (digits256 n v).
Proof.
  revert v. induction n as [|n IH]; intros v; cbn [digits256]; constructor; auto.
  unfold is_byte. lia.
Qed.

Lemma length_digits n v : length (digits256 n v) = n.
Proof. revert v. induction n; intros; cbn [digits256 length]; auto. Qed.

Lemma digits_mod n v : digits256 n (v mod 256 ^ Z.of_nat n) = digits256 n v.
Proof.
  rewrite <- value_digits. rewrite <- (length_digits n v) at 1.
  apply digits_value, digits_bytes.
Qed.

Lemma shiftr_div v k : 0 <= k -> Z.shiftr v k = v / 2 ^ k.
Proof. apply Z.shiftr_div_pow2. Qed.

Lemma le_write_u16_digits v : le_write_u16 v = digits256 2 v.
Proof. unfold le_write_u16, u8. rewrite !shiftr_div by lia. reflexivity. Qed.
Lemma le_write_u32_digits v : le_write_u32 v = digits256 4 v.
Proof.
  unfold le_write_u32, u8. rewrite !shiftr_div by lia. cbn [digits256].
  rewrite !Z.div_div by lia. reflexivity.
Qed.
Lemma le_write_u64_digits v : le_write_u64 v = digits256 8 v.
Proof.
  unfold le_write_u64, u8. rewrite !shiftr_div by lia. cbn [digits256].
  rewrite !Z.div_div by lia. reflexivity.
Qed.

Ltac inv_bytes := repeat match goal with
  | H : Forall is_byte (_ :: _) |- _ => inversion H; clear H; subst
  end.

Lemma le_read_val n (read : list Z -> outcome Z) :
  (n = 2%nat /\ read = le_read_u16 \/ n = 4%nat /\ read = le_read_u32 \/ n = 8%nat /\ read = le_read_u64) ->
  (forall bs r, length bs = n -> Forall is_byte bs -> read (bs ++ r) = Ok (value256 bs)) /\
  (forall bs, (length bs < n)%nat -> read bs = Undef).
Proof.
  intros [[-> ->]|[[-> ->]|[-> ->]]]; split.
  - intros [|b0 [|b1 [|]]] r L F; try discriminate. inv_bytes. now apply le_read_u16_val.
  - intros [|b0 [|b1 bs]] L; cbn [length] in L; try reflexivity; lia.
  - intros [|b0 [|b1 [|b2 [|b3 [|]]]]] r L F; try discriminate. inv_bytes. now apply le_read_u32_val.
  - intros [|b0 [|b1 [|b2 [|b3 bs]]]] L; cbn [length] in L; try reflexivity; lia.
  - intros [|b0 [|b1 [|b2 [|b3 [|b4 [|b5 [|b6 [|b7 [|]]]]]]]]] r L F; try discriminate.
    inv_bytes. now apply le_read_u64_val.
  - intros [|b0 [|b1 [|b2 [|b3 [|b4 [|b5 [|b6 [|b7 bs]]]]]]]] L; cbn [length] in L; try reflexivity; lia.
Qed.

Lemma be_read_val n (read : list Z -> outcome Z) :
  (n = 2%nat /\ read = be_read_u16 \/ n = 4%nat /\ read = be_read_u32 \/ n = 8%nat /\ read = be_read_u64) ->
  (forall bs r, length bs = n -> Forall is_byte bs -> read (bs ++ r) = Ok (value256 (rev bs))) /\
  (forall bs, (length bs < n)%nat -> read bs = Undef).
Proof.
  intros [[-> ->]|[[-> ->]|[-> ->]]]; split.
  - intros [|b0 [|b1 [|]]] r L F; try discriminate. inv_bytes.
    cbn [app]. rewrite (be_read_u16_rev _ _ _ []). now apply le_read_u16_val.
  - intros [|b0 [|b1 bs]] L; cbn [length] in L; try reflexivity; lia.
  - intros [|b0 [|b1 [|b2 [|b3 [|]]]]] r L F; try discriminate. inv_bytes.
    cbn [app]. rewrite (be_read_u32_rev _ _ _ _ _ []). now apply le_read_u32_val.
  - intros [|b0 [|b1 [|b2 [|b3 bs]]]] L; cbn [length] in L; try reflexivity; lia.
  - intros [|b0 [|b1 [|b2 [|b3 [|b4 [|b5 [|b6 [|b7 [|]]]]]]]]] r L F; try discriminate.
    inv_bytes. cbn [app]. rewrite (be_read_u64_rev _ _ _ _ _ _ _ _ _ []).
    now apply le_read_u64_val.
  - intros [|b0 [|b1 [|b2 [|b3 [|b4 [|b5 [|b6 [|b7 bs]]]]]]]] L; cbn [length] in L; try reflexivity; lia.
Qed.

Lemma unsigned_codec n bits layout write read :
  2 ^ bits = 256 ^ Z.of_nat n ->
  (layout = little_endian \/ layout = big_endian) ->
  (forall v, write v = layout n v) ->
  (forall bs r, length bs = n -> Forall is_byte bs -> read (layout n (value256 bs) ++ r) = Ok (value256 bs)) ->
  (forall bs, (length bs < n)%nat -> read bs = Undef) ->
  codec n layout (unsigned_range bits) write read.
Proof.
  intros HB HL HW HR HU.
  assert (HM : forall v, layout n (v mod 256 ^ Z.of_nat n) = layout n v).
  { intros v. destruct HL as [-> | ->]; unfold little_endian, big_endian; now rewrite digits_mod. }
  unfold codec, unsigned_range. rewrite HB. split; [|split; [|split]]; auto.
  - intros v _. now rewrite HW, HM.
  - intros v after Hv. rewrite HW.
    specialize (HR (digits256 n v) after (length_digits n v) (digits_bytes n v)).
    rewrite value_digits in HR. rewrite Z.mod_small in HR by lia. exact HR.
  - intros bs after F L. set (bs' := match layout n 1 with 0 :: _ => rev bs | _ => bs end).
    assert (HB' : exists bs', length bs' = n /\ Forall is_byte bs' /\ layout n (value256 bs') = bs).
    { destruct HL as [-> | ->].
      - exists bs. repeat split; auto. unfold little_endian. rewrite <- L. now apply digits_value.
      - exists (rev bs). assert (FR : Forall is_byte (rev bs)).
        { apply Forall_forall. intros x Hx. rewrite <- in_rev in Hx. rewrite Forall_forall in F. auto. }
        repeat split; auto.
        + now rewrite rev_length.
        + unfold big_endian. rewrite <- L, <- (rev_length bs), digits_value by auto.
          apply rev_involutive. }
    destruct HB' as (bs1 & L1 & F1 & E1).
    exists (value256 bs1). pose proof (value256_range bs1 F1) as R. rewrite L1 in R.
    split; [lia|]. split; [|now rewrite HW].
    rewrite <- E1. now apply HR.
Qed.

Lemma le_unsigned n bits write read :
  (n = 2%nat /\ bits = 16 /\ write = le_write_u16 /\ read = le_read_u16 \/
   n = 4%nat /\ bits = 32 /\ write = le_write_u32 /\ read = le_read_u32 \/
   n = 8%nat /\ bits = 64 /\ write = le_write_u64 /\ read = le_read_u64) ->
  codec n little_endian (unsigned_range bits) write read.
Proof.
  intros H. destruct (le_read_val n read) as [R U].
  { destruct H as [(-> & -> & -> & ->)|[(-> & -> & -> & ->)|(-> & -> & -> & ->)]]; auto. }
  apply unsigned_codec; auto.
  - destruct H as [(-> & -> & -> & ->)|[(-> & -> & -> & ->)|(-> & -> & -> & ->)]]; reflexivity.
  - intros v. destruct H as [(-> & -> & -> & ->)|[(-> & -> & -> & ->)|(-> & -> & -> & ->)]].
    apply le_write_u16_digits. apply le_write_u32_digits. apply le_write_u64_digits.
  - intros bs r L F. unfold little_endian. rewrite <- L, digits_value by auto. apply R; auto.
Qed.

Lemma be_unsigned n bits write read :
  (n = 2%nat /\ bits = 16 /\ write = be_write_u16 /\ read = be_read_u16 \/
   n = 4%nat /\ bits = 32 /\ write = be_write_u32 /\ read = be_read_u32 \/
   n = 8%nat /\ bits = 64 /\ write = be_write_u64 /\ read = be_read_u64) ->
  codec n big_endian (unsigned_range bits) write read.
Proof.
  intros H. destruct (be_read_val n read) as [R U].
  { destruct H as [(-> & -> & -> & ->)|[(-> & -> & -> & ->)|(-> & -> & -> & ->)]]; auto. }
  apply unsigned_codec; auto.
  - destruct H as [(-> & -> & -> & ->)|[(-> & -> & -> & ->)|(-> & -> & -> & ->)]]; reflexivity.
  - intros v. unfold big_endian.
    destruct H as [(-> & -> & -> & ->)|[(-> & -> & -> & ->)|(-> & -> & -> & ->)]].
    rewrite <- le_write_u16_digits; reflexivity.
    rewrite <- le_write_u32_digits; reflexivity.
    rewrite <- le_write_u64_digits; reflexivity.
  - intros bs r L F. unfold big_endian. rewrite <- L, digits_value by auto.
    rewrite R, rev_involutive; auto. now rewrite rev_length.
    apply Forall_forall. intros x Hx. rewrite <- in_rev in Hx. rewrite Forall_forall in F. auto.
Qed.

Lemma signed_codec n bits layout write read :
  0 < bits -> 2 ^ bits = 256 ^ Z.of_nat n ->
  codec n layout (unsigned_range bits) write read ->
  codec n layout (signed_range bits) (fun v => write (cast_unsigned bits v))
    (fun b => omap (union_signed bits) (read b)).
Proof.
  intros H0 HB (HW & HR & HS & HU). unfold unsigned_range in *.
  assert (HP : 2 ^ bits = 2 * 2 ^ (bits - 1)).
  { rewrite <- Z.pow_succ_r by lia. f_equal. lia. }
  assert (0 < 2 ^ (bits - 1)) by (apply Z.pow_pos_nonneg; lia).
  assert (HI : forall v, signed_range bits v -> 0 <= cast_unsigned bits v < 2 ^ bits /\
                 union_signed bits (cast_unsigned bits v) = v).
  { intros v Hv. unfold signed_range in Hv. unfold cast_unsigned, union_signed.
    split; [apply Z.mod_pos_bound; lia|].
    destruct (Z.ltb_spec v 0).
    - replace (v mod 2 ^ bits) with (v + 2 ^ bits).
      2:{ apply (Z.mod_unique_pos v (2 ^ bits) (-1)); lia. }
      destruct (Z.ltb_spec (v + 2 ^ bits) (2 ^ (bits - 1))); lia.
    - rewrite Z.mod_small by lia.
      destruct (Z.ltb_spec v (2 ^ (bits - 1))); lia. }
  assert (HJ : forall u, 0 <= u < 2 ^ bits -> signed_range bits (union_signed bits u) /\
                 cast_unsigned bits (union_signed bits u) = u).
  { intros u Hu. unfold signed_range, cast_unsigned, union_signed.
    destruct (Z.ltb_spec u (2 ^ (bits - 1))).
    - split; [lia|]. apply Z.mod_small; lia.
    - split; [lia|]. symmetry. apply (Z.mod_unique_pos _ _ (-1)); lia. }
  split; [|split; [|split]].
  - intros v Hv. destruct (HI v Hv) as [R _]. rewrite HW by exact R.
    unfold cast_unsigned. rewrite HB, Z.mod_mod by lia. reflexivity.
  - intros v after Hv. destruct (HI v Hv) as [R E]. rewrite HR by exact R.
    cbn [omap obind]. now rewrite E.
  - intros bs after F L. destruct (HS bs after F L) as (u & R & E & W).
    exists (union_signed bits u). destruct (HJ u R) as [R' E'].
    split; [exact R'|]. split; [rewrite E; reflexivity|]. now rewrite E'.
  - intros bs L. rewrite HU by exact L. reflexivity.
Qed.
