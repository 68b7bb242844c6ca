From Verif Require Import CInt NumberUtilModel.
From Coq Require Import Znumtheory.

Ltac i32_simp :=
  unfold i32, oguard, c_rem, c_div, in_i32, INT_MIN, INT_MAX in *.

Definition int (z : Z) : Prop := INT_MIN <= z <= INT_MAX.

Lemma i32_ok z : int z -> i32 z = Ok z.
Proof. intros H. unfold i32, oguard, in_i32, int in *. 
  replace ((INT_MIN <=? z) && (z <=? INT_MAX)) with true by lia. reflexivity. Qed.

Lemma i32_undef z : ~ int z -> i32 z = Undef.
Proof. intros H. unfold i32, oguard, in_i32, int in *.
  replace ((INT_MIN <=? z) && (z <=? INT_MAX)) with false by lia. reflexivity. Qed.

Lemma c_rem_ok a b : int a -> int b -> b <> 0 -> ~ (a = INT_MIN /\ b = -1) ->
  c_rem a b = Ok (Z.rem a b).
Proof.
  intros Ha Hb H0 H1. unfold c_rem, oguard, in_i32.
  replace (b =? 0) with false by lia. cbn [negb andb].
  assert (HQ : Z.abs (Z.quot a b) <= Z.abs a /\ (Z.abs b >= 2 -> Z.abs (Z.quot a b) * 2 <= Z.abs a)).
  {
    rewrite <- Z.quot_abs by assumption.
    pose proof (Z.quot_rem' (Z.abs a) (Z.abs b)) as E.
    pose proof (Z.rem_bound_pos (Z.abs a) (Z.abs b)) as R.
    assert (0 <= Z.quot (Z.abs a) (Z.abs b)) by (apply Z.quot_pos; lia).
    split; nia. }
  assert (HS : b = 1 \/ b = -1 \/ Z.abs b >= 2) by lia.
  assert (HB : INT_MIN <= Z.quot a b <= INT_MAX).
  { unfold int, INT_MIN, INT_MAX in *. destruct HS as [->|[->|HS]].
    - rewrite Z.quot_1_r. lia.
    - change (-1) with (- (1)) in *. rewrite (Z.quot_opp_r a 1), Z.quot_1_r by lia. lia.
    - lia. }
  replace ((INT_MIN <=? Z.quot a b) && (Z.quot a b <=? INT_MAX)) with true by lia.
  reflexivity.
Qed.

Lemma c_rem_mod a b : int a -> int b -> 0 <= a -> 0 < b -> c_rem a b = Ok (a mod b).
Proof.
  intros. rewrite c_rem_ok by (auto; unfold int in *; lia).
  f_equal. apply Z.rem_mod_nonneg; lia.
Qed.

Ltac Zify.zify_post_hook ::= Z.div_mod_to_equations.

(* -(v+1) mod m in terms of v mod m *)
Lemma neg_mod v m : 0 < m -> m - 1 - ((- v - 1) mod m) = v mod m.
Proof.
  intros Hm.
  apply (Z.mod_unique_pos v m (- ((- v - 1) / m) - 1)).
  - pose proof (Z.mod_pos_bound (- v - 1) m Hm). lia.
  - pose proof (Z.div_mod (- v - 1) m). nia.
Qed.

Ltac i32s := unfold int, INT_MIN, INT_MAX in *; lia.

Lemma modulo_ok v m : int v -> int m -> 0 < m -> v <> INT_MIN ->
  modulo v m = Ok (v mod m).
Proof.
  intros Hv Hm H0 H1. unfold modulo, ocheck.
  replace (0 <? m) with true by lia.
  destruct (Z.ltb_spec v 0) as [L|L].
  - rewrite (i32_ok (m - 1)) by i32s. cbn [obind].
    rewrite (i32_ok (- v)) by i32s. cbn [obind].
    rewrite (i32_ok (- v - 1)) by i32s. cbn [obind].
    rewrite c_rem_mod by i32s. cbn [obind].
    pose proof (Z.mod_pos_bound (- v - 1) m H0).
    rewrite i32_ok by i32s. f_equal. apply neg_mod. lia.
  - apply c_rem_mod; i32s.
Qed.

Lemma modulo_int_min m : int m -> 0 < m -> modulo INT_MIN m = Undef.
Proof.
  intros Hm H0. unfold modulo, ocheck.
  replace (0 <? m) with true by lia.
  replace (INT_MIN <? 0) with true by reflexivity.
  rewrite (i32_ok (m - 1)) by i32s. reflexivity.
Qed.

Lemma modulo_bad v m : m <= 0 -> modulo v m = CheckFail.
Proof. intros H. unfold modulo, ocheck. replace (0 <? m) with false by lia. reflexivity. Qed.

Lemma round_down_ok v f : int v -> int f -> 0 < f ->
  round_down_to_multiple v f =
  if (v <? 0) && (v - f <? INT_MIN) then Undef else Ok (v / f * f).
Proof.
  intros Hv Hf H0. unfold round_down_to_multiple, ocheck.
  replace (0 <? f) with true by lia.
  assert (E : v / f * f = v - v mod f) by (pose proof (Z.div_mod v f); lia).
  destruct (Z.ltb_spec v 0) as [L|L]; cbn [andb].
  - destruct (Z.ltb_spec (v - f) INT_MIN) as [B|B].
    + rewrite i32_undef by i32s. reflexivity.
    + rewrite (i32_ok (v - f)) by i32s. cbn [obind].
      rewrite (i32_ok (v - f + 1)) by i32s. cbn [obind].
      rewrite (i32_ok (- v)) by i32s. cbn [obind].
      rewrite (i32_ok (- v - 1)) by i32s. cbn [obind].
      rewrite c_rem_mod by i32s. cbn [obind].
      pose proof (Z.mod_pos_bound (- v - 1) f H0).
      pose proof (neg_mod v f H0).
      rewrite i32_ok by i32s. f_equal. lia.
  - rewrite c_rem_mod by i32s. cbn [obind].
    pose proof (Z.mod_pos_bound v f H0).
    assert (v mod f <= v) by (apply Z.mod_le; lia).
    rewrite i32_ok by i32s. f_equal. lia.
Qed.

Lemma round_up_c_ok v f : int v -> int f -> 0 < f ->
  round_up_to_multiple_c v f =
  if (v =? INT_MIN) || ((0 <? v) && (INT_MAX <? v + f)) then Undef
  else Ok (- (- v / f) * f).
Proof.
  intros Hv Hf H0. unfold round_up_to_multiple_c.
  destruct (Z.ltb_spec v 1) as [L|L].
  - replace (0 <? v) with false by lia. cbn [andb]. rewrite orb_false_r.
    destruct (Z.eqb_spec v INT_MIN) as [->|N].
    + reflexivity.
    + rewrite (i32_ok (- v)) by i32s. cbn [obind].
      rewrite c_rem_mod by i32s. cbn [obind].
      pose proof (Z.mod_pos_bound (- v) f H0).
      assert ((- v) mod f <= - v) by (apply Z.mod_le; lia).
      rewrite i32_ok by i32s. f_equal.
      pose proof (Z.div_mod (- v) f). lia.
  - replace (0 <? v) with true by lia. 
    replace (v =? INT_MIN) with false by i32s. cbn [andb orb].
    destruct (Z.ltb_spec INT_MAX (v + f)) as [B|B].
    + rewrite i32_undef by i32s. reflexivity.
    + rewrite (i32_ok (v + f)) by i32s. cbn [obind].
      rewrite (i32_ok (v + f - 1)) by i32s. cbn [obind].
      rewrite (i32_ok (v - 1)) by i32s. cbn [obind].
      rewrite c_rem_mod by i32s. cbn [obind].
      pose proof (Z.mod_pos_bound (v - 1) f H0).
      rewrite i32_ok by i32s. f_equal.
      pose proof (neg_mod (- v) f H0) as E.
      replace (- - v - 1) with (v - 1) in E by lia.
      pose proof (Z.div_mod (- v) f). lia.
Qed.

Lemma gcd_loop_ok fuel : forall a b,
  int a -> int b -> a <> INT_MIN -> b <> INT_MIN -> Z.abs b < Z.of_nat fuel ->
  exists r, gcd_loop fuel a b = Ok r /\ Z.abs r = Z.gcd a b /\ int r /\
    (0 <= a -> 0 <= b -> 0 <= r).
Proof.
  induction fuel as [|fuel IH]; intros a b Ha Hb Ma Mb Hf; [lia|].
  cbn [gcd_loop]. destruct (Z.eqb_spec b 0) as [->|N].
  - exists a. rewrite Z.gcd_0_r. auto.
  - rewrite c_rem_ok by i32s. cbn [obind].
    assert (HB : Z.abs (Z.rem a b) < Z.abs b).
    { rewrite <- Z.rem_abs by assumption.
      pose proof (Z.rem_bound_pos (Z.abs a) (Z.abs b)). lia. }
    destruct (IH b (Z.rem a b)) as (r & E & G & I & P); try i32s.
    exists r. split; [exact E|]. split.
    + rewrite G. rewrite (Z.gcd_comm b).
      pose proof (Z.quot_rem' a b) as Q.
      replace (Z.rem a b) with (a + (- Z.quot a b) * b) by lia.
      rewrite (Z.gcd_comm _ b), Z.add_comm.
      rewrite Z.gcd_comm. 
      rewrite Z.gcd_comm. rewrite Z.add_comm.
      rewrite Z.gcd_add_mult_diag_r. apply Z.gcd_comm.
    + split; [exact I|]. intros. apply P; [assumption|].
      apply Z.rem_nonneg; assumption.
Qed.

Lemma gcd_c_ok a b : int a -> int b -> a <> INT_MIN -> b <> INT_MIN ->
  exists r, gcd_c a b = Ok r /\ Z.abs r = Z.gcd a b.
Proof.
  intros. destruct (gcd_loop_ok (S (Z.to_nat (Z.abs b))) a b) as (r & E & G & _); auto; [lia|].
  exists r. auto.
Qed.

Lemma gcd_cc_ok a b : int a -> int b -> 0 <= a -> 0 <= b -> gcd_cc a b = Ok (Z.gcd a b).
Proof.
  intros Ha Hb Pa Pb. unfold gcd_cc, ocheck.
  replace (0 <=? a) with true by lia. replace (0 <=? b) with true by lia.
  destruct (gcd_loop_ok (S (Z.to_nat (Z.abs b))) a b) as (r & E & G & I & P); auto; try i32s.
  unfold gcd_c. rewrite E. f_equal. specialize (P Pa Pb). lia.
Qed.

Lemma gcd_bound a b : int a -> int b -> 0 <= a -> 0 <= b -> int (Z.gcd a b) /\ 0 <= Z.gcd a b.
Proof.
  intros. pose proof (Z.gcd_nonneg a b). split; [|assumption].
  destruct (Z.eq_dec a 0) as [->|Na].
  - rewrite Z.gcd_0_l. i32s.
  - assert (Z.gcd a b <= a).
    { apply Z.divide_pos_le; [lia|]. apply Z.gcd_divide_l. }
    i32s.
Qed.

Lemma gcd_vector_ok x rest : Forall (fun z => int z /\ 0 <= z) (x :: rest) ->
  exists g, gcd_vector (x :: rest) = Ok g /\ 0 <= g /\
    (forall d, (d | g) <-> Forall (fun z => (d | z)) (x :: rest)).
Proof.
  cbn [gcd_vector]. revert x.
  induction rest as [|y rest IH]; intros x HF.
  - exists x. inversion HF; subst. cbn. split; [reflexivity|]. split; [lia|].
    intros d. split; [intros D; constructor; auto|intros D; inversion D; auto].
  - inversion HF as [|? ? Hx HF1]; subst. inversion HF1 as [|? ? Hy HF2]; subst.
    cbn [fold_left obind].
    rewrite gcd_cc_ok by tauto.
    destruct (IH (Z.gcd x y)) as (g & E & P & D).
    + constructor; [apply gcd_bound; tauto|assumption].
    + exists g. split; [exact E|]. split; [exact P|].
      intros d. rewrite D. split; intros F.
      * inversion F as [|? ? Fg Fr]; subst. constructor; [|constructor].
        -- eapply Z.divide_trans; [exact Fg|apply Z.gcd_divide_l].
        -- eapply Z.divide_trans; [exact Fg|apply Z.gcd_divide_r].
        -- assumption.
      * inversion F as [|? ? Fx F']; subst. inversion F' as [|? ? Fy Fr]; subst.
        constructor; [|assumption]. apply Z.gcd_greatest; assumption.
Qed.

(* ---- powers of two ---- *)
Lemma log2_loop_ok fuel : forall v r, 0 < v -> v < 2 ^ Z.of_nat fuel ->
  log2_loop fuel v r = Ok (r + Z.log2 v).
Proof.
  induction fuel as [|fuel IH]; intros v r Hv Hb.
  - change (2 ^ Z.of_nat 0) with 1 in Hb. lia.
  - cbn [log2_loop]. destruct (Z.ltb_spec 1 v) as [L|L].
    + rewrite IH.
      * rewrite Z.log2_shiftr by lia.
        assert (1 <= Z.log2 v) by (apply Z.log2_le_pow2; lia).
        f_equal. lia.
      * rewrite Z.shiftr_div_pow2 by lia. change (2 ^ 1) with 2. lia.
      * rewrite Z.shiftr_div_pow2 by lia. change (2 ^ 1) with 2.
        rewrite Nat2Z.inj_succ, Z.pow_succ_r in Hb by lia. lia.
    + assert (v = 1) by lia. subst. f_equal. cbn. lia.
Qed.

Lemma log2_floor_ok v : 0 < v <= UINT_MAX -> log2_floor v = Ok (Z.log2 v).
Proof.
  intros H. unfold log2_floor. replace (v =? 0) with false by lia.
  rewrite log2_loop_ok; [f_equal; lia|lia|]. 
  unfold UINT_MAX in H. change (2 ^ Z.of_nat 33) with 8589934592. lia.
Qed.

Lemma land_pred_pow2 v : 0 < v ->
  Z.land v (v - 1) = 0 <-> v = 2 ^ Z.log2 v.
Proof.
  intros Hv. split; intros H.
  - pose proof (Z.log2_spec v Hv) as [L1 L2].
    destruct (Z.eq_dec v (2 ^ Z.log2 v)) as [E|N]; [exact E|exfalso].
    assert (B1 : Z.testbit v (Z.log2 v) = true) by (apply Z.bit_log2; exact Hv).
    assert (EL : Z.log2 (v - 1) = Z.log2 v).
    { apply Z.log2_unique; [apply Z.log2_nonneg|]. lia. }
    assert (B2 : Z.testbit (v - 1) (Z.log2 v) = true).
    { rewrite <- EL. apply Z.bit_log2.
      pose proof (Z.pow_pos_nonneg 2 (Z.log2 v)). pose proof (Z.log2_nonneg v). lia. }
    assert (B : Z.testbit (Z.land v (v - 1)) (Z.log2 v) = true)
      by (rewrite Z.land_spec, B1, B2; reflexivity).
    rewrite H, Z.bits_0 in B. discriminate.
  - rewrite H.
    replace (2 ^ Z.log2 v - 1) with (Z.pred (2 ^ Z.log2 v)) by lia.
    rewrite <- Z.ones_equiv.
    rewrite Z.land_ones by apply Z.log2_nonneg.
    apply Z.mod_same. pose proof (Z.log2_nonneg v). apply Z.pow_nonzero; lia.
Qed.

Lemma is_pow2_log v : 0 < v <= UINT_MAX ->
  is_power_of_two_or_zero v = (v =? 2 ^ Z.log2 v).
Proof.
  intros H. unfold is_power_of_two_or_zero, u32.
  rewrite Z.mod_small by (unfold UINT_MAX in H; lia).
  pose proof (land_pred_pow2 v ltac:(lia)) as [P Q].
  destruct (Z.eqb_spec (Z.land v (v - 1)) 0), (Z.eqb_spec v (2 ^ Z.log2 v)); tauto.
Qed.

Lemma is_pow2_ok v : 0 <= v <= UINT_MAX ->
  is_power_of_two_or_zero v = true <-> v = 0 \/ exists k, 0 <= k /\ v = 2 ^ k.
Proof.
  intros H. destruct (Z.eq_dec v 0) as [->|N].
  - split; [auto|reflexivity].
  - rewrite is_pow2_log by lia. rewrite Z.eqb_eq. split.
    + intros E. right. exists (Z.log2 v). split; [apply Z.log2_nonneg|exact E].
    + intros [->|(k & K & ->)]; [congruence|]. now rewrite Z.log2_pow2.
Qed.

Lemma log2_ceiling_ok v : 0 < v <= UINT_MAX -> log2_ceiling v = Ok (Z.log2_up v).
Proof.
  intros H. unfold log2_ceiling. rewrite log2_floor_ok by exact H. cbn [obind].
  f_equal. rewrite is_pow2_log by exact H.
  destruct (Z.eqb_spec v (2 ^ Z.log2 v)) as [E|N].
  - rewrite E at 2. symmetry. apply Z.log2_up_pow2, Z.log2_nonneg.
  - pose proof (Z.log2_spec v ltac:(lia)) as [L1 L2].
    pose proof (Z.log2_nonneg v).
    symmetry. apply Z.log2_up_unique; [lia|].
    replace (Z.pred (Z.log2 v + 1)) with (Z.log2 v) by lia.
    unfold Z.succ in L2. lia.
Qed.

Lemma next_pow2_ok v : 0 < v <= 2147483648 ->
  next_power_of_two v = Ok (2 ^ Z.log2_up v).
Proof.
  intros H. unfold next_power_of_two.
  rewrite log2_ceiling_ok by (unfold UINT_MAX; lia). cbn [obind].
  assert (B : 0 <= Z.log2_up v <= 31).
  { split; [apply Z.log2_up_nonneg|].
    change 31 with (Z.log2_up 2147483648). apply Z.log2_up_le_mono. lia. }
  unfold ocheck, oguard.
  replace (Z.log2_up v <? 32) with true by lia.
  replace (0 <=? Z.log2_up v) with true by lia. cbn [andb]. f_equal.
  rewrite Z.shiftl_mul_pow2, Z.mul_1_l by lia.
  assert (P : 0 < 2 ^ Z.log2_up v <= 2 ^ 31).
  { split; [apply Z.pow_pos_nonneg; lia|apply Z.pow_le_mono_r; lia]. }
  change (2 ^ 31) with 2147483648 in P.
  unfold u32, to_int32. generalize dependent (2 ^ Z.log2_up v). intros p P. lia.
Qed.

Lemma next_pow2_zero : next_power_of_two 0 = Undef.
Proof. reflexivity. Qed.

Lemma next_pow2_big v : 2147483648 < v <= UINT_MAX -> next_power_of_two v = CheckFail.
Proof.
  intros H. unfold next_power_of_two.
  rewrite log2_ceiling_ok by (unfold UINT_MAX in *; lia). cbn [obind].
  assert (B : 31 < Z.log2_up v).
  { apply Z.log2_up_lt_pow2; [lia|]. change (2 ^ 31) with 2147483648. lia. }
  unfold ocheck. replace (Z.log2_up v <? 32) with false by lia. reflexivity.
Qed.

Lemma log2_up_least v k : 0 < v -> 0 <= k -> v <= 2 ^ k <-> Z.log2_up v <= k.
Proof. intros. split; intros; apply Z.log2_up_le_pow2; assumption. Qed.

(* ---- statements in terms of divisibility and order ---- *)
Lemma modulo_spec v m : int v -> int m -> 0 < m -> v <> INT_MIN ->
  exists r, modulo v m = Ok r /\ 0 <= r < m /\ (m | v - r).
Proof.
  intros. exists (v mod m). split; [apply modulo_ok; assumption|].
  split; [apply Z.mod_pos_bound; assumption|].
  exists (v / m). pose proof (Z.div_mod v m). lia.
Qed.

Lemma round_down_spec v f : int v -> int f -> 0 < f ->
  (0 <= v \/ INT_MIN <= v - f ->
   exists r, round_down_to_multiple v f = Ok r /\ (f | r) /\ r <= v < r + f) /\
  (v < 0 -> v - f < INT_MIN -> round_down_to_multiple v f = Undef).
Proof.
  intros Hv Hf H0. rewrite round_down_ok by assumption. split.
  - intros H. exists (v / f * f).
    replace ((v <? 0) && (v - f <? INT_MIN)) with false by lia.
    split; [reflexivity|]. split; [exists (v / f); lia|].
    pose proof (Z.div_mod v f). pose proof (Z.mod_pos_bound v f). lia.
  - intros. replace ((v <? 0) && (v - f <? INT_MIN)) with true by lia. reflexivity.
Qed.

Lemma round_up_spec v f : int v -> int f -> 0 < f ->
  (v <> INT_MIN -> v <= 0 \/ v + f <= INT_MAX ->
   exists r, round_up_to_multiple v f = Ok r /\ round_up_to_multiple_c v f = Ok r /\
     (f | r) /\ r - f < v <= r) /\
  (v = INT_MIN \/ 0 < v /\ INT_MAX < v + f ->
   round_up_to_multiple v f = Undef /\ round_up_to_multiple_c v f = Undef).
Proof.
  intros Hv Hf H0. unfold round_up_to_multiple, ocheck.
  replace (0 <? f) with true by lia.
  rewrite round_up_c_ok by assumption. split.
  - intros N H. exists (- (- v / f) * f).
    replace ((v =? INT_MIN) || (0 <? v) && (INT_MAX <? v + f)) with false by lia.
    split; [reflexivity|]. split; [reflexivity|]. split; [exists (- (- v / f)); lia|].
    pose proof (Z.div_mod (- v) f). pose proof (Z.mod_pos_bound (- v) f). lia.
  - intros. replace ((v =? INT_MIN) || (0 <? v) && (INT_MAX <? v + f)) with true by lia.
    split; reflexivity.
Qed.

Lemma gcd_spec a b : int a -> int b -> 0 <= a -> 0 <= b ->
  exists g, gcd_cc a b = Ok g /\ 0 <= g /\
    forall d, (d | g) <-> (d | a) /\ (d | b).
Proof.
  intros. exists (Z.gcd a b). split; [apply gcd_cc_ok; assumption|].
  split; [apply Z.gcd_nonneg|]. intros d. split.
  - intros D. split; (eapply Z.divide_trans; [exact D|]);
    [apply Z.gcd_divide_l|apply Z.gcd_divide_r].
  - intros [D1 D2]. apply Z.gcd_greatest; assumption.
Qed.

Lemma gcd_c_spec a b : int a -> int b -> a <> INT_MIN -> b <> INT_MIN ->
  exists g, gcd_c a b = Ok g /\ forall d, (d | g) <-> (d | a) /\ (d | b).
Proof.
  intros Ha Hb Ma Mb. destruct (gcd_c_ok a b Ha Hb Ma Mb) as (g & E & G).
  exists g. split; [exact E|]. intros d.
  rewrite <- Z.divide_abs_r, G. split.
  - intros D. split; (eapply Z.divide_trans; [exact D|]);
    [apply Z.gcd_divide_l|apply Z.gcd_divide_r].
  - intros [D1 D2]. apply Z.gcd_greatest; assumption.
Qed.

Lemma log2_floor_spec v : 0 <= v <= UINT_MAX ->
  exists r, log2_floor v = Ok r /\
    (v = 0 -> r = -1) /\ (0 < v -> 0 <= r /\ 2 ^ r <= v < 2 ^ (r + 1)).
Proof.
  intros H. destruct (Z.eq_dec v 0) as [->|N].
  - exists (-1). split; [reflexivity|]. split; [reflexivity|lia].
  - exists (Z.log2 v). split; [apply log2_floor_ok; lia|]. split; [lia|].
    intros P. split; [apply Z.log2_nonneg|]. apply Z.log2_spec. exact P.
Qed.

Lemma log2_ceiling_spec v : 0 < v <= UINT_MAX ->
  exists r, log2_ceiling v = Ok r /\ 0 <= r /\
    forall k, 0 <= k -> (v <= 2 ^ k <-> r <= k).
Proof.
  intros H. exists (Z.log2_up v). split; [apply log2_ceiling_ok; exact H|].
  split; [apply Z.log2_up_nonneg|]. intros k K. apply log2_up_least; lia.
Qed.

Lemma next_pow2_spec v : 0 < v <= 2147483648 ->
  exists k, 0 <= k /\ next_power_of_two v = Ok (2 ^ k) /\ v <= 2 ^ k /\
    forall j, 0 <= j -> v <= 2 ^ j -> 2 ^ k <= 2 ^ j.
Proof.
  intros H. exists (Z.log2_up v). split; [apply Z.log2_up_nonneg|].
  split; [apply next_pow2_ok; exact H|].
  split; [apply log2_up_least; [lia|apply Z.log2_up_nonneg|lia]|].
  intros j J L. apply Z.pow_le_mono_r; [lia|]. apply log2_up_least; lia.
Qed.
