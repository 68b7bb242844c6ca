From Verif Require Import CInt ListLemmas ResamplerModel ResamplerSpec.

(* ---- counting steps ---- *)
(* The number of steps of size a from T to reach e * b. *)
Definition steps (a b T e : Z) : nat :=
  if e * b <=? T then 0%nat else Z.to_nat ((e * b - T + a - 1) / a).

Section Steps.
Context (a b : Z) (Ha : 0 < a).

Lemma steps_zero T e : e * b <= T -> steps a b T e = 0%nat.
Proof. intros H. unfold steps. now replace (e * b <=? T) with true by lia. Qed.

Lemma steps_succ T e : T < e * b -> steps a b T e = S (steps a b (T + a) e).
Proof.
  intros H. unfold steps. replace (e * b <=? T) with false by lia.
  destruct (Z.leb_spec (e * b) (T + a)).
  - replace ((e * b - T + a - 1) / a) with 1; [reflexivity|].
    apply (Z.div_unique_pos _ _ _ (e * b - T - 1)); lia.
  - replace (e * b - T + a - 1) with ((e * b - (T + a) + a - 1) + 1 * a) by lia.
    rewrite Z.div_add by lia.
    assert (0 <= (e * b - (T + a) + a - 1) / a) by (apply Z.div_pos; lia).
    lia.
Qed.

Lemma steps_reach T e : e * b <= T + Z.of_nat (steps a b T e) * a.
Proof.
  unfold steps. destruct (Z.leb_spec (e * b) T); [lia|].
  assert (0 <= (e * b - T + a - 1) / a) by (apply Z.div_pos; lia).
  rewrite Z2Nat.id by lia.
  pose proof (Z.mod_pos_bound (e * b - T + a - 1) a Ha).
  pose proof (Z.div_mod (e * b - T + a - 1) a ltac:(lia)). nia.
Qed.

Lemma steps_tight T e : steps a b T e <> 0%nat ->
  T + Z.of_nat (steps a b T e) * a < e * b + a.
Proof.
  unfold steps. destruct (Z.leb_spec (e * b) T); [lia|]. intros _.
  assert (0 <= (e * b - T + a - 1) / a) by (apply Z.div_pos; lia).
  rewrite Z2Nat.id by lia.
  pose proof (Z.mod_pos_bound (e * b - T + a - 1) a Ha).
  pose proof (Z.div_mod (e * b - T + a - 1) a ltac:(lia)). nia.
Qed.

Lemma steps_before T e k : (k < steps a b T e)%nat -> T + Z.of_nat k * a < e * b.
Proof.
  intros H. assert (N : steps a b T e <> 0%nat) by lia. pose proof (steps_tight T e N).
  enough (Z.of_nat k * a + a <= Z.of_nat (steps a b T e) * a) by lia. nia.
Qed.

Lemma steps_unique T e k : e * b <= T + Z.of_nat k * a ->
  (k = 0%nat \/ T + Z.of_nat k * a < e * b + a) -> steps a b T e = k.
Proof.
  intros H1 H2. pose proof (steps_reach T e).
  destruct (Nat.lt_trichotomy (steps a b T e) k) as [L|[L|L]]; auto; exfalso.
  - destruct H2 as [->|H2]; [lia|]. enough (Z.of_nat (steps a b T e) * a + a <= Z.of_nat k * a) by lia. nia.
  - pose proof (steps_before T e k L). lia.
Qed.

Lemma steps_split T e e' : 0 <= b -> e <= e' ->
  steps a b T e' = (steps a b T e + steps a b (T + Z.of_nat (steps a b T e) * a) e')%nat.
Proof.
  intros Hb H. set (k := steps a b T e). set (j := steps a b (T + Z.of_nat k * a) e').
  apply steps_unique.
  - pose proof (steps_reach (T + Z.of_nat k * a) e'). fold j in H0. lia.
  - destruct (Nat.eq_dec j 0) as [Ej|Ej].
    + destruct (Nat.eq_dec k 0) as [Ek|Ek]; [left; lia|right].
      pose proof (steps_tight T e Ek). fold k in H0. rewrite Ej. nia.
    + right. pose proof (steps_tight (T + Z.of_nat k * a) e' Ej). fold j in H0. lia.
Qed.

Lemma steps_shift T e d : steps a b (T + d * b) (e + d) = steps a b T e.
Proof.
  unfold steps. replace ((e + d) * b <=? T + d * b) with (e * b <=? T) by lia.
  replace ((e + d) * b - (T + d * b)) with (e * b - T) by lia. reflexivity.
Qed.

Lemma num_outputs_steps taps n : 0 < b -> num_outputs a b taps n = steps a b 0 (n - Z.of_nat taps + 1).
Proof.
  intros Hb. unfold num_outputs. set (room := n - Z.of_nat taps + 1).
  destruct (Z.leb_spec room 0).
  - rewrite steps_zero; auto. nia.
  - unfold steps. replace (room * b <=? 0) with false by nia.
    f_equal. rewrite Z.sub_0_r.
    pose proof (Z.mod_pos_bound (room * b + a - 1) a Ha).
    pose proof (Z.div_mod (room * b + a - 1) a ltac:(lia)).
    pose proof (Z.mod_pos_bound (- (room * b)) a Ha).
    pose proof (Z.div_mod (- (room * b)) a ltac:(lia)). nia.
Qed.
End Steps.

Lemma map_seq_shift {A} (f : nat -> A) n k : map f (seq k n) = map (fun i => f (k + i)%nat) (seq 0 n).
Proof.
  revert f k. induction n as [|n IH]; intros f k; [reflexivity|].
  cbn [seq map]. rewrite Nat.add_0_r. f_equal. rewrite (IH f (S k)), (IH _ 1%nat).
  apply map_ext. intros i. f_equal. lia.
Qed.

Section Core.
Context {C X Y : Type}.
Context (dot1 : list C -> list X -> Y) (dot2 : list C -> list X -> list X -> Y).
Context (c : @config C).

Definition valid_config : Prop :=
  0 < numer c /\ 0 < denom c /\ 0 < taps c /\
  Z.of_nat (length (filters c)) = denom c /\
  Forall (fun f => Z.of_nat (length f) = taps c) (filters c) /\
  numer c <= denom c * taps c.
Context (V : valid_config).
Context (Hdot : forall f s u, length f = (length s + length u)%nat -> dot2 f s u = dot1 f (s ++ u)).

Notation a := (numer c).
Notation b := (denom c).

Lemma pos_a : 0 < a. Proof. apply V. Qed.
Lemma pos_b : 0 < b. Proof. apply V. Qed.
Local Hint Resolve pos_a pos_b : core.

Lemma advance_spec i ph : 0 <= i -> 0 <= ph < b ->
  let T := i * b + ph in
  advance c i ph = ((T + a) / b, (T + a) mod b).
Proof using V. clear Hdot; clear dot2; try clear dot1.
  intros Hi Hp T. unfold advance, factor_floor, phase_step.
  pose proof pos_a. pose proof pos_b.
  rewrite Z.quot_div_nonneg, Z.rem_mod_nonneg by lia.
  pose proof (Z.div_mod a b ltac:(lia)) as E. pose proof (Z.mod_pos_bound a b ltac:(lia)).
  destruct (Z.leb_spec b (ph + a mod b)).
  - f_equal; [apply (Z.div_unique_pos _ _ _ (ph + a mod b - b))|apply (Z.mod_unique_pos _ _ (i + a / b + 1))]; subst T; nia.
  - f_equal; [apply (Z.div_unique_pos _ _ _ (ph + a mod b))|apply (Z.mod_unique_pos _ _ (i + a / b))]; subst T; nia.
Qed.

(* The output at scaled position t of a buffer. *)
Definition out_at (buf : list X) (t : Z) : Y :=
  dot1 (nth (Z.to_nat (t mod b)) (filters c) []) (slice (Z.to_nat (t / b)) (Z.to_nat (taps c)) buf).

Lemma filter_at_ok ph : 0 <= ph < b ->
  filter_at c ph = Ok (nth (Z.to_nat ph) (filters c) []) /\
  Z.of_nat (length (nth (Z.to_nat ph) (filters c) [])) = taps c.
Proof using V. clear Hdot; clear dot2; try clear dot1.
  destruct V as (_ & _ & _ & LF & FF & _). intros H. unfold filter_at. replace (ph <? 0) with false by lia.
  assert (L : (Z.to_nat ph < length (filters c))%nat) by lia.
  rewrite (nth_error_nth' _ [] L). split; [reflexivity|].
  rewrite Forall_forall in FF. apply FF. now apply nth_In.
Qed.

Lemma straddle_spec out_size out_cap del input i_end cnt : forall fuel T n,
  Z.of_nat (length del) < taps c ->
  i_end = Z.of_nat (length del) + Z.of_nat (length input) - taps c + 1 ->
  0 <= T ->
  cnt = steps a b T (Z.min (Z.of_nat (length del)) i_end) ->
  (cnt < fuel)%nat -> n + Z.of_nat cnt <= out_size -> n + Z.of_nat cnt <= out_cap ->
  straddle_loop dot2 fuel c out_size out_cap del input i_end (T / b) (T mod b) n
  = Ok ((T + Z.of_nat cnt * a) / b, (T + Z.of_nat cnt * a) mod b,
        map (fun k => out_at (del ++ input) (T + Z.of_nat k * a)) (seq 0 cnt)).
Proof.
  pose proof pos_a as Pa. pose proof pos_b as Pb.
  induction cnt as [|cnt IH]; intros fuel T n LD EI HT EC LF H1 H2.
  - assert (~ T < Z.min (Z.of_nat (length del)) i_end * b) as NL.
    { intros L. rewrite steps_succ in EC by auto. discriminate. }
    assert (Z.min (Z.of_nat (length del)) i_end <= T / b) by (apply Z.div_le_lower_bound; lia).
    assert (EB : (T / b <? Z.of_nat (length del)) && (T / b <? i_end) = false) by lia.
    destruct fuel; cbn [straddle_loop]; rewrite EB; cbn [seq map];
      replace (T + Z.of_nat 0 * a) with T by lia; reflexivity.
  - assert (L : T < Z.min (Z.of_nat (length del)) i_end * b).
    { apply Z.nle_gt. intros L. rewrite steps_zero in EC by auto. discriminate. }
    assert (LI : T / b < Z.min (Z.of_nat (length del)) i_end) by (apply Z.div_lt_upper_bound; lia).
    assert (HI : 0 <= T / b) by (apply Z.div_pos; lia).
    pose proof (Z.mod_pos_bound T b Pb) as HM.
    destruct fuel as [|fuel]; [lia|]. cbn [straddle_loop].
    replace ((T / b <? Z.of_nat (length del)) && (T / b <? i_end)) with true by lia.
    replace (n <? out_size) with true by lia. replace (n <? out_cap) with true by lia. cbn [ocheck oguard].
    destruct (filter_at_ok (T mod b) HM) as [-> LFI]. cbn [obind].
    replace ((0 <=? T / b) && (0 <=? taps c - (Z.of_nat (length del) - T / b)) &&
      (taps c - (Z.of_nat (length del) - T / b) <=? Z.of_nat (length input))) with true by lia. cbn [oguard].
    rewrite advance_spec by auto. cbv zeta.
    assert (ET : T / b * b + T mod b = T) by (rewrite (Z.div_mod T b) at 3 by lia; lia).
    rewrite ET.
    rewrite (IH fuel (T + a) (n + 1)); auto; try lia.
    2:{ rewrite steps_succ in EC by auto. now injection EC. }
    cbn [obind]. replace (T + a + Z.of_nat cnt * a) with (T + Z.of_nat (S cnt) * a) by lia.
    do 2 f_equal. cbn [seq map]. f_equal.
    + replace (T + Z.of_nat 0 * a) with T by lia. unfold out_at. rewrite Hdot.
      2:{ rewrite skipn_length, firstn_length. lia. }
      f_equal. unfold slice. rewrite skipn_app.
      replace (Z.to_nat (T / b) - length del)%nat with 0%nat by lia. cbn [skipn].
      rewrite firstn_app. f_equal.
      * rewrite firstn_all2; auto. rewrite skipn_length. lia.
      * f_equal. rewrite skipn_length. lia.
    + rewrite (map_seq_shift _ cnt 1). apply map_ext. intros k. f_equal. lia.
Qed.

Lemma input_spec out_size out_cap input cnt : forall fuel i_end T n,
  i_end = Z.of_nat (length input) - taps c + 1 ->
  0 <= T -> cnt = steps a b T i_end ->
  (cnt < fuel)%nat -> n + Z.of_nat cnt <= out_size -> n + Z.of_nat cnt <= out_cap ->
  input_loop dot1 fuel c out_size out_cap input i_end (T / b) (T mod b) n
  = Ok ((T + Z.of_nat cnt * a) / b, (T + Z.of_nat cnt * a) mod b,
        map (fun k => out_at input (T + Z.of_nat k * a)) (seq 0 cnt)).
Proof using V. clear Hdot; clear dot2; try clear dot1.
  pose proof pos_a as Pa. pose proof pos_b as Pb.
  induction cnt as [|cnt IH]; intros fuel i_end T n EI HT EC LF H1 H2.
  - assert (~ T < i_end * b) as NL.
    { intros L. rewrite steps_succ in EC by auto. discriminate. }
    assert (i_end <= T / b) by (apply Z.div_le_lower_bound; lia).
    assert (EB : (T / b <? i_end) = false) by lia.
    destruct fuel; cbn [input_loop]; rewrite EB; cbn [seq map];
      replace (T + Z.of_nat 0 * a) with T by lia; reflexivity.
  - assert (L : T < i_end * b).
    { apply Z.nle_gt. intros L. rewrite steps_zero in EC by auto. discriminate. }
    assert (LI : T / b < i_end) by (apply Z.div_lt_upper_bound; lia).
    assert (HI : 0 <= T / b) by (apply Z.div_pos; lia).
    pose proof (Z.mod_pos_bound T b Pb) as HM.
    destruct fuel as [|fuel]; [lia|]. cbn [input_loop].
    replace (T / b <? i_end) with true by lia.
    replace (n <? out_size) with true by lia. replace (n <? out_cap) with true by lia. cbn [ocheck oguard].
    destruct (filter_at_ok (T mod b) HM) as [-> LFI]. cbn [obind].
    replace ((0 <=? T / b) && (T / b + taps c <=? Z.of_nat (length input))) with true by lia. cbn [oguard].
    rewrite advance_spec by auto. cbv zeta.
    assert (ET : T / b * b + T mod b = T) by (rewrite (Z.div_mod T b) at 3 by lia; lia).
    rewrite ET.
    rewrite (IH fuel i_end (T + a) (n + 1)); auto; try lia.
    2:{ rewrite steps_succ in EC by auto. now injection EC. }
    cbn [obind]. replace (T + a + Z.of_nat cnt * a) with (T + Z.of_nat (S cnt) * a) by lia.
    do 2 f_equal. cbn [seq map]. f_equal.
    + replace (T + Z.of_nat 0 * a) with T by lia. reflexivity.
    + rewrite (map_seq_shift _ cnt 1). apply map_ext. intros k. f_equal. lia.
Qed.

(* The number of outputs of a call and the state after it. *)
Definition call_count (s : @rstate X) (n : nat) : nat :=
  steps a b (phase s) (dsize s + Z.of_nat n - taps c + 1).

Lemma next_output_count s n : 0 <= phase s < b ->
  next_output_size c s (Z.of_nat n) = Z.of_nat (call_count s n).
Proof using V. clear Hdot; clear dot2; try clear dot1.
  pose proof pos_a as Pa. pose proof pos_b as Pb. intros Hp.
  unfold next_output_size, call_count, steps.
  replace (1 + Z.of_nat n + dsize s - taps c) with (dsize s + Z.of_nat n - taps c + 1) by lia.
  set (e := dsize s + Z.of_nat n - taps c + 1).
  destruct (Z.leb_spec e 0).
  - replace (e * b <=? phase s) with true by nia. reflexivity.
  - replace (e * b <=? phase s) with false by nia.
    rewrite Z.quot_div_nonneg by nia. rewrite Z2Nat.id by (apply Z.div_pos; nia).
    f_equal.
Qed.

Lemma process_core_spec cap strict out_cap s input :
  dsize s < taps c -> 0 <= phase s < b ->
  (match cap with None => True | Some k => taps c - 1 <= k end) ->
  Z.of_nat (call_count s (length input)) <= out_cap ->
  let K := call_count s (length input) in
  let T := phase s + Z.of_nat K * a in
  process_core dot1 dot2 cap strict out_cap c s input
  = Ok ({| delayed := skipn (Z.to_nat (T / b)) (delayed s ++ input); phase := T mod b |},
        map (fun k => out_at (delayed s ++ input) (phase s + Z.of_nat k * a)) (seq 0 K)) /\
  T / b <= dsize s + Z.of_nat (length input) /\
  dsize s + Z.of_nat (length input) - T / b < taps c.
Proof.
  pose proof pos_a as Pa. pose proof pos_b as Pb.
  intros HD HP HC HO K T. unfold process_core. cbv zeta.
  replace (dsize s <? taps c) with true by lia. replace (phase s <? b) with true by lia. cbn [ocheck].
  set (D := dsize s). set (N := Z.of_nat (length input)). set (del := delayed s).
  assert (Hfits : forall l : list X, Z.of_nat (length l) < taps c ->
    match cap with None => true | Some k => Z.of_nat (length l) <=? k end = true).
  { intros l Hl. destruct cap; lia. }
  assert (ED : D = Z.of_nat (length del)) by reflexivity.
  destruct (Z.ltb_spec (D + N) (taps c)) as [LT|LT].
  - assert (EK : K = 0%nat).
    { subst K. unfold call_count. apply steps_zero; auto. fold D N. nia. }
    assert (ET : T = phase s) by (subst T; rewrite EK; lia).
    rewrite ET, EK. rewrite Z.div_small, Z.mod_small by lia. cbn [Z.to_nat skipn seq map].
    rewrite Hfits by (rewrite app_length; lia). split; [reflexivity|lia].
  - replace (next_output_size c s N) with (Z.of_nat K) by (symmetry; apply next_output_count; auto).
    set (i_end := D + N - taps c + 1).
    assert (Hend : 1 <= i_end) by (subst i_end; lia).
    set (e := Z.min (Z.of_nat (length del)) i_end).
    set (K1 := steps a b (phase s) e).
    assert (EK : K = (K1 + steps a b (phase s + Z.of_nat K1 * a) i_end)%nat).
    { exact (steps_split a b Pa (phase s) e i_end ltac:(lia) ltac:(unfold e; lia)). }
    set (T1 := phase s + Z.of_nat K1 * a) in *.
    assert (HK : K <> 0%nat).
    { change K with (steps a b (phase s) i_end). rewrite steps_succ by nia. discriminate. }
    assert (TT : T < i_end * b + a).
    { exact (steps_tight a b Pa (phase s) i_end HK). }
    assert (TR : i_end * b <= T).
    { exact (steps_reach a b Pa (phase s) i_end). }
    assert (HTN : T / b <= D + N).
    { assert (T / b < D + N + 1); [|lia]. apply Z.div_lt_upper_bound; auto.
      destruct V as (_ & _ & _ & _ & _ & AB). subst i_end. nia. }
    assert (HTL : i_end <= T / b) by (apply Z.div_le_lower_bound; lia).
    pose proof (straddle_spec (Z.of_nat K) out_cap del input i_end K1 (S (Z.to_nat (Z.of_nat K))) (phase s) 0) as SS.
    rewrite (Z.div_small (phase s) b), (Z.mod_small (phase s) b) in SS by lia.
    rewrite SS; auto; try lia.
    clear SS. cbn [obind]. fold T1.
    assert (L1 : e <= T1 / b).
    { apply Z.div_le_lower_bound; auto. pose proof (steps_reach a b Pa (phase s) e). fold K1 in H. fold T1 in H. lia. }
    set (f := fun k => out_at (del ++ input) (phase s + Z.of_nat k * a)).
    destruct (Z.ltb_spec (T1 / b) D) as [LD|LD].
    + (* all outputs straddled *)
      assert (EI : e = i_end) by (subst e; lia).
      assert (E0 : steps a b T1 i_end = 0%nat).
      { apply steps_zero. pose proof (steps_reach a b Pa (phase s) e). fold K1 in H. fold T1 in H. lia. }
      assert (EK1 : K = K1) by lia.
      assert (ETT : T = T1) by (subst T T1; now rewrite EK1).
      rewrite map_length, seq_length. rewrite EK1, Z.eqb_refl, orb_true_r. cbn [ocheck].
      rewrite Hfits. 2:{ rewrite app_length, skipn_length. subst N; lia. }
      cbn [oguard]. replace (Z.of_nat (length (skipn (Z.to_nat (T1 / b)) del ++ input)) <? taps c) with true.
      2:{ rewrite app_length, skipn_length. subst N; lia. }
      rewrite orb_true_r. cbn [ocheck]. rewrite ETT. split; [|lia]. do 3 f_equal.
      rewrite skipn_app. f_equal. replace (Z.to_nat (T1 / b) - length del)%nat with 0%nat by lia. reflexivity.
    + set (K2 := steps a b T1 i_end) in *.
      pose proof (input_spec (Z.of_nat K) out_cap input K2 (S (Z.to_nat (Z.of_nat K))) (i_end - D)
                   (T1 - D * b) (Z.of_nat (length (map f (seq 0 K1))))) as SI.
      replace ((T1 - D * b) / b) with (T1 / b - D) in SI.
      2:{ replace (T1 - D * b) with (T1 + (- D) * b) by lia. rewrite Z.div_add by lia. lia. }
      replace ((T1 - D * b) mod b) with (T1 mod b) in SI.
      2:{ replace (T1 - D * b) with (T1 + (- D) * b) by lia. now rewrite Z.mod_add by lia. }
      rewrite SI; clear SI; auto.
      2:{ subst i_end N; lia. }
      2:{ assert (D * b <= T1); [|lia]. pose proof (Z.mul_div_le T1 b Pb). nia. }
      2:{ subst K2. rewrite <- (steps_shift a b (T1 - D * b) (i_end - D) D). f_equal; lia. }
      2:{ lia. } 2:{ rewrite map_length, seq_length. lia. } 2:{ rewrite map_length, seq_length. lia. }
      cbn [obind]. rewrite !map_length, !seq_length.
      replace (Z.of_nat K1 + Z.of_nat K2 =? Z.of_nat K) with true by lia. rewrite orb_true_r. cbn [ocheck].
      replace (T1 - D * b + Z.of_nat K2 * a) with (T + (- D) * b).
      2:{ subst T T1. rewrite EK. lia. }
      rewrite Z.div_add, Z.mod_add by lia.
      replace (T / b + - D <=? N) with true by lia. cbn [ocheck].
      rewrite Hfits by (rewrite skipn_length; subst N; lia). cbn [oguard].
      assert (HDT : D <= T / b).
      { apply Z.div_le_lower_bound; auto. assert (T1 <= T) by (subst T T1; nia).
        pose proof (Z.mul_div_le T1 b Pb). nia. }
      split; [|lia]. do 3 f_equal.
      * rewrite skipn_app, (skipn_all2 del) by lia. cbn [app]. f_equal. lia.
      * rewrite EK, seq_app, map_app. f_equal. rewrite (map_seq_shift _ K2 (0 + K1)).
        apply map_ext. intros k. unfold f, out_at. cbn [Nat.add].
        replace (phase s + Z.of_nat (K1 + k) * a) with (T1 - D * b + Z.of_nat k * a + D * b) by (subst T1; lia).
        rewrite Z.div_add, Z.mod_add by lia. f_equal.
        unfold slice. f_equal.
        assert (0 <= (T1 - D * b + Z.of_nat k * a) / b).
        { apply Z.div_pos; auto. pose proof (Z.mul_div_le T1 b Pb). nia. }
        rewrite skipn_app, (skipn_all2 del) by lia. cbn [app]. f_equal. lia.
Qed.

(* ---- the whole stream ---- *)
Definition at_stream (P : list X) (s : @rstate X) : Prop :=
  let m := num_outputs a b (Z.to_nat (taps c)) (Z.of_nat (length P)) in
  delayed s = skipn (Z.to_nat (whole a b m)) P /\ phase s = phase_of a b m /\
  whole a b m <= Z.of_nat (length P).

Lemma whole_nonneg m : 0 <= whole a b m.
Proof using V. clear Hdot; clear dot2; try clear dot1. pose proof pos_a. unfold whole. apply Z.div_pos; auto. nia. Qed.

Lemma at_stream_bounds P s : at_stream P s -> dsize s < taps c /\ 0 <= phase s < b.
Proof using V. clear Hdot; clear dot2; try clear dot1.
  pose proof pos_a as Pa. pose proof pos_b as Pb. pose proof V as (_ & _ & Pt & _).
  unfold at_stream. set (m := num_outputs _ _ _ _). intros (E1 & E2 & H). pose proof (whole_nonneg m) as Hw.
  split.
  - unfold dsize. rewrite E1, skipn_length.
    assert (Z.of_nat (length P) - taps c + 1 <= whole a b m).
    { apply Z.div_le_lower_bound; auto. subst m. rewrite num_outputs_steps by auto.
      pose proof (steps_reach a b Pa 0 (Z.of_nat (length P) - Z.of_nat (Z.to_nat (taps c)) + 1)). lia. }
    lia.
  - rewrite E2. apply Z.mod_pos_bound. auto.
Qed.

Lemma out_shift P q t : 0 <= q -> 0 <= t -> out_at (skipn (Z.to_nat q) P) t = out_at P (t + q * b).
Proof using V. clear Hdot; clear dot2; try clear dot1.
  pose proof pos_b as Pb. intros Hq Ht. unfold out_at.
  rewrite Z.div_add, Z.mod_add by lia. f_equal.
  unfold slice. rewrite skipn_skipn'. do 2 f_equal.
  assert (0 <= t / b) by (apply Z.div_pos; lia). lia.
Qed.

Lemma output_out P m : output dot1 a b (Z.to_nat (taps c)) (filters c) P m = out_at P (Z.of_nat m * a).
Proof. reflexivity. Qed.

(* a later input does not change earlier outputs *)
Lemma output_app P Q m :
  (m < num_outputs a b (Z.to_nat (taps c)) (Z.of_nat (length P)))%nat ->
  output dot1 a b (Z.to_nat (taps c)) (filters c) (P ++ Q) m
  = output dot1 a b (Z.to_nat (taps c)) (filters c) P m.
Proof using V. clear Hdot; clear dot2; try clear dot1.
  pose proof pos_a as Pa. pose proof pos_b as Pb. pose proof V as (_ & _ & Pt & _).
  intros H. rewrite num_outputs_steps in H by auto. apply steps_before in H; auto.
  unfold output. f_equal. unfold slice.
  pose proof (whole_nonneg m) as Hw.
  assert (whole a b m + taps c <= Z.of_nat (length P)).
  { assert (whole a b m < Z.of_nat (length P) - taps c + 1); [|lia].
    apply Z.div_lt_upper_bound; auto. lia. }
  rewrite skipn_app, firstn_app.
  replace (Z.to_nat (taps c) - length (skipn (Z.to_nat (whole a b m)) P))%nat with 0%nat
    by (rewrite skipn_length; lia).
  cbn [firstn]. now rewrite app_nil_r.
Qed.

Lemma resampled_app P Q :
  resampled dot1 a b (Z.to_nat (taps c)) (filters c) (P ++ Q)
  = resampled dot1 a b (Z.to_nat (taps c)) (filters c) P ++
    map (output dot1 a b (Z.to_nat (taps c)) (filters c) (P ++ Q))
      (seq (num_outputs a b (Z.to_nat (taps c)) (Z.of_nat (length P)))
           (num_outputs a b (Z.to_nat (taps c)) (Z.of_nat (length (P ++ Q)))
            - num_outputs a b (Z.to_nat (taps c)) (Z.of_nat (length P)))).
Proof using V. clear Hdot; clear dot2; try clear dot1.
  pose proof pos_a as Pa. pose proof pos_b as Pb.
  unfold resampled.
  set (m := num_outputs a b (Z.to_nat (taps c)) (Z.of_nat (length P))).
  set (m' := num_outputs a b (Z.to_nat (taps c)) (Z.of_nat (length (P ++ Q)))).
  assert (LE : (m <= m')%nat).
  { subst m m'. rewrite !num_outputs_steps by auto.
    rewrite (steps_split a b Pa 0 (Z.of_nat (length P) - Z.of_nat (Z.to_nat (taps c)) + 1)
      (Z.of_nat (length (P ++ Q)) - Z.of_nat (Z.to_nat (taps c)) + 1)); [lia|lia|]. rewrite app_length. lia. }
  replace m' with (m + (m' - m))%nat at 1 by lia.
  rewrite seq_app, map_app. f_equal. apply map_ext_in. intros k Hk. apply in_seq in Hk.
  apply output_app. fold m. lia.
Qed.

Lemma process_stream cap strict out_cap P s input :
  (match cap with None => True | Some k => taps c - 1 <= k end) ->
  at_stream P s ->
  next_output_size c s (Z.of_nat (length input)) <= out_cap ->
  exists s' ys,
    process_core dot1 dot2 cap strict out_cap c s input = Ok (s', ys) /\
    at_stream (P ++ input) s' /\
    Z.of_nat (length ys) = next_output_size c s (Z.of_nat (length input)) /\
    resampled dot1 a b (Z.to_nat (taps c)) (filters c) (P ++ input)
    = resampled dot1 a b (Z.to_nat (taps c)) (filters c) P ++ ys.
Proof.
  pose proof pos_a as Pa. pose proof pos_b as Pb. pose proof V as (_ & _ & Pt & _).
  intros HC HA HO. destruct (at_stream_bounds P s HA) as [HD HP].
  rewrite next_output_count in HO by auto.
  destruct (process_core_spec cap strict out_cap s input HD HP HC HO) as (E & B1 & B2).
  eexists _, _. split; [exact E|]. clear E.
  destruct HA as (E1 & E2 & HW).
  set (m := num_outputs a b (Z.to_nat (taps c)) (Z.of_nat (length P))) in *.
  set (K := call_count s (length input)) in *.
  pose proof (whole_nonneg m) as Hw.
  assert (ES : Z.of_nat m * a = whole a b m * b + phase s).
  { rewrite E2. unfold whole, phase_of. rewrite (Z.div_mod (Z.of_nat m * a) b) at 1 by lia. lia. }
  assert (EM : num_outputs a b (Z.to_nat (taps c)) (Z.of_nat (length (P ++ input))) = (m + K)%nat).
  { subst m. rewrite !num_outputs_steps in * by auto.
    rewrite (steps_split a b Pa 0 (Z.of_nat (length P) - Z.of_nat (Z.to_nat (taps c)) + 1)
      (Z.of_nat (length (P ++ input)) - Z.of_nat (Z.to_nat (taps c)) + 1)) by (rewrite ?app_length; lia).
    f_equal. subst K. unfold call_count.
    set (m := steps a b 0 (Z.of_nat (length P) - Z.of_nat (Z.to_nat (taps c)) + 1)) in *.
    rewrite <- (steps_shift a b (phase s) _ (whole a b m)). f_equal; [lia|].
    unfold dsize. rewrite E1, skipn_length, app_length. lia. }
  assert (EW : whole a b (m + K) = whole a b m + (phase s + Z.of_nat K * a) / b).
  { unfold whole at 1. replace (Z.of_nat (m + K) * a) with (phase s + Z.of_nat K * a + whole a b m * b) by lia.
    rewrite Z.div_add by lia. lia. }
  assert (EP : phase_of a b (m + K) = (phase s + Z.of_nat K * a) mod b).
  { unfold phase_of. replace (Z.of_nat (m + K) * a) with (phase s + Z.of_nat K * a + whole a b m * b) by lia.
    now rewrite Z.mod_add by lia. }
  assert (EA : delayed s ++ input = skipn (Z.to_nat (whole a b m)) (P ++ input)).
  { rewrite skipn_app. rewrite <- E1. f_equal.
    replace (Z.to_nat (whole a b m) - length P)%nat with 0%nat by lia. reflexivity. }
  assert (HT : 0 <= (phase s + Z.of_nat K * a) / b) by (apply Z.div_pos; nia).
  split; [|split].
  - unfold at_stream. rewrite EM. cbn [delayed phase]. rewrite EW, EP. split; [|split; [reflexivity|]].
    + rewrite EA, skipn_skipn'. f_equal. lia.
    + unfold dsize in B1. rewrite E1, skipn_length in B1. rewrite app_length. lia.
  - rewrite map_length, seq_length. now rewrite next_output_count.
  - rewrite resampled_app. fold m. rewrite EM. f_equal.
    replace (m + K - m)%nat with K by lia.
    rewrite (map_seq_shift _ K m). apply map_ext. intros k.
    rewrite output_out, EA, out_shift by nia. f_equal. lia.
Qed.

(* any step function that behaves as process_core *)
Lemma run_stream (step : @rstate X -> list X -> outcome (@rstate X * list Y)) (okc : list X -> Prop) :
  (forall P s input, okc input -> at_stream P s -> exists s' ys,
     step s input = Ok (s', ys) /\ at_stream (P ++ input) s' /\
     resampled dot1 a b (Z.to_nat (taps c)) (filters c) (P ++ input)
     = resampled dot1 a b (Z.to_nat (taps c)) (filters c) P ++ ys) ->
  forall chunks P s, Forall okc chunks -> at_stream P s ->
  exists s' outs, run step s chunks = Ok (s', outs) /\ at_stream (P ++ concat chunks) s' /\
    resampled dot1 a b (Z.to_nat (taps c)) (filters c) (P ++ concat chunks)
    = resampled dot1 a b (Z.to_nat (taps c)) (filters c) P ++ concat outs.
Proof using V. clear Hdot; clear dot2; try clear dot1.
  intros HS. induction chunks as [|ch chunks IH]; intros P s F HA.
  - exists s, []. cbn [run concat]. rewrite !app_nil_r. auto.
  - inversion F as [|? ? F1 F2]; subst.
    destruct (HS P s ch F1 HA) as (s1 & ys & E & A1 & R1).
    destruct (IH (P ++ ch) s1 F2 A1) as (s2 & outs & E2 & A2 & R2).
    exists s2, (ys :: outs). cbn [run]. rewrite E. cbn [obind fst snd]. rewrite E2. cbn [obind fst snd concat].
    split; [reflexivity|]. rewrite <- app_assoc in A2, R2. split; [exact A2|].
    rewrite R2, R1, <- app_assoc. reflexivity.
Qed.

Lemma at_stream_start (P : list X) : Z.of_nat (length P) < taps c ->
  at_stream P {| delayed := P; phase := 0 |} /\
  resampled dot1 a b (Z.to_nat (taps c)) (filters c) P = [].
Proof using V. clear Hdot; clear dot2; try clear dot1.
  intros H. pose proof pos_a as Pa. pose proof pos_b as Pb.
  assert (E : num_outputs a b (Z.to_nat (taps c)) (Z.of_nat (length P)) = 0%nat).
  { rewrite num_outputs_steps by auto. apply steps_zero. nia. }
  unfold at_stream, resampled. rewrite E. split; [|reflexivity].
  unfold whole, phase_of. cbn [Z.of_nat Z.mul]. rewrite Z.div_0_l, Z.mod_0_l by lia.
  cbn. auto with zarith.
Qed.
End Core.
