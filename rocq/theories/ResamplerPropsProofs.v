From Coq Require Import SpecFloat.
From Verif Require Import CInt ListLemmas ResamplerModel ResamplerSpec ResamplerProofs.

(* ---- portable ---- *)
Section Portable.
Context {V : Type} (zero : V) (add mul : V -> V -> V).
Notation dot1 := (c_dot1 zero add mul).
Notation dot2 := (c_dot2 zero add mul).

Lemma combine_app' {A B} (f : list A) (s u : list B) :
  combine f (s ++ u) = combine f s ++ combine (skipn (length s) f) u.
Proof.
  revert f. induction s as [|x s IH]; intros f; [now destruct f|].
  destruct f; [reflexivity|]. cbn. now rewrite IH.
Qed.

Lemma c_dot_split f s u : dot2 f s u = dot1 f (s ++ u).
Proof. unfold c_dot1, c_dot2. now rewrite combine_app', fold_left_app. Qed.

Lemma make_config_valid h radius a b :
  0 <= radius -> 0 < a -> 0 < b -> a <= b * (2 * radius + 1) ->
  valid_config (make_config (V := V) h radius a b).
Proof using Type. clear zero add mul.
  intros Hr Ha Hb Hc. unfold valid_config, make_config. cbn [numer denom taps filters].
  split; [lia|]. split; [lia|]. split; [lia|]. split; [|split; [|lia]].
  - rewrite map_length, seq_length. lia.
  - apply Forall_forall. intros f Hf. apply in_map_iff in Hf. destruct Hf as (p & <- & _).
    unfold make_filter. rewrite map_length, seq_length. lia.
Qed.

Lemma count_max {C X : Type} (c : @config C) (s : @rstate X) n : valid_config c ->
  dsize s < taps c -> 0 <= phase s < denom c -> 0 <= n ->
  next_output_size c s n <= max_output c n.
Proof using Type. clear zero add mul.
  intros V0 HD HP Hn. pose proof (pos_a c V0). pose proof (pos_b c V0).
  unfold next_output_size, max_output.
  destruct (Z.leb_spec (1 + n + dsize s - taps c) 0).
  - apply Z.quot_pos; nia.
  - rewrite !Z.quot_div_nonneg by nia. apply Z.div_le_mono; nia.
Qed.

Lemma max_output_mono {C} (c : @config C) n m : valid_config c -> 0 <= n <= m ->
  max_output c n <= max_output c m.
Proof using Type. clear zero add mul.
  intros V0 Hn. pose proof (pos_a c V0). pose proof (pos_b c V0).
  unfold max_output. rewrite !Z.quot_div_nonneg by nia. apply Z.div_le_mono; nia.
Qed.

Section One.
Context (c : @config V) (radius maxin : Z) (VC : valid_config c) (HT : taps c = 2 * radius + 1) (HR : 0 <= radius).

Lemma portable_step P s input :
  Z.of_nat (length input) <= maxin -> at_stream c P s ->
  exists s' ys, portable_process zero add mul c radius maxin s input = Ok (s', ys) /\
    at_stream c (P ++ input) s' /\
    Z.of_nat (length ys) = next_output_size c s (Z.of_nat (length input)) /\
    Z.of_nat (length ys) <= max_output c maxin /\
    resampled dot1 (numer c) (denom c) (Z.to_nat (taps c)) (filters c) (P ++ input)
    = resampled dot1 (numer c) (denom c) (Z.to_nat (taps c)) (filters c) P ++ ys.
Proof.
  intros HL HA. destruct (at_stream_bounds c VC P s HA) as [HD HP].
  assert (HB : next_output_size c s (Z.of_nat (length input)) <= max_output c maxin).
  { etransitivity; [apply count_max|apply max_output_mono]; auto; lia. }
  destruct (process_stream dot1 dot2 c VC (fun f s u _ => c_dot_split f s u) (Some (taps c)) true
              (max_output c maxin) P s input) as (s' & ys & E & A' & L & R); auto. { lia. }
  exists s', ys. split; [|repeat split; auto; try apply A'; lia].
  unfold portable_process. replace (dsize s <? taps c) with true by lia.
  replace (phase s <? denom c) with true by lia. cbn [ocheck].
  replace (0 <? Z.of_nat (length input) - maxin) with false by lia. exact E.
Qed.

Lemma portable_reset_stream : at_stream c (repeat zero (Z.to_nat radius)) (reset zero radius) /\
  resampled dot1 (numer c) (denom c) (Z.to_nat (taps c)) (filters c) (repeat zero (Z.to_nat radius)) = [].
Proof. apply at_stream_start; auto. rewrite repeat_length. lia. Qed.

Lemma portable_run chunks :
  Forall (fun ch => Z.of_nat (length ch) <= maxin) chunks ->
  exists s' outs, run (portable_process zero add mul c radius maxin) (reset zero radius) chunks = Ok (s', outs) /\
    at_stream c (repeat zero (Z.to_nat radius) ++ concat chunks) s' /\
    concat outs = resampled dot1 (numer c) (denom c) (Z.to_nat (taps c)) (filters c)
                    (repeat zero (Z.to_nat radius) ++ concat chunks).
Proof.
  intros F. destruct portable_reset_stream as [A0 R0].
  destruct (run_stream dot1 c VC (portable_process zero add mul c radius maxin)
    (fun ch => Z.of_nat (length ch) <= maxin)) with (chunks := chunks) (P := repeat zero (Z.to_nat radius))
    (s := reset zero radius) as (s' & outs & E & A' & R); auto.
  - intros P s input HL HA. destruct (portable_step P s input HL HA) as (s' & ys & ? & ? & ? & ? & ?).
    exists s', ys. auto.
  - exists s', outs. split; [exact E|]. split; [exact A'|]. rewrite R, R0. reflexivity.
Qed.

(* too long an input: only its last max_input_size samples count *)
Lemma portable_excess s input : dsize s < taps c -> 0 <= phase s < denom c -> 0 <= maxin ->
  maxin < Z.of_nat (length input) ->
  portable_process zero add mul c radius maxin s input
  = portable_process zero add mul c radius maxin (reset zero radius)
      (skipn (length input - Z.to_nat maxin) input).
Proof.
  intros HD HP HM HL. pose proof (pos_b c VC). unfold portable_process.
  replace (dsize s <? taps c) with true by lia. replace (phase s <? denom c) with true by lia.
  assert (E1 : dsize (reset zero radius) <? taps c = true) by (unfold dsize, reset; cbn; rewrite repeat_length; lia).
  rewrite E1. replace (phase (reset zero radius) <? denom c) with true by (cbn; lia). cbn [ocheck].
  rewrite skipn_length.
  replace (0 <? Z.of_nat (length input) - maxin) with true by lia.
  replace (0 <? Z.of_nat (length input - (length input - Z.to_nat maxin)) - maxin) with false by lia.
  do 3 f_equal. lia.
Qed.
End One.

(* ---- the formula ---- *)
Lemma nth_padded radius (x : list V) j : nth j (repeat zero radius ++ x) zero
  = at_index zero x (Z.of_nat j - Z.of_nat radius).
Proof.
  unfold at_index. destruct (Nat.lt_ge_cases j radius).
  - rewrite app_nth1 by (rewrite repeat_length; lia). rewrite nth_repeat.
    replace (Z.of_nat j - Z.of_nat radius <? 0) with true by lia. reflexivity.
  - rewrite app_nth2 by (rewrite repeat_length; lia). rewrite repeat_length.
    replace (Z.of_nat j - Z.of_nat radius <? 0) with false by lia. f_equal. lia.
Qed.

Lemma map_nth_seq (l : list V) : l = map (fun j => nth j l zero) (seq 0 (length l)).
Proof.
  induction l as [|x l IH]; [reflexivity|].
  cbn [length seq map nth]. f_equal. rewrite (map_seq_shift _ (length l) 1). exact IH.
Qed.

Lemma nth_slice_in pos n (l : list V) j : (j < n)%nat ->
  nth j (slice pos n l) zero = nth (pos + j) l zero.
Proof.
  intros H. unfold slice. revert pos l. induction n as [|n IH] in j, H |- *; [lia|]. intros pos l.
  destruct (skipn pos l) as [|y ys] eqn:E.
  - cbn [firstn]. destruct j; cbn [nth]; (rewrite nth_overflow; [reflexivity|]);
      pose proof (f_equal (@length V) E) as L; rewrite skipn_length in L; cbn [length] in L; lia.
  - assert (E2 : skipn (pos + 1) l = ys).
    { rewrite <- skipn_skipn', E. reflexivity. }
    destruct j as [|j]; cbn [firstn nth].
    + rewrite Nat.add_0_r. rewrite <- (firstn_skipn pos l) at 1.
      assert (length (firstn pos l) = pos).
      { rewrite firstn_length. pose proof (f_equal (@length V) E) as L. rewrite skipn_length in L. cbn [length] in L. lia. }
      rewrite app_nth2 by lia. rewrite E. replace (pos - length (firstn pos l))%nat with 0%nat by lia. reflexivity.
    + rewrite <- E2. rewrite IH by lia. f_equal. lia.
Qed.

Lemma combine_map {A B D} (f : D -> A) (g : D -> B) l : combine (map f l) (map g l) = map (fun x => (f x, g x)) l.
Proof. induction l; cbn; f_equal; auto. Qed.

Lemma fold_left_map {A B D} (f : A -> B -> A) (g : D -> B) l x :
  fold_left f (map g l) x = fold_left (fun y d => f y (g d)) l x.
Proof. revert x. induction l; intros x; cbn; auto. Qed.

Lemma fold_left_ext_in {A B} (f g : A -> B -> A) l x :
  (forall y b, In b l -> f y b = g y b) -> fold_left f l x = fold_left g l x.
Proof.
  revert x. induction l as [|b l IH]; intros x H; cbn; auto.
  rewrite H by (left; auto). apply IH. intros. apply H. now right.
Qed.

Lemma dot_interpolate h radius x p q : 0 <= q ->
  (Z.to_nat q + (2 * radius + 1) <= radius + length x)%nat ->
  dot1 (make_filter h (Z.of_nat radius) p) (slice (Z.to_nat q) (2 * radius + 1) (repeat zero radius ++ x))
  = interpolate zero add mul h radius x p q.
Proof.
  intros Hq HL. set (P := repeat zero radius ++ x).
  rewrite (map_nth_seq (slice (Z.to_nat q) (2 * radius + 1) P)).
  assert (L : length (slice (Z.to_nat q) (2 * radius + 1) P) = (2 * radius + 1)%nat).
  { unfold slice. rewrite firstn_length, skipn_length. subst P. rewrite app_length, repeat_length. lia. }
  rewrite L. unfold make_filter. replace (Z.to_nat (2 * Z.of_nat radius + 1)) with (2 * radius + 1)%nat by lia.
  unfold c_dot1, interpolate. rewrite combine_map, fold_left_map.
  apply fold_left_ext_in. intros y j Hj. apply in_seq in Hj. unfold mac. cbn [fst snd].
  do 2 f_equal. rewrite nth_slice_in by lia. unfold P. rewrite nth_padded. f_equal. lia.
Qed.

Lemma portable_formula h radius a b x m :
  0 < a -> 0 < b -> a <= b * (2 * Z.of_nat radius + 1) ->
  let c := make_config h (Z.of_nat radius) a b in
  let ys := resampled dot1 a b (Z.to_nat (taps c)) (filters c) (repeat zero radius ++ x) in
  (m < length ys)%nat ->
  nth m ys zero = interpolate zero add mul h radius x ((Z.of_nat m * a) mod b) (Z.of_nat m * a / b).
Proof.
  intros Ha Hb Hc c ys Hm.
  unfold ys, resampled in *. rewrite map_length, seq_length in Hm.
  set (f := output dot1 a b (Z.to_nat (taps c)) (filters c) (repeat zero radius ++ x)).
  rewrite (nth_indep _ zero (f 0%nat)) by (rewrite map_length, seq_length; exact Hm).
  rewrite map_nth, seq_nth by exact Hm. cbn [Nat.add]. unfold f, output, c. cbn [taps filters make_config].
  rewrite num_outputs_steps in Hm by auto. apply steps_before in Hm; auto.
  cbn [c taps make_config] in Hm. rewrite app_length, repeat_length in Hm.
  assert (HW : 0 <= whole a b m) by (apply Z.div_pos; nia).
  assert (HW2 : whole a b m < Z.of_nat (radius + length x) - Z.of_nat (Z.to_nat (2 * Z.of_nat radius + 1)) + 1).
  { apply Z.div_lt_upper_bound; auto. rewrite Z.mul_comm with (n := b). lia. }
  pose proof (Z.mod_pos_bound (Z.of_nat m * a) b Hb) as HM.
  replace (Z.to_nat (2 * Z.of_nat radius + 1)) with (2 * radius + 1)%nat in * by lia.
  replace (nth (Z.to_nat (phase_of a b m)) (map (fun p => make_filter h (Z.of_nat radius) (Z.of_nat p)) (seq 0 (Z.to_nat b))) [])
    with (make_filter h (Z.of_nat radius) (phase_of a b m)).
  - apply dot_interpolate; auto. unfold whole in *. lia.
  - symmetry. unfold phase_of.
    rewrite (nth_indep _ [] (make_filter h (Z.of_nat radius) (Z.of_nat 0))) by (rewrite map_length, seq_length; lia).
    rewrite (map_nth (fun p => make_filter h (Z.of_nat radius) (Z.of_nat p))), seq_nth by lia. f_equal. lia.
Qed.
End Portable.

(* ---- Q and RF ---- *)
Section Cpp.
Context {C X Y : Type} (zero : X) (dot : list C -> list X -> Y) (plus : Y -> Y -> Y).
Context (c : @config C) (radius : Z) (VC : valid_config c) (HT : taps c = 2 * radius + 1) (HR : 0 <= radius).
Context (split_law : forall f1 f2 s u, length f1 = length s -> length f2 = length u ->
  plus (dot f1 s) (dot f2 u) = dot (f1 ++ f2) (s ++ u)).

Lemma cpp_dot_split f s u : length f = (length s + length u)%nat -> cpp_dot2 dot plus f s u = dot f (s ++ u).
Proof.
  intros H. unfold cpp_dot2. rewrite split_law, firstn_skipn; auto.
  - rewrite firstn_length. lia.
  - rewrite skipn_length. lia.
Qed.

Notation sampled := (resampled dot (numer c) (denom c) (Z.to_nat (taps c)) (filters c)).

Lemma q_step P s input : at_stream c P s ->
  exists s' ys, q_process dot plus c s input = Ok (s', ys) /\ at_stream c (P ++ input) s' /\
    Z.of_nat (length ys) = next_output_size c s (Z.of_nat (length input)) /\
    sampled (P ++ input) = sampled P ++ ys.
Proof.
  intros HA. unfold q_process. apply process_stream; auto; try lia. intros. now apply cpp_dot_split.
Qed.

Lemma rf_step P s input : at_stream c P s ->
  exists s' ys, rf_process dot plus c s input = Ok (s', ys) /\ at_stream c (P ++ input) s' /\
    Z.of_nat (length ys) = next_output_size c s (Z.of_nat (length input)) /\
    sampled (P ++ input) = sampled P ++ ys.
Proof.
  intros HA. destruct input as [|x input].
  - exists s, []. cbn [rf_process]. rewrite !app_nil_r. split; [reflexivity|]. split; [auto|]. split; [|reflexivity].
    destruct (at_stream_bounds c VC P s HA). unfold next_output_size. cbn [length].
    replace (1 + Z.of_nat 0 + dsize s - taps c <=? 0) with true by lia. reflexivity.
  - unfold rf_process. apply process_stream; auto; try lia. intros. now apply cpp_dot_split.
Qed.

Lemma start_stream n : n < taps c -> at_stream c (repeat zero (Z.to_nat n)) {| delayed := repeat zero (Z.to_nat n); phase := 0 |} /\
  sampled (repeat zero (Z.to_nat n)) = [].
Proof. intros H. apply at_stream_start; auto. rewrite repeat_length. pose proof VC as (_ & _ & Pt & _). lia. Qed.

Lemma cpp_run (step : @rstate X -> list X -> outcome (@rstate X * list Y)) n chunks :
  (forall P s input, at_stream c P s -> exists s' ys, step s input = Ok (s', ys) /\ at_stream c (P ++ input) s' /\
    Z.of_nat (length ys) = next_output_size c s (Z.of_nat (length input)) /\
    sampled (P ++ input) = sampled P ++ ys) ->
  n < taps c ->
  exists s' outs, run step {| delayed := repeat zero (Z.to_nat n); phase := 0 |} chunks = Ok (s', outs) /\
    at_stream c (repeat zero (Z.to_nat n) ++ concat chunks) s' /\
    concat outs = sampled (repeat zero (Z.to_nat n) ++ concat chunks).
Proof.
  intros HS Hn. destruct (start_stream n Hn) as [A0 R0].
  destruct (run_stream dot c VC step (fun _ => True)) with (chunks := chunks) (P := repeat zero (Z.to_nat n))
    (s := {| delayed := repeat zero (Z.to_nat n); phase := 0 |}) as (s' & outs & E & A' & R); auto.
  - intros P s input _ HA. destruct (HS P s input HA) as (s' & ys & ? & ? & ? & ?). exists s', ys. auto.
  - apply Forall_forall. auto.
  - exists s', outs. split; [exact E|]. split; [exact A'|]. rewrite R, R0. reflexivity.
Qed.

Lemma next_output_additive (s s' : @rstate X) n k P input :
  at_stream c P s -> at_stream c (P ++ input) s' -> n = Z.of_nat (length input) -> 0 <= k ->
  next_output_size c s (n + k) = next_output_size c s n + next_output_size c s' k.
Proof.
  intros HA HA' -> Hk.
  destruct (at_stream_bounds c VC P s HA) as [HD HP].
  destruct (at_stream_bounds c VC (P ++ input) s' HA') as [HD' HP'].
  pose proof (pos_a c VC) as Pa. pose proof (pos_b c VC) as Pb. pose proof VC as (_ & _ & Pt & _).
  replace (Z.of_nat (length input) + k) with (Z.of_nat (length input + Z.to_nat k)) by lia.
  replace k with (Z.of_nat (Z.to_nat k)) at 2 by lia.
  rewrite !next_output_count by auto. set (kk := Z.to_nat k).
  assert (F : forall P (s : @rstate X) j, at_stream c P s ->
    (num_outputs (numer c) (denom c) (Z.to_nat (taps c)) (Z.of_nat (length P + j))
     = num_outputs (numer c) (denom c) (Z.to_nat (taps c)) (Z.of_nat (length P)) + call_count c s j)%nat).
  { clear - Pa Pb Pt VC. intros P s j (E1 & E2 & HW).
    set (m := num_outputs (numer c) (denom c) (Z.to_nat (taps c)) (Z.of_nat (length P))) in *.
    assert (ES : Z.of_nat m * numer c = whole (numer c) (denom c) m * denom c + phase s).
    { rewrite E2. unfold whole, phase_of. rewrite (Z.div_mod (Z.of_nat m * numer c) (denom c)) at 1 by lia. lia. }
    assert (Hw := whole_nonneg c VC m).
    subst m. rewrite !num_outputs_steps in * by auto.
    rewrite (steps_split _ _ Pa 0 (Z.of_nat (length P) - Z.of_nat (Z.to_nat (taps c)) + 1)
      (Z.of_nat (length P + j) - Z.of_nat (Z.to_nat (taps c)) + 1)) by lia.
    f_equal. unfold call_count.
    set (m := steps (numer c) (denom c) 0 (Z.of_nat (length P) - Z.of_nat (Z.to_nat (taps c)) + 1)) in *.
    rewrite <- (steps_shift _ _ (phase s) _ (whole (numer c) (denom c) m)). f_equal; [lia|].
    unfold dsize. rewrite E1, skipn_length. lia. }
  pose proof (F P s (length input) HA). pose proof (F P s (length input + kk)%nat HA).
  pose proof (F (P ++ input) s' kk HA') as F3. rewrite app_length in F3.
  replace (length P + length input + kk)%nat with (length P + (length input + kk))%nat in F3 by lia. lia.
Qed.

Lemma q_signal input :
  q_resample_signal zero dot plus c radius input
  = Ok (sampled (repeat zero (Z.to_nat radius) ++ input ++ repeat zero (Z.to_nat (2 * radius)))).
Proof.
  destruct (start_stream radius) as [A0 R0]; [lia|].
  unfold q_resample_signal. change (reset zero radius) with {| delayed := repeat zero (Z.to_nat radius); phase := 0 |}.
  set (s0 := {| delayed := repeat zero (Z.to_nat radius); phase := 0 |}) in *.
  destruct (q_step _ s0 input A0) as (s1 & ys & E1 & A1 & L1 & R1).
  rewrite E1. cbn [obind]. rewrite L1, Z.eqb_refl. cbn [ocheck].
  unfold q_flush. destruct (q_step _ s1 (repeat zero (Z.to_nat (taps c - 1))) A1) as (s2 & zs & E2 & A2 & L2 & R2).
  rewrite E2. cbn [obind]. rewrite repeat_length in L2.
  rewrite (next_output_additive s0 s1 (Z.of_nat (length input)) (taps c - 1) _ input A0 A1 eq_refl) by lia.
  rewrite L2. replace (Z.of_nat (Z.to_nat (taps c - 1))) with (taps c - 1) by lia.
  replace (next_output_size c s1 (taps c - 1) =? _) with true by lia. cbn [ocheck].
  rewrite <- app_assoc in R2. replace (2 * radius) with (taps c - 1) by lia.
  rewrite R2, R1, R0. reflexivity.
Qed.
End Cpp.

(* ---- counts ---- *)
Section Counts.
Context {C X : Type} (c : @config C) (VC : valid_config c) (s : @rstate X).
Context (HD : dsize s < taps c) (HP : 0 <= phase s < denom c).

Lemma next_output_mono n m : 0 <= n <= m -> next_output_size c s n <= next_output_size c s m.
Proof.
  intros H. pose proof (pos_a c VC). pose proof (pos_b c VC). unfold next_output_size.
  destruct (Z.leb_spec (1 + n + dsize s - taps c) 0); destruct (Z.leb_spec (1 + m + dsize s - taps c) 0); try lia.
  - apply Z.quot_pos; nia.
  - rewrite !Z.quot_div_nonneg by nia. apply Z.div_le_mono; nia.
Qed.

Lemma next_input_eq m : 0 < m ->
  next_input_to_produce c s m = ((m - 1) * numer c + phase s) / denom c + taps c - dsize s.
Proof.
  intros H. pose proof (pos_a c VC). pose proof (pos_b c VC). unfold next_input_to_produce.
  replace (m <=? 0) with false by lia. rewrite Z.quot_div_nonneg by nia. reflexivity.
Qed.

Lemma next_input_pos m : 0 < m -> 0 < next_input_to_produce c s m.
Proof.
  intros H. rewrite next_input_eq by auto. pose proof (pos_a c VC). pose proof (pos_b c VC).
  assert (0 <= ((m - 1) * numer c + phase s) / denom c) by (apply Z.div_pos; nia). lia.
Qed.

Lemma next_input_enough m : 0 <= m -> m <= next_output_size c s (next_input_to_produce c s m).
Proof.
  intros H. pose proof (pos_a c VC) as Pa. pose proof (pos_b c VC) as Pb.
  destruct (Z.eq_dec m 0) as [->|N].
  - unfold next_output_size, next_input_to_produce. cbn [Z.leb Z.compare].
    replace (1 + 0 + dsize s - taps c <=? 0) with true by lia. lia.
  - pose proof (next_input_pos m ltac:(lia)). rewrite next_input_eq by lia.
    set (q := ((m - 1) * numer c + phase s) / denom c).
    assert (0 <= q) by (apply Z.div_pos; nia).
    unfold next_output_size. replace (1 + (q + taps c - dsize s) + dsize s - taps c) with (q + 1) by lia.
    replace (q + 1 <=? 0) with false by lia. rewrite Z.quot_div_nonneg by nia.
    apply Z.div_le_lower_bound; auto.
    pose proof (Z.mod_pos_bound ((m - 1) * numer c + phase s) (denom c) Pb).
    pose proof (Z.div_mod ((m - 1) * numer c + phase s) (denom c) ltac:(lia)) as E. fold q in E. nia.
Qed.

Lemma next_input_least m n : 0 < m -> 0 <= n -> n < next_input_to_produce c s m -> next_output_size c s n < m.
Proof.
  intros H Hn L. pose proof (pos_a c VC) as Pa. pose proof (pos_b c VC) as Pb. rewrite next_input_eq in L by auto.
  set (q := ((m - 1) * numer c + phase s) / denom c) in *.
  unfold next_output_size. destruct (Z.leb_spec (1 + n + dsize s - taps c) 0); [lia|].
  rewrite Z.quot_div_nonneg by nia. apply Z.div_lt_upper_bound; auto.
  pose proof (Z.mul_div_le ((m - 1) * numer c + phase s) (denom c) Pb) as E. fold q in E. nia.
Qed.

Lemma next_input_over m : 0 <= m ->
  next_output_size c s (next_input_to_produce c s m) <= m + (denom c - 1) / numer c.
Proof.
  intros H. pose proof (pos_a c VC) as Pa. pose proof (pos_b c VC) as Pb.
  assert (Hd : 0 <= (denom c - 1) / numer c) by (apply Z.div_pos; lia).
  destruct (Z.eq_dec m 0) as [->|N].
  - unfold next_output_size, next_input_to_produce. cbn [Z.leb Z.compare].
    replace (1 + 0 + dsize s - taps c <=? 0) with true by lia. lia.
  - rewrite next_input_eq by lia. set (q := ((m - 1) * numer c + phase s) / denom c).
    assert (0 <= q) by (apply Z.div_pos; nia).
    unfold next_output_size. replace (1 + (q + taps c - dsize s) + dsize s - taps c) with (q + 1) by lia.
    replace (q + 1 <=? 0) with false by lia. rewrite Z.quot_div_nonneg by nia.
    replace (m + (denom c - 1) / numer c) with ((denom c - 1 + m * numer c) / numer c)
      by (rewrite Z.div_add by lia; lia).
    apply Z.div_le_mono; auto.
    pose proof (Z.mul_div_le ((m - 1) * numer c + phase s) (denom c) Pb) as E. fold q in E. nia.
Qed.

Lemma next_input_exact m : 0 <= m -> denom c <= numer c ->
  next_output_size c s (next_input_to_produce c s m) = m.
Proof.
  intros H D. pose proof (next_input_enough m H). pose proof (next_input_over m H).
  pose proof (pos_b c VC). rewrite Z.div_small in * by lia. lia.
Qed.

Lemma next_input_max m : next_input_to_produce c s m <= max_input_to_produce c m.
Proof.
  pose proof (pos_a c VC) as Pa. pose proof (pos_b c VC) as Pb.
  unfold max_input_to_produce, next_input_to_produce. destruct (Z.leb_spec m 0); [lia|].
  rewrite !Z.quot_div_nonneg by nia.
  assert (((m - 1) * numer c + phase s) / denom c <= ((m - 1) * numer c + denom c - 1) / denom c)
    by (apply Z.div_le_mono; lia).
  unfold dsize in *. lia.
Qed.
End Counts.

(* ---- fully primed ---- *)
Lemma primed_count {C X} (c : @config C) (s : @rstate X) k : valid_config c ->
  dsize s = taps c - 1 -> phase s = 0 -> 0 <= k ->
  next_output_size c s (k * numer c) = k * denom c.
Proof.
  intros V0 HD HP Hk. pose proof (pos_a c V0) as Pa. pose proof (pos_b c V0) as Pb.
  unfold next_output_size. rewrite HD, HP.
  replace (1 + k * numer c + (taps c - 1) - taps c) with (k * numer c) by lia.
  destruct (Z.leb_spec (k * numer c) 0).
  - assert (k = 0) by nia. subst; lia.
  - rewrite Z.quot_div_nonneg by nia.
    replace (k * numer c * denom c - 0 + numer c - 1) with (numer c - 1 + (k * denom c) * numer c) by lia.
    rewrite Z.div_add, Z.div_small by lia. lia.
Qed.

Lemma primed_step {C X Y} (dot : list C -> list X -> Y) plus (c : @config C) (s : @rstate X) input k :
  valid_config c ->
  (forall f1 f2 s u, length f1 = length s -> length f2 = length u ->
     plus (dot f1 s) (dot f2 u) = dot (f1 ++ f2) (s ++ u)) ->
  dsize s = taps c - 1 -> phase s = 0 -> Z.of_nat (length input) = k * numer c ->
  exists s' ys, q_process dot plus c s input = Ok (s', ys) /\
    dsize s' = taps c - 1 /\ phase s' = 0 /\ Z.of_nat (length ys) * numer c = Z.of_nat (length input) * denom c.
Proof.
  intros V0 SL HD HP HL. pose proof (pos_a c V0) as Pa. pose proof (pos_b c V0) as Pb.
  assert (Hk : 0 <= k) by nia.
  pose proof (primed_count c s k V0 HD HP Hk) as PC. rewrite <- HL in PC.
  rewrite next_output_count in PC by (auto; lia).
  destruct (process_core_spec dot (cpp_dot2 dot plus) c V0 (cpp_dot_split dot plus SL) (Some (taps c - 1)) true
    (next_output_size c s (Z.of_nat (length input))) s input) as (E & B1 & B2); try lia.
  { rewrite next_output_count by (auto; lia). lia. }
  unfold q_process. rewrite E. eexists _, _. split; [reflexivity|]. cbn [phase delayed]. unfold dsize. cbn [delayed].
  assert (ET : phase s + Z.of_nat (call_count c s (length input)) * numer c = k * numer c * denom c) by (rewrite HP; nia).
  rewrite ET, Z.div_mul, Z.mod_mul by lia. split; [|split; [reflexivity|]].
  - rewrite skipn_length, app_length. unfold dsize in HD. lia.
  - rewrite map_length, seq_length. nia.
Qed.

Lemma primed_run {C X Y} (zero : X) (dot : list C -> list X -> Y) plus (c : @config C) blocks :
  valid_config c ->
  (forall f1 f2 s u, length f1 = length s -> length f2 = length u ->
     plus (dot f1 s) (dot f2 u) = dot (f1 ++ f2) (s ++ u)) ->
  Forall (fun x => exists k, Z.of_nat (length (x : list X)) = k * numer c) blocks ->
  exists s' outs, run (q_process dot plus c) (reset_fully_primed zero c) blocks = Ok (s', outs) /\
    Forall2 (fun x y => Z.of_nat (length (y : list Y)) * numer c = Z.of_nat (length x) * denom c) blocks outs.
Proof.
  intros V0 SL F.
  assert (G : forall s : @rstate X, dsize s = taps c - 1 -> phase s = 0 ->
    exists s' outs, run (q_process dot plus c) s blocks = Ok (s', outs) /\
    Forall2 (fun x y => Z.of_nat (length (y : list Y)) * numer c = Z.of_nat (length x) * denom c) blocks outs).
  { induction blocks as [|x blocks IH]; intros s HD HP.
    - exists s, []. split; [reflexivity|constructor].
    - inversion F as [|? ? [k Hk] F2]; subst.
      destruct (primed_step dot plus c s x k V0 SL HD HP Hk) as (s1 & ys & E & D1 & P1 & L1).
      destruct (IH F2 s1 D1 P1) as (s2 & outs & E2 & G2).
      exists s2, (ys :: outs). cbn [run]. rewrite E. cbn [obind fst snd]. rewrite E2. cbn [obind fst snd].
      split; [reflexivity|constructor; auto]. }
  apply G; [|reflexivity]. unfold dsize, reset_fully_primed. cbn [delayed].
  rewrite repeat_length. pose proof V0 as (_ & _ & Pt & _). lia.
Qed.

(* After a flush worth of zeros, the delayed samples are all zeros. *)
Lemma at_stream_zeros {C X} (c : @config C) (VC : valid_config c) (zero : X) P s :
  at_stream c (P ++ repeat zero (Z.to_nat (taps c - 1))) s ->
  Forall (eq zero) (delayed s).
Proof.
  intros HA. destruct (at_stream_bounds c VC _ s HA) as [HD _].
  destruct HA as (E & _ & HW). rewrite E.
  set (q := Z.to_nat (whole (numer c) (denom c) _)) in *.
  unfold dsize in HD. rewrite E, skipn_length, app_length, repeat_length in HD.
  rewrite skipn_app, skipn_all2 by lia. cbn [app].
  apply Forall_forall. intros x Hx.
  assert (In x (repeat zero (Z.to_nat (taps c - 1)))).
  { rewrite <- (firstn_skipn (q - length P) (repeat zero _)). apply in_or_app. now right. }
  symmetry. eapply repeat_spec; eauto.
Qed.

(* ---- single precision, for the refutation ---- *)
Definition f32_add := SFadd 24 128.
Definition f32_mul := SFmul 24 128.
Definition f32 (m : Z) : spec_float := binary_normalize 24 128 m 0 false.
(* left-to-right dot product, the first product not added to zero *)
Definition f32_dot (f x : list spec_float) : spec_float :=
  match combine f x with
  | [] => S754_zero false
  | (a, b) :: r => fold_left (fun acc p => f32_add acc (f32_mul (fst p) (snd p))) r (f32_mul a b)
  end.
