(* Proofs for the Spectrogram model: the sample queue. *)
From Verif Require Import Common CInt NumberUtilModel NumberUtilProps ListLemmas
  SpectrogramModel SpectrogramSpec.
Local Open Scope nat_scope.

Lemma fft_length_ok n : 2 <= n -> (Z.of_nat n <= 2 ^ 30)%Z ->
  exists N k, fft_length_for n = Ok N /\ N = 2 ^ S k /\ n <= N < 2 * n /\
    next_power_of_two (Z.of_nat n) = Ok (Z.of_nat N) /\
    (Z.of_nat N <= 2 ^ 30)%Z.
Proof.
  intros H2 Hb.
  destruct (C05_next_power_of_two (Z.of_nat n)) as (k & Hk & E & Hle & Hmin).
  { split; [lia|]. transitivity (2 ^ 30)%Z; [exact Hb|discriminate]. }
  assert (1 <= k)%Z as Hk1.
  { destruct (Z.eq_dec k 0) as [->|]; [|lia]. cbn in Hle. lia. }
  assert (2 ^ k < 2 * Z.of_nat n)%Z as Hlt.
  { destruct (Z_lt_le_dec (2 ^ k) (2 * Z.of_nat n)) as [|Hge]; [lia|].
    exfalso. specialize (Hmin (k - 1)%Z).
    assert (2 ^ k = 2 * 2 ^ (k - 1))%Z as E2.
    { rewrite <- Z.pow_succ_r by lia. f_equal. lia. }
    assert (2 ^ k <= 2 ^ (k - 1))%Z by (apply Hmin; lia).
    assert (0 < 2 ^ (k - 1))%Z by (apply Z.pow_pos_nonneg; lia). lia. }
  assert (k <= 30)%Z as Hk30.
  { destruct (Z_le_gt_dec k 30) as [|Hgt]; [lia|]. exfalso.
    assert (2 ^ 31 <= 2 ^ k)%Z by (apply Z.pow_le_mono_r; lia).
    change (2 ^ 31)%Z with 2147483648%Z in *.
    change (2 ^ 30)%Z with 1073741824%Z in *. lia. }
  assert (2 ^ k <= 2 ^ 30)%Z as Hp by (apply Z.pow_le_mono_r; lia).
  assert (2 ^ k = Z.of_nat (2 ^ S (Z.to_nat (k - 1))))%Z as EZ.
  { rewrite Nat2Z.inj_pow. change (Z.of_nat 2) with 2%Z. f_equal. lia. }
  exists (2 ^ S (Z.to_nat (k - 1))), (Z.to_nat (k - 1)).
  rewrite <- EZ.
  assert (to_int32 (2 ^ k) = 2 ^ k)%Z as Ei.
  { unfold to_int32, u32. 
    change (2 ^ 30)%Z with 1073741824%Z in *.
    assert (0 < 2 ^ k)%Z by (apply Z.pow_pos_nonneg; lia).
    rewrite ?Z.mod_small by lia.
    repeat match goal with |- context [if ?b then _ else _] => destruct b eqn:? end; lia. }
  split.
  { unfold fft_length_for. rewrite E. cbn [obind]. rewrite Ei.
    unfold ocheck. destruct (Z.leb_spec (Z.of_nat n) (2 ^ k)); [|lia].
    f_equal. lia. }
  split; [reflexivity|]. split; [lia|]. split; [exact E|exact Hp].
Qed.

Section Queue.
Context {D : Type} (zero : D) (add mul : D -> D -> D).
Variable (rdft : list D -> list D).
Notation compute_loop := (compute_loop zero add mul rdft).
Notation compute := (compute zero add mul rdft).

(* What the API promises for frame [i] of the samples [xs]. *)
Definition frame_of (w : list D) (step N : nat) (xs : list D) (md : mode) (i : nat) :=
  render zero add mul md N
    (core_fft zero mul rdft w N (slice (i * step) (length w) xs)).

Variables (w : list D) (step N : nat).
Hypothesis Hw : 2 <= length w.
Hypothesis Hs : 1 <= step.
Notation W := (length w).

Definition inv (s : @spectro D) (xs : list D) (m : nat) : Prop :=
  sp_window s = w /\ sp_step s = step /\ sp_fft s = N /\
  sp_initialized s = true /\ sp_int_area s = true /\
  length xs < m * step + W /\
  (m = 0 \/ (m - 1) * step + W <= length xs) /\
  sp_to_next s = m * step + W - length xs /\
  sp_queue s = skipn ((m - 1) * step) xs.

Lemma inv_count s xs m : inv s xs m -> m = frame_count W step (length xs).
Proof.
  intros (_ & _ & _ & _ & _ & Hlt & Hor & _).
  unfold frame_count. destruct (Nat.ltb_spec (length xs) W) as [H|H].
  - destruct m; [reflexivity|]. destruct Hor as [|Hor]; [lia|]. lia.
  - destruct m as [|m]; [lia|]. destruct Hor as [|Hor]; [lia|].
    replace (S m - 1) with m in Hor by lia.
    cbn [Nat.add]. f_equal.
    apply (Nat.div_unique _ _ _ (length xs - W - m * step)); nia.
Qed.

Lemma slice_prefix {A} p n (xs ys : list A) : p + n <= length xs ->
  slice p n (xs ++ ys) = slice p n xs.
Proof.
  intros H. unfold slice. rewrite skipn_app, firstn_app, skipn_length.
  replace (n - (length xs - p)) with 0 by lia. cbn [firstn].
  now rewrite app_nil_r.
Qed.

Lemma loop_ok md : forall fuel s xs m rest, length rest < fuel -> inv s xs m ->
  exists s' m', m <= m' /\ inv s' (xs ++ rest) m' /\
    compute_loop fuel md s rest =
      Ok (s', map (frame_of w step N (xs ++ rest) md) (seq m (m' - m))).
Proof.
  induction fuel as [|fuel IH]; intros s xs m rest Hf Hi; [lia|].
  pose proof Hi as (Ew & Es & EN & Ein & Ea & Hlt & Hor & Et & Eq).
  cbn [SpectrogramModel.compute_loop]. unfold get_next_window. rewrite Et.
  destruct (Nat.ltb_spec (length rest) (m * step + W - length xs)) as [Hr|Hr].
  - cbn [obind]. eexists (set_queue s _ _), m. split; [lia|]. split.
    2:{ rewrite Nat.sub_diag. reflexivity. }
    unfold inv, set_queue. cbn. rewrite app_length.
    split; [exact Ew|]. split; [exact Es|]. split; [exact EN|].
    split; [exact Ein|]. split; [exact Ea|]. split; [lia|].
    split; [destruct Hor; [now left|right; lia]|]. split; [lia|].
    rewrite Eq, skipn_app.
    replace ((m - 1) * step - length xs) with 0; [reflexivity|].
    destruct Hor as [->|]; [reflexivity|lia].
  - set (tn := m * step + W - length xs) in *.
    set (part := firstn tn rest).
    assert (length part = tn) as Lp by (unfold part; rewrite firstn_length; lia).
    assert (length (sp_queue s ++ part) = m * step + W - (m - 1) * step) as Lq.
    { rewrite app_length, Eq, skipn_length, Lp. unfold tn.
      destruct Hor as [->|]; lia. }
    cbv zeta. rewrite Ew, Lq.
    assert ((m - 1) * step <= m * step) as Hms by nia.
    unfold oguard. destruct (Nat.leb_spec W (m * step + W - (m - 1) * step)) as [_|]; [|lia].
    cbn [obind].
    set (s1 := set_queue s _ _).
    assert (length (xs ++ part) = m * step + W) as Lx by (rewrite app_length, Lp; unfold tn; lia).
    assert (sp_queue s1 = skipn (m * step) (xs ++ part)) as Eq1.
    { unfold s1, set_queue. cbn [sp_queue]. rewrite Eq.
      assert (skipn ((m - 1) * step) xs ++ part = skipn ((m - 1) * step) (xs ++ part)) as ->.
      { rewrite skipn_app. replace ((m - 1) * step - length xs) with 0; [reflexivity|].
        destruct Hor as [->|]; [reflexivity|lia]. }
      rewrite skipn_skipn'. f_equal. lia. }
    assert (inv s1 (xs ++ part) (S m)) as Hi1.
    { unfold inv. split; [exact Ew|]. split; [exact Es|]. split; [exact EN|].
      split; [exact Ein|]. split; [exact Ea|]. rewrite Lx.
      split; [cbn; lia|]. replace (S m - 1) with m by lia.
      split; [right; lia|]. split; [|exact Eq1].
      unfold s1, set_queue. cbn [sp_to_next]. rewrite Es. lia. }
    assert (length (skipn (m * step) (xs ++ part)) = W) as Lw by (rewrite skipn_length; lia).
    assert (sp_window s1 = w) as Ew1 by exact Ew.
    rewrite Ew1, Eq1, Lw, Nat.eqb_refl. cbn [ocheck].
    destruct (IH s1 (xs ++ part) (S m) (skipn tn rest)) as (s' & m' & Hm & Hi' & E').
    { rewrite skipn_length. unfold tn. lia. }
    { exact Hi1. }
    assert ((xs ++ part) ++ skipn tn rest = xs ++ rest) as Ex.
    { rewrite <- app_assoc. unfold part. now rewrite firstn_skipn. }
    rewrite Ex in *. exists s', m'. split; [lia|]. split; [exact Hi'|].
    fold tn. rewrite E'. cbn [obind fst snd].
    replace (m' - m) with (S (m' - S m)) by lia.
    cbn [seq map]. f_equal. f_equal. f_equal.
    unfold frame_of. assert (sp_fft s1 = N) as -> by exact EN.
    f_equal. f_equal.
    rewrite <- Ex, slice_prefix by lia.
    unfold slice. now rewrite firstn_all2 by lia.
Qed.

Lemma compute_ok s xs m call : inv s xs m ->
  exists s', inv s' (xs ++ snd call) (frame_count W step (length (xs ++ snd call))) /\
    compute s call =
      Ok (s', Some (map (frame_of w step N (xs ++ snd call) (fst call))
         (seq m (frame_count W step (length (xs ++ snd call)) - m)))).
Proof.
  intros Hi. pose proof Hi as (_ & _ & _ & Ein & _).
  destruct (loop_ok (fst call) (S (length (snd call))) s xs m (snd call))
    as (s' & m' & Hm & Hi' & E); [lia|exact Hi|].
  pose proof (inv_count _ _ _ Hi') as Em. exists s'. rewrite <- Em.
  split; [exact Hi'|]. unfold SpectrogramModel.compute. rewrite Ein, E. reflexivity.
Qed.

Lemma frame_of_prefix xs ys md i : i < frame_count W step (length xs) ->
  frame_of w step N (xs ++ ys) md i = frame_of w step N xs md i.
Proof.
  intros H. unfold frame_of. rewrite slice_prefix; [reflexivity|].
  revert H. unfold frame_count. destruct (Nat.ltb_spec (length xs) W); [lia|].
  intros H0. assert (i <= (length xs - W) / step) as H1 by lia.
  pose proof (Nat.mul_div_le (length xs - W) step ltac:(lia)). nia.
Qed.

(* The outputs of a list of calls starting after [xs]. *)
Fixpoint expected (xs : list D) (calls : list (mode * list D)) :=
  match calls with
  | [] => []
  | c :: cs =>
      let m := frame_count W step (length xs) in
      let m' := frame_count W step (length (xs ++ snd c)) in
      Some (map (frame_of w step N (xs ++ snd c) (fst c)) (seq m (m' - m)))
      :: expected (xs ++ snd c) cs
  end.

Lemma run_ok : forall calls s xs m, inv s xs m ->
  exists s', inv s' (xs ++ concat (map snd calls))
      (frame_count W step (length (xs ++ concat (map snd calls)))) /\
    run compute s calls = Ok (s', expected xs calls).
Proof.
  induction calls as [|c cs IH]; intros s xs m Hi.
  - exists s. cbn. rewrite app_nil_r. rewrite <- (inv_count _ _ _ Hi). now split.
  - destruct (compute_ok s xs m c Hi) as (s1 & Hi1 & E1).
    destruct (IH s1 _ _ Hi1) as (s2 & Hi2 & E2).
    exists s2. cbn [map concat]. rewrite app_assoc. split; [exact Hi2|].
    cbn [run expected]. rewrite E1. cbn [obind fst snd]. rewrite E2. cbn [obind fst snd].
    rewrite (inv_count _ _ _ Hi) at 1. now rewrite <- (inv_count _ _ _ Hi).
Qed.

Lemma expected_nth : forall calls xs k,
  nth_error (expected xs calls) k =
  match nth_error calls k with
  | None => None
  | Some c =>
     let a := length xs + total (firstn k calls) in
     let b := length xs + total (firstn (S k) calls) in
     Some (Some (map (frame_of w step N (xs ++ concat (map snd calls)) (fst c))
          (seq (frame_count W step a)
               (frame_count W step b - frame_count W step a))))
  end.
Proof.
  induction calls as [|c cs IH]; intros xs k.
  - destruct k; reflexivity.
  - destruct k as [|k].
    + cbn [nth_error expected firstn]. unfold total. cbn [map concat length].
      rewrite Nat.add_0_r, app_nil_r, !app_length. f_equal. f_equal.
      apply map_ext_in. intros i Hi. apply in_seq in Hi.
      rewrite app_assoc; symmetry; apply frame_of_prefix.
      rewrite app_length. lia.
    + cbn [nth_error expected]. rewrite IH. destruct (nth_error cs k); [|reflexivity].
      cbv zeta. cbn [map concat]. rewrite <- app_assoc.
      assert (forall j, length (xs ++ snd c) + total (firstn j cs)
        = length xs + total (firstn (S j) (c :: cs))) as E.
      { intros j. unfold total. cbn [firstn map concat]. rewrite !app_length. lia. }
      rewrite (E k), (E (S k)). reflexivity.
Qed.

Lemma expected_length : forall calls xs, length (expected xs calls) = length calls.
Proof. induction calls; intros; cbn; [reflexivity|]. now rewrite IHcalls. Qed.

Lemma frame_count_mono a b : a <= b -> frame_count W step a <= frame_count W step b.
Proof.
  intros H. unfold frame_count.
  destruct (Nat.ltb_spec a W), (Nat.ltb_spec b W); [apply Nat.le_0_l| |lia|].
  - apply Nat.le_0_l.
  - apply le_n_S, Nat.div_le_mono; lia.
Qed.

(* All frames of a run in one mode, concatenated. *)
Lemma expected_concat md : forall calls xs, Forall (fun c => fst c = md) calls ->
  concat (map (fun o => match o with Some l => l | None => [] end) (expected xs calls))
  = map (frame_of w step N (xs ++ concat (map snd calls)) md)
      (seq (frame_count W step (length xs))
           (frame_count W step (length (xs ++ concat (map snd calls)))
            - frame_count W step (length xs))).
Proof.
  induction calls as [|c cs IH]; intros xs Hm.
  - cbn. rewrite app_nil_r, Nat.sub_diag. reflexivity.
  - pose proof (Forall_inv Hm) as Hc. apply Forall_inv_tail in Hm.
    cbn [expected map concat]. rewrite IH by exact Hm. cbn [map concat].
    rewrite <- app_assoc. rewrite Hc.
    assert (frame_count W step (length xs) <= frame_count W step (length (xs ++ snd c)))
      as H1 by (apply frame_count_mono; rewrite app_length; lia).
    assert (frame_count W step (length (xs ++ snd c)) <=
            frame_count W step (length (xs ++ snd c ++ concat (map snd cs))))
      as H2 by (apply frame_count_mono; rewrite !app_length; lia).
    replace (frame_count W step (length (xs ++ snd c ++ concat (map snd cs)))
             - frame_count W step (length xs)) with
      ((frame_count W step (length (xs ++ snd c)) - frame_count W step (length xs)) +
       (frame_count W step (length (xs ++ snd c ++ concat (map snd cs)))
        - frame_count W step (length (xs ++ snd c)))) by lia.
    rewrite seq_app, map_app. f_equal.
    + apply map_ext_in. intros i Hi. apply in_seq in Hi.
      rewrite app_assoc; symmetry; apply frame_of_prefix. lia.
    + f_equal. f_equal. lia.
Qed.
End Queue.

Lemma init_inv {D} (s : @spectro D) w step : 2 <= length w ->
  (Z.of_nat (length w) <= 2 ^ 30)%Z -> (1 <= step)%Z ->
  exists N k s', N = 2 ^ S k /\ length w <= N < 2 * length w /\
    spectro_init s w step = Ok (s', true) /\
    inv w (Z.to_nat step) N s' [] 0 /\
    s' = mkSpectro w (Z.to_nat step) N true true [] (length w).
Proof.
  intros H2 Hb Hs. destruct (fft_length_ok (length w) H2 Hb) as (N & k & E & EN & HN & _).
  exists N, k, (mkSpectro w (Z.to_nat step) N true true [] (length w)).
  split; [exact EN|]. split; [exact HN|]. split.
  { unfold spectro_init. destruct (Nat.ltb_spec (length w) 2); [lia|].
    destruct (Z.ltb_spec step 1); [lia|]. rewrite E. reflexivity. }
  split; [|reflexivity].
  unfold inv. cbn. intuition lia.
Qed.

Lemma reset_inv {D} (s : @spectro D) w step N xs m : 2 <= length w ->
  inv w step N s xs m ->
  exists s', reset_sample_buffer s = Ok s' /\ inv w step N s' [] 0.
Proof.
  intros H2 (Ew & Es & EN & Ein & Ea & _). unfold reset_sample_buffer.
  rewrite Ea. cbn [oguard]. eexists. split; [reflexivity|].
  unfold inv. cbn. rewrite Ew, Es. intuition lia.
Qed.
