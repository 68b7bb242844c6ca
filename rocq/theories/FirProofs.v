From Verif Require Import Common ListLemmas FixedDelayLineModel FixedDelayLineProofs FirModel FirSpec.

Lemma list_of_nth {A} (l : list A) n (f : nat -> A) :
  length l = n -> (forall k, k < n -> nth_error l k = Some (f k)) -> l = map f (seq 0 n).
Proof.
  intros L H. apply nth_error_ext. intros i. rewrite nth_error_map', nth_error_seq.
  destruct (Nat.ltb_spec i n); cbn.
  - now apply H.
  - apply nth_error_None. lia.
Qed.

Lemma nth_error_mapseq {A} (f : nat -> A) n k : k < n -> nth_error (map f (seq 0 n)) k = Some (f k).
Proof. intros. rewrite nth_error_map', nth_error_seq. now replace (k <? n) with true by lia. Qed.

Section Fir.
Context {V : Type} (zero : V) (add mul : V -> V -> V).
Notation contrib := (contributions zero add mul).

Lemma contrib_S k x n u : contrib k x n (S u)
  = if (u <=? n) && (n - u <? length k) then add (contrib k x n u) (mul (nth (n - u) k zero) (nth u x zero))
    else contrib k x n u.
Proof. unfold contributions. rewrite seq_S, fold_left_app. reflexivity. Qed.

Lemma contrib_late k x n u d : n < u -> contrib k x n (u + d) = contrib k x n u.
Proof.
  intros H. induction d as [|d IH]; [now rewrite Nat.add_0_r|].
  rewrite Nat.add_succ_r, contrib_S. replace (u + d <=? n) with false by lia. exact IH.
Qed.

Lemma contrib_far k x n u : u + length k <= n + 1 -> contrib k x n u = zero.
Proof.
  induction u as [|u IH]; intros H; [reflexivity|].
  rewrite contrib_S. replace (n - u <? length k) with false by lia. rewrite andb_false_r. apply IH. lia.
Qed.

Lemma contrib_app k x y n u : u <= length x -> contrib k (x ++ y) n u = contrib k x n u.
Proof.
  induction u as [|u IH]; intros H; [reflexivity|].
  rewrite !contrib_S, IH by lia. now rewrite app_nth1 by lia.
Qed.

Lemma add_cols_ok pos v x :
  pos + length v <= length x ->
  exists x', add_cols add pos v x = Ok x' /\ length x' = length x /\
    forall i, nth_error x' i =
      if (pos <=? i) && (i <? pos + length v)
      then match nth_error x i, nth_error v (i - pos) with Some a, Some b => Some (add a b) | _, _ => None end
      else nth_error x i.
Proof.
  intros H. unfold add_cols. replace (pos + length v <=? length x) with true by lia. cbn [oguard].
  set (s := map _ _). exists (splice pos s x).
  assert (LS : length s = length v).
  { unfold s. rewrite map_length, combine_length, length_slice by lia. lia. }
  split; [reflexivity|]. split; [rewrite length_splice; lia|].
  intros i. rewrite nth_error_splice by lia. rewrite LS.
  destruct (Nat.leb_spec pos i); destruct (Nat.ltb_spec i (pos + length v)); cbn [andb].
  - replace (i <? pos) with false by lia.
    unfold s. rewrite nth_error_map'.
    assert (NC : nth_error (combine (slice pos (length v) x) v) (i - pos)
      = match nth_error (slice pos (length v) x) (i - pos), nth_error v (i - pos) with
        | Some a, Some b => Some (a, b) | _, _ => None end).
    { clear. generalize (slice pos (length v) x) (i - pos). intros l. revert v.
      induction l as [|a l IH]; intros v j; destruct j, v; cbn; auto.
      destruct (nth_error l j); reflexivity. }
    rewrite NC, nth_error_slice.
    replace (i - pos <? length v) with true by lia.
    replace (pos + (i - pos)) with i by lia.
    destruct (nth_error x i), (nth_error v (i - pos)); reflexivity.
  - replace (i <? pos) with false by lia. reflexivity.
  - replace (i <? pos) with true by lia. reflexivity.
  - replace (i <? pos) with true by lia. reflexivity.
Qed.

Lemma fir_loop_spec k hist input : forall rest i output state,
  input = firstn i input ++ rest -> i + length rest = length input ->
  output = map (fun m => contrib k (hist ++ input) (length hist + m) (length hist + i)) (seq 0 (length input)) ->
  state = map (fun m => contrib k (hist ++ input) (length hist + length input + m) (length hist + i)) (seq 0 (length k)) ->
  fir_loop add mul k (length input) i rest output state
  = Ok (map (fun m => contrib k (hist ++ input) (length hist + m) (length hist + length input)) (seq 0 (length input)),
        map (fun m => contrib k (hist ++ input) (length hist + length input + m) (length hist + length input)) (seq 0 (length k))).
Proof.
  induction rest as [|frame rest IH]; intros i output state EI EL EO ES.
  - cbn [length] in EL. cbn [fir_loop]. replace (length input) with i in * by lia. now subst.
  - cbn [length] in EL. cbn [fir_loop].
    set (X := hist ++ input) in *. set (N := length hist) in *. set (L := length input) in *.
    assert (EF : nth (N + i) X zero = frame).
    { unfold X, N. rewrite app_nth2_plus. rewrite EI. rewrite app_nth2; rewrite firstn_length; [|lia].
      replace (i - Nat.min i (length input)) with 0 by lia. reflexivity. }
    destruct (add_cols_ok i (firstn (Nat.min (L - i) (length k)) (map (fun c => mul c frame) k)) output) as (o' & E1 & L1 & N1).
    { rewrite EO, firstn_length, !map_length, seq_length. lia. }
    rewrite E1. cbn [obind].
    assert (EO' : o' = map (fun m => contrib k X (N + m) (N + S i)) (seq 0 L)).
    { apply list_of_nth. { rewrite L1, EO, map_length, seq_length. reflexivity. }
      intros m Hm. rewrite N1, EO, nth_error_mapseq by lia.
      rewrite firstn_length, map_length.
      replace (N + S i) with (S (N + i)) by lia. rewrite contrib_S.
      replace (N + m - (N + i)) with (m - i) by lia.
      destruct (Nat.leb_spec i m).
      - replace (N + i <=? N + m) with true by lia. cbn [andb].
        destruct (Nat.ltb_spec (m - i) (length k)).
        + replace (m <? i + Nat.min (Nat.min (L - i) (length k)) (length k)) with true by lia.
          rewrite nth_error_firstn. replace (m - i <? Nat.min (L - i) (length k)) with true by lia.
          rewrite nth_error_map', (nth_error_nth' k zero) by lia. cbn [option_map]. now rewrite EF.
        + replace (m <? i + Nat.min (Nat.min (L - i) (length k)) (length k)) with false by lia. reflexivity.
      - replace (N + i <=? N + m) with false by lia. reflexivity. }
    assert (ES' : exists s', (if L - i <? length k then add_cols add 0 (skipn (L - i) (map (fun c => mul c frame) k)) state
                   else Ok state) = Ok s' /\
                   s' = map (fun m => contrib k X (N + L + m) (N + S i)) (seq 0 (length k))).
    { destruct (Nat.ltb_spec (L - i) (length k)).
      - destruct (add_cols_ok 0 (skipn (L - i) (map (fun c => mul c frame) k)) state) as (s' & E2 & L2 & N2).
        { rewrite ES, skipn_length, !map_length, seq_length. lia. }
        exists s'. split; [exact E2|]. apply list_of_nth. { rewrite L2, ES, map_length, seq_length. reflexivity. }
        intros m Hm. rewrite N2, ES, nth_error_mapseq by lia. cbn [Nat.leb andb Nat.add].
        rewrite skipn_length, map_length. replace (N + S i) with (S (N + i)) by lia. rewrite contrib_S.
        replace (N + i <=? N + L + m) with true by lia. cbn [andb].
        replace (N + L + m - (N + i)) with (L - i + m) by lia.
        destruct (Nat.ltb_spec (L - i + m) (length k)).
        + replace (m <? length k - (L - i)) with true by lia.
          rewrite nth_error_skipn, nth_error_map'. replace (m - 0) with m by lia.
          rewrite (nth_error_nth' k zero) by lia. cbn [option_map]. now rewrite EF.
        + replace (m <? length k - (L - i)) with false by lia. reflexivity.
      - exists state. split; [reflexivity|]. rewrite ES. apply map_ext. intros m.
        replace (N + S i) with (S (N + i)) by lia. rewrite contrib_S.
        replace (N + L + m - (N + i) <? length k) with false by lia. now rewrite andb_false_r. }
    destruct ES' as (s' & E2 & ES'). rewrite E2. cbn [obind].
    apply IH; auto; [|lia].
    fold L. rewrite EI at 1. rewrite EI at 2.
    replace (S i) with (i + 1) by lia.
    assert (LF : length (firstn i input) = i) by (rewrite firstn_length; fold L; lia).
    rewrite firstn_app. rewrite LF. replace (i + 1 - i) with 1 by lia.
    rewrite (firstn_all2 (n := i + 1)) by lia. cbn [firstn]. now rewrite <- app_assoc.
Qed.

Definition fir_at (k hist : list V) (f : fir) : Prop :=
  kernel f = k /\ fstate f = map (fun m => contrib k hist (length hist + m) (length hist)) (seq 0 (length k)).

Lemma fir_init_at k : fir_at k [] (fir_init zero k).
Proof.
  split; [reflexivity|]. cbn [fir_init fstate]. apply list_of_nth; [apply repeat_length|].
  intros i Hi. rewrite nth_error_repeat'. replace (i <? length k) with true by lia. reflexivity.
Qed.

Lemma fir_process_at k hist f input : fir_at k hist f ->
  exists f', fir_process zero add mul f input
    = Ok (f', map (fun m => contrib k (hist ++ input) (length hist + m) (S (length hist + m))) (seq 0 (length input))) /\
    fir_at k (hist ++ input) f'.
Proof.
  intros [EK ES]. unfold fir_process. rewrite EK.
  destruct (Nat.eqb_spec (length input) 0) as [E0|E0].
  - apply length_zero_iff_nil in E0. subst input. exists f. rewrite app_nil_r. split; [reflexivity|split; auto].
  - set (L := length input) in *. set (N := length hist) in *.
    assert (LS : length (fstate f) = length k) by (rewrite ES, map_length, seq_length; reflexivity).
    rewrite LS. set (flush := Nat.min L (length k)).
    destruct (shift_loop_spec (S (length k)) flush (length k) 0 (fstate f)) as (st & E1 & L1 & N1); [lia|lia|].
    rewrite E1. cbn [obind]. rewrite L1, LS.
    rewrite (fir_loop_spec k hist input input 0); [|reflexivity|reflexivity| |].
    + cbn [obind fst snd]. eexists. split.
      * do 2 f_equal. apply map_ext_in. intros m Hm. apply in_seq in Hm. fold N L.
        replace (N + L) with (S (N + m) + (L - S m)) by lia. now rewrite contrib_late by lia.
      * split; cbn [kernel fstate]; [reflexivity|]. rewrite app_length. fold N L. reflexivity.
    + fold L N. apply list_of_nth.
      { rewrite length_splice; rewrite ?repeat_length, ?firstn_length; lia. }
      intros m Hm. rewrite nth_error_splice by (rewrite ?repeat_length, ?firstn_length; lia).
      rewrite firstn_length, LS. replace (m <? 0) with false by lia. rewrite Nat.sub_0_r, Nat.add_0_r.
      replace (0 + Nat.min flush (length k)) with flush by lia.
      rewrite contrib_app by (fold N; lia).
      destruct (Nat.ltb_spec m flush).
      * rewrite nth_error_firstn. replace (m <? flush) with true by lia. rewrite ES.
        rewrite nth_error_mapseq by lia. reflexivity.
      * rewrite nth_error_repeat'. replace (m <? L) with true by lia.
        rewrite contrib_far by lia. reflexivity.
    + fold L N. apply list_of_nth.
      { rewrite length_splice; rewrite ?repeat_length; lia. }
      intros m Hm. rewrite nth_error_splice by (rewrite ?repeat_length; lia).
      rewrite repeat_length, Nat.add_0_r, contrib_app by (fold N; lia).
      destruct (Nat.ltb_spec m (length k - flush)).
      * rewrite N1 by lia. cbn [Nat.ltb Nat.leb]. rewrite ES, nth_error_mapseq by lia.
        f_equal. f_equal. fold N. lia.
      * replace (m <? length k - flush + flush) with true by lia.
        rewrite nth_error_repeat'. replace (m - (length k - flush) <? flush) with true by lia.
        rewrite contrib_far by lia. reflexivity.
Qed.

Lemma fir_run k chunks : forall hist f, fir_at k hist f ->
  exists f' outs, run (fir_process zero add mul) f chunks = Ok (f', outs) /\
    fir_at k (hist ++ concat chunks) f' /\ map (@length V) outs = map (@length V) chunks /\
    concat outs = map (fun m => contrib k (hist ++ concat chunks) (length hist + m) (S (length hist + m)))
                      (seq 0 (length (concat chunks))).
Proof.
  induction chunks as [|c chunks IH]; intros hist f HA.
  - exists f, []. cbn. rewrite app_nil_r. auto.
  - destruct (fir_process_at k hist f c HA) as (f1 & E1 & A1).
    destruct (IH (hist ++ c) f1 A1) as (f2 & outs & E2 & A2 & ML & R).
    exists f2. eexists (_ :: outs). cbn [run]. rewrite E1. cbn [obind fst snd]. rewrite E2. cbn [obind fst snd concat].
    split; [reflexivity|]. rewrite <- app_assoc in A2, R. split; [exact A2|].
    split; [cbn [map]; rewrite ML, map_length, seq_length; reflexivity|].
    rewrite R, (app_length c (concat chunks)), seq_app, map_app. f_equal.
    + apply map_ext_in. intros m Hm. apply in_seq in Hm. rewrite app_assoc.
      symmetry. apply contrib_app. rewrite app_length. lia.
    + rewrite app_length. cbn [Nat.add].
      apply nth_error_ext. intros i. rewrite !nth_error_map', !nth_error_seq.
      destruct (i <? length (concat chunks)); cbn [option_map]; [|reflexivity].
      cbn [Nat.add]. now rewrite !Nat.add_assoc.
Qed.

Lemma fir_stream k chunks :
  exists f' outs, run (fir_process zero add mul) (fir_init zero k) chunks = Ok (f', outs) /\
    map (@length V) outs = map (@length V) chunks /\
    concat outs = convolution zero add mul k (concat chunks).
Proof.
  destruct (fir_run k chunks [] _ (fir_init_at k)) as (f' & outs & E & _ & ML & R).
  exists f', outs. split; [exact E|]. split; [exact ML|exact R].
Qed.

Lemma fir_reset_init k hist f : fir_at k hist f -> fir_reset zero f = fir_init zero k.
Proof. intros [EK ES]. unfold fir_reset, fir_init. rewrite EK, ES, map_length, seq_length. reflexivity. Qed.
End Fir.

Section TwoTap.
Context {V G : Type} (zero : V) (add : V -> V -> V) (scale : G -> V -> V).

Lemma tt_process_spec f x0 xs : tt_process add scale f (x0 :: xs)
  = ({| gain_prev := gain_prev f; gain_now := gain_now f; tstate := last (x0 :: xs) x0 |},
     two_tap_spec add scale (gain_prev f) (gain_now f) (tstate f) (x0 :: xs)).
Proof.
  unfold tt_process. f_equal. cbn [two_tap_spec]. f_equal.
  revert x0. induction xs as [|y xs IH]; intros x0; [reflexivity|].
  cbn [length firstn combine map two_tap_spec fst snd]. f_equal. apply IH.
Qed.

Lemma two_tap_app p n x0 x y : two_tap_spec add scale p n x0 (x ++ y)
  = two_tap_spec add scale p n x0 x ++ two_tap_spec add scale p n (last x x0) y.
Proof.
  revert x0. induction x as [|a x IH]; intros x0; [reflexivity|].
  cbn [app two_tap_spec]. rewrite IH. f_equal. f_equal.
  destruct x; [reflexivity|]. cbn [last]. f_equal.
  clear. revert v. induction x as [|b x IH]; intros v; [reflexivity|]. cbn [last] in *. apply IH.
Qed.

Lemma two_tap_length p n x : forall x0, length (two_tap_spec add scale p n x0 x) = length x.
Proof. induction x as [|a x IH]; intros x0; cbn [two_tap_spec length]; [reflexivity|now rewrite IH]. Qed.

Lemma tt_run chunks : forall f,
  exists f' outs, run (fun f x => Ok (tt_process add scale f x)) f chunks = Ok (f', outs) /\
    map (@length V) outs = map (@length V) chunks /\
    concat outs = two_tap_spec add scale (gain_prev f) (gain_now f) (tstate f) (concat chunks).
Proof.
  induction chunks as [|c chunks IH]; intros f.
  - exists f, []. split; [reflexivity|split; reflexivity].
  - destruct c as [|x0 xs].
    + destruct (IH f) as (f2 & outs & E2 & ML & R). exists f2, ([] :: outs).
      cbn [run obind fst snd tt_process]. rewrite E2. cbn [obind fst snd concat app map].
      split; [reflexivity|]. split; [now rewrite ML|exact R].
    + destruct (IH {| gain_prev := gain_prev f; gain_now := gain_now f; tstate := last (x0 :: xs) x0 |}) as (f2 & outs & E2 & ML & R).
      eexists f2, (_ :: outs). cbn [run obind]. rewrite tt_process_spec. cbn [fst snd]. rewrite E2.
      cbn [obind fst snd concat]. split; [reflexivity|]. split; [cbn [map]; rewrite ML, two_tap_length; reflexivity|].
      rewrite R. cbn [gain_prev gain_now tstate].
      rewrite two_tap_app. f_equal. f_equal.
      clear. revert x0. generalize (tstate f). induction xs as [|b xs IH]; intros t x0; [reflexivity|].
      cbn [last] in *. destruct xs; [reflexivity|]. apply (IH t x0).
Qed.
End TwoTap.

Section Decimator.
Context {V : Type}.

Lemma strided_evens n : forall off (l : list V), n = (length l - off + 1) / 2 ->
  strided n off l = Ok (evens (skipn off l)).
Proof.
  induction n as [|n IH]; intros off l E.
  - assert (length l <= off).
    { destruct (Nat.le_gt_cases (length l) off); auto. exfalso.
      assert (1 <= (length l - off + 1) / 2) by (apply Nat.div_le_lower_bound; lia). lia. }
    rewrite skipn_all2 by lia. reflexivity.
  - cbn [strided].
    assert (off < length l).
    { destruct (Nat.lt_ge_cases off (length l)); auto. exfalso.
      replace (length l - off + 1) with 1 in E by lia. discriminate. }
    destruct (nth_error l off) as [x|] eqn:Ex; [|apply nth_error_None in Ex; lia].
    rewrite IH.
    + cbn [obind]. f_equal.
      assert (E1 : skipn off l = x :: skipn (S off) l).
      { clear - Ex. revert off Ex. induction l as [|a l IH]; intros [|off] Ex; try discriminate.
        - injection Ex as ->. reflexivity.
        - cbn [nth_error] in Ex. apply IH in Ex. cbn [skipn] in *. exact Ex. }
      rewrite E1. replace (off + 2) with (S off + 1) by lia. rewrite <- skipn_skipn'.
      destruct (skipn (S off) l); reflexivity.
    + destruct (Nat.eq_dec (length l) (off + 1)) as [E2|E2].
      * rewrite E2 in *. replace (off + 1 - off + 1) with 2 in E by lia.
        replace (off + 1 - (off + 2) + 1) with 1 by lia. cbn in *. lia.
      * replace (length l - off + 1) with (length l - (off + 2) + 1 + 1 * 2) in E by lia.
        rewrite Nat.div_add in E by lia. lia.
Qed.

Lemma evens_app (x y : list V) : evens (x ++ y)
  = evens x ++ (if Nat.even (length x) then evens y else evens (tl y)).
Proof.
  assert (G : forall n (x : list V), length x <= n -> evens (x ++ y)
    = evens x ++ (if Nat.even (length x) then evens y else evens (tl y))).
  { induction n as [|n IH]; intros [|a [|b z]] H; cbn [length] in H; try lia; try reflexivity.
    - cbn. destruct y; reflexivity.
    - cbn [app evens length Nat.even]. f_equal. apply IH. lia. }
  now apply (G (length x)).
Qed.

Lemma decimate_spec skip (l : list V) :
  decimate skip l = Ok (xorb skip (Nat.odd (length l)), if skip then evens (tl l) else evens l).
Proof.
  unfold decimate. destruct skip.
  - rewrite Nat.add_0_r. rewrite (strided_evens _ 1).
    + cbn [obind]. do 2 f_equal.
      cbn [xorb]. destruct (Nat.even (length l)) eqn:Ev.
      * unfold Nat.odd. rewrite Ev. apply Nat.even_spec in Ev. destruct Ev as [k ->].
        replace (2 * k) with (k * 2) by lia. now rewrite Nat.mod_mul.
      * assert (Od : Nat.odd (length l) = true) by (unfold Nat.odd; now rewrite Ev).
        rewrite Od. apply Nat.odd_spec in Od. destruct Od as [k ->].
        replace (2 * k + 1) with (1 + k * 2) by lia. now rewrite Nat.mod_add by lia.
    + destruct l; cbn [length]; [reflexivity|]. f_equal. lia.
  - rewrite (strided_evens _ 0) by (f_equal; lia). cbn [obind skipn]. f_equal. f_equal.
    cbn [xorb negb]. destruct (Nat.even (length l)) eqn:Ev.
    + unfold Nat.odd. rewrite Ev. apply Nat.even_spec in Ev. destruct Ev as [k ->].
      replace (2 * k) with (k * 2) by lia. now rewrite Nat.mod_mul.
    + assert (Od : Nat.odd (length l) = true) by (unfold Nat.odd; now rewrite Ev).
      rewrite Od. apply Nat.odd_spec in Od. destruct Od as [k ->].
      replace (2 * k + 1) with (1 + k * 2) by lia. now rewrite Nat.mod_add by lia.
Qed.

Lemma decimate_run (chunks : list (list V)) : forall skip,
  exists outs, run decimate skip chunks = Ok (xorb skip (Nat.odd (length (concat chunks))), outs) /\
    concat outs = if skip then evens (tl (concat chunks)) else evens (concat chunks).
Proof.
  induction chunks as [|c chunks IH]; intros skip.
  - exists []. cbn. destruct skip; auto.
  - cbn [run]. rewrite decimate_spec. cbn [obind fst snd].
    destruct (IH (xorb skip (Nat.odd (length c)))) as (outs & E & R). rewrite E. cbn [obind fst snd].
    eexists. split.
    + do 2 f_equal. cbn [concat]. rewrite app_length, Nat.odd_add. now rewrite xorb_assoc.
    + cbn [concat]. rewrite R. unfold Nat.odd in *.
      destruct skip; cbn [xorb].
      * destruct c as [|a c].
        -- cbn. reflexivity.
        -- cbn [app tl]. rewrite evens_app. f_equal. cbn [length].
           rewrite Nat.even_succ. unfold Nat.odd. rewrite negb_involutive.
           destruct (Nat.even (length c)); reflexivity.
      * rewrite evens_app. f_equal. destruct (Nat.even (length c)); reflexivity.
Qed.
End Decimator.
