From Verif Require Import Common ListLemmas FixedDelayLineModel FixedDelayLineSpec.

Section Proofs.
Context {A : Type}.
Variable zero : A.

Lemma shift_loop_spec fuel : forall shift needed start (b : list A),
  needed <= length b -> needed - start < fuel ->
  exists b', shift_loop fuel shift needed start b = Ok b' /\
    length b' = length b /\
    forall j, j < needed - shift ->
      nth_error b' j = if j <? start then nth_error b j else nth_error b (j + shift).
Proof.
  induction fuel as [|fuel IH]; intros shift needed start b Hl Hf; [lia|].
  cbn [shift_loop].
  destruct (Nat.eqb_spec (Nat.min shift (needed - (start + shift))) 0) as [E|E].
  - exists b. repeat split.
    intros j Hj. destruct (Nat.ltb_spec j start); [reflexivity|].
    f_equal. lia.
  - unfold move_cols, oguard.
    set (n := Nat.min _ _) in *.
    replace ((start + n <=? length b) && (start + shift + n <=? length b)) with true by lia.
    cbn [obind].
    assert (HL : length (slice (start + shift) n b) = n) by (rewrite length_slice; lia).
    destruct (IH shift needed (start + shift) (splice start (slice (start + shift) n b) b))
      as (b' & E' & L' & N').
    + rewrite length_splice; lia.
    + lia.
    + exists b'. split; [exact E'|]. split; [rewrite L', length_splice; lia|].
      intros j Hj. rewrite N' by exact Hj.
      rewrite !nth_error_splice by lia. rewrite HL.
      rewrite !nth_error_slice.
      destruct (Nat.ltb_spec j (start + shift)), (Nat.ltb_spec j start).
      * reflexivity.
      * destruct (Nat.ltb_spec j (start + n)); [|lia].
        destruct (Nat.ltb_spec (j - start) n); [|lia].
        f_equal. lia.
      * lia.
      * destruct (Nat.ltb_spec (j + shift) start); [lia|].
        destruct (Nat.ltb_spec (j + shift) (start + n)); [lia|]. reflexivity.
Qed.

(* The first last_frame columns are the virtual stream from the start of the
   last returned block on. *)
Record dl_inv (delay : nat) (s : dline A) (hist : list A) : Prop := {
  inv_delay : delay_samples s = delay;
  inv_frame : last_frame s = delay + last_request s;
  inv_len : last_frame s <= length (buffer s);
  inv_req : last_request s <= length hist;
  inv_data : forall j, j < last_frame s ->
    nth_error (buffer s) j =
    nth_error (repeat zero delay ++ hist) (length hist - last_request s + j)
}.

Lemma process_spec junk delay s hist input :
  dl_inv delay s hist ->
  exists s', dl_process junk s input =
    Ok (s', slice (length hist) (length input) (repeat zero delay ++ hist ++ input)) /\
    dl_inv delay s' (hist ++ input).
Proof.
  intros [Hd Hf Hl Hr HD]. unfold dl_process.
  set (b0 := if length (buffer s) <? _ then _ else _).
  assert (HL0 : last_frame s + length input <= length b0).
  { unfold b0. destruct (Nat.ltb_spec (length (buffer s)) (last_frame s + length input)).
    - rewrite app_length, map_length, seq_length. lia.
    - lia. }
  assert (HD0 : forall j, j < last_frame s -> nth_error b0 j = nth_error (buffer s) j).
  { intros j Hj. unfold b0.
    destruct (Nat.ltb_spec (length (buffer s)) (last_frame s + length input)); [|reflexivity].
    apply nth_error_app1. lia. }
  destruct (shift_loop_spec (S (last_frame s + length input)) (last_request s)
              (last_frame s + length input) 0 b0) as (b1 & E1 & L1 & N1); [lia|lia|].
  rewrite E1. cbn [obind]. unfold oguard.
  replace ((last_request s <=? last_frame s) &&
     (last_frame s - last_request s + length input <=? length b1)) with true by lia.
  set (b2 := splice _ input b1).
  assert (L2 : length b2 = length b1) by (unfold b2; rewrite length_splice; lia).
  replace (length input <=? length b2) with true by lia.
  assert (N2 : forall j, j < delay + length input ->
     nth_error b2 j = nth_error (repeat zero delay ++ hist ++ input) (length hist + j)).
  { intros j Hj. unfold b2. rewrite nth_error_splice by lia.
    replace (last_frame s - last_request s) with delay by lia.
    destruct (Nat.ltb_spec j delay).
    - rewrite N1 by lia. cbn [Nat.ltb Nat.leb]. rewrite HD0 by lia. rewrite HD by lia.
      rewrite (app_assoc (repeat zero delay)).
      rewrite (nth_error_app1 (_ ++ hist)) by (rewrite app_length, repeat_length; lia).
      f_equal. lia.
    - destruct (Nat.ltb_spec j (delay + length input)); [|lia].
      rewrite (app_assoc (repeat zero delay)).
      rewrite nth_error_app2 by (rewrite app_length, repeat_length; lia).
      f_equal. rewrite app_length, repeat_length. lia. }
  eexists. split.
  - f_equal. f_equal. apply nth_error_ext. intros j.
    rewrite nth_error_firstn, nth_error_slice.
    destruct (Nat.ltb_spec j (length input)); [|reflexivity].
    apply N2. lia.
  - constructor; cbn [delay_samples last_frame last_request buffer].
    + exact Hd.
    + lia.
    + lia.
    + rewrite app_length. lia.
    + intros j Hj. rewrite N2 by lia. f_equal. rewrite app_length. lia.
Qed.

Lemma reset_spec delay s :
  delay_samples s = delay -> delay <= length (buffer s) ->
  dl_inv delay (dl_reset zero s) [].
Proof.
  intros Hd Hl. constructor; cbn [dl_reset delay_samples last_frame last_request buffer length]; try lia.
  - rewrite map_length. lia.
  - intros j Hj. rewrite app_nil_r.
    replace (0 - 0 + j) with j by lia.
    assert (E : map (fun _ : A => zero) (buffer s) = repeat zero (length (buffer s))).
    { clear. induction (buffer s) as [|x l IH]; [reflexivity|]. cbn. now rewrite IH. }
    rewrite E. rewrite !nth_error_repeat'.
    destruct (Nat.ltb_spec j (length (buffer s))), (Nat.ltb_spec j delay); try lia. reflexivity.
Qed.

Lemma run_spec delay ops : forall s hist,
  dl_inv delay s hist ->
  exists s', run (dl_step zero) s ops = Ok (s', delayed zero delay hist ops).
Proof.
  induction ops as [|o ops IH]; intros s hist HI.
  - eexists. reflexivity.
  - destruct o as [junk input|]; cbn [run dl_step delayed].
    + destruct (process_spec junk delay s hist input HI) as (s1 & E1 & H1).
      rewrite E1. cbn [obind fst snd].
      destruct (IH s1 _ H1) as (s2 & E2). rewrite E2. cbn [obind fst snd]. eexists. reflexivity.
    + cbn [obind fst snd].
      destruct (IH (dl_reset zero s) []) as (s2 & E2).
      { destruct HI. apply reset_spec; lia. }
      rewrite E2. eexists. reflexivity.
Qed.

Lemma session_spec junk delay block ops :
  exists s', dl_session zero junk (Z.of_nat delay) block ops =
    Ok (s', delayed zero delay [] ops).
Proof.
  unfold dl_session, dl_init, ocheck.
  replace (0 <=? Z.of_nat delay)%Z with true by lia. cbn [obind].
  apply run_spec. apply reset_spec; cbn [delay_samples buffer].
  - lia.
  - rewrite map_length, seq_length. lia.
Qed.


Lemma delayed_concat delay blocks : forall hist,
  firstn (length hist) (repeat zero delay ++ hist) ++
  concat (delayed zero delay hist (blocks_to_ops blocks)) =
  firstn (length hist + length (concat (map snd blocks)))
    (repeat zero delay ++ hist ++ concat (map snd blocks)).
Proof.
  induction blocks as [|[junk x] bl IH]; intros hist.
  - cbn. rewrite !app_nil_r. f_equal. lia.
  - cbn [blocks_to_ops map delayed concat fst snd].
    specialize (IH (hist ++ x)). rewrite app_length, <- !app_assoc in IH.
    rewrite app_length.
    rewrite Nat.add_assoc. rewrite <- IH.
    rewrite app_assoc. f_equal.
    unfold slice.
    rewrite <- (firstn_skipn (length hist) (firstn (length hist + length x) _)).
    rewrite firstn_firstn, Nat.min_l by lia.
    f_equal.
    + rewrite (app_assoc (repeat zero delay)).
      rewrite (firstn_app (length hist) (repeat zero delay ++ hist) x).
      rewrite app_length, repeat_length.
      replace (length hist - (delay + length hist)) with 0 by lia.
      cbn [firstn]. now rewrite app_nil_r.
    + rewrite skipn_firstn_comm. f_equal. lia.
Qed.

Lemma stream_spec junk delay block blocks :
  exists s' outs,
    dl_session zero junk (Z.of_nat delay) block (blocks_to_ops blocks) = Ok (s', outs) /\
    map (@length A) outs = map (fun b => length (snd b)) blocks /\
    concat outs = firstn (length (concat (map snd blocks)))
                    (repeat zero delay ++ concat (map snd blocks)).
Proof.
  destruct (session_spec junk delay block (blocks_to_ops blocks)) as (s' & E).
  exists s', (delayed zero delay [] (blocks_to_ops blocks)).
  split; [exact E|]. split.
  - clear E. generalize (@nil A). induction blocks as [|[j x] bl IH]; intros h; [reflexivity|].
    cbn [blocks_to_ops map delayed fst snd]. f_equal; [|apply IH].
    apply length_slice. rewrite !app_length, repeat_length. lia.
  - exact (delayed_concat delay blocks []).
Qed.

Lemma init_negative junk delay block ops :
  (delay < 0)%Z -> dl_session zero junk delay block ops = CheckFail.
Proof.
  intros H. unfold dl_session, dl_init, ocheck.
  replace (0 <=? delay)%Z with false by lia. reflexivity.
Qed.

End Proofs.
