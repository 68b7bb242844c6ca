From Verif Require Import Common ListLemmas CircularBufferModel CircularBufferSpec.

Section Proofs.
Context {A : Type}.
Implicit Types (b : cbuf A) (q xs : list A).

(* distance from slot [w] forward to slot [j] in a ring of size c *)
Definition dist (c w j : nat) : nat := (j + (c - w)) mod c.

Lemma dist_eq c w j : w < c -> j < c ->
  dist c w j = if w <=? j then j - w else j + c - w.
Proof.
  intros Hw Hj; unfold dist. rewrite mod_lt2 by lia.
  destruct (Nat.ltb_spec (j + (c - w)) c); destruct (Nat.leb_spec w j); lia.
Qed.

Lemma dist_shift c r l i : r < c -> l <= c -> i < c ->
  dist c ((r + l) mod c) ((r + i) mod c) = if i <? l then i + c - l else i - l.
Proof.
  intros Hr Hl Hi.
  rewrite dist_eq by (apply Nat.mod_upper_bound; lia).
  rewrite !(mod_lt2 _ c) by lia.
  destruct (Nat.ltb_spec i l); destruct (Nat.ltb_spec (r + l) c);
    destruct (Nat.ltb_spec (r + i) c);
    match goal with |- context[?u <=? ?v] => destruct (Nat.leb_spec u v) end; lia.
Qed.

Lemma load_ok s (d : list A) : fst s + snd s <= length d ->
  load_span s d = Ok (slice (fst s) (snd s) d).
Proof. intro H; unfold load_span, oguard; apply Nat.leb_le in H; rewrite H; reflexivity. Qed.

Lemma store_ok s xs (d : list A) : fst s + length xs <= length d ->
  store_span s xs d = Ok (splice (fst s) xs d).
Proof. intro H; unfold store_span, oguard; apply Nat.leb_le in H; rewrite H; reflexivity. Qed.

Lemma write_spec b xs :
  0 < capacity b -> length (data b) = capacity b -> write_index b < capacity b ->
  length xs <= capacity b ->
  exists d',
    cb_write b xs = Ok
      {| capacity := capacity b;
         is_full := if length xs =? 0 then is_full b
                    else (write_index b + length xs) mod capacity b =? read_index b;
         num_available := if length xs =? 0 then num_available b
                    else Nat.min (capacity b) (num_available b + length xs);
         data := d';
         read_index := read_index b;
         write_index := (write_index b + length xs) mod capacity b |}
    /\ length d' = capacity b
    /\ forall j, j < capacity b ->
         nth_error d' j =
         if dist (capacity b) (write_index b) j <? length xs
         then nth_error xs (dist (capacity b) (write_index b) j)
         else nth_error (data b) j.
Proof.
  intros Hc Hl Hw Hn.
  unfold cb_write, cb_write_spans, ocheck.
  apply Nat.ltb_lt in Hc as Hc'. apply Nat.leb_le in Hn as Hn'.
  rewrite Hc', Hn'.
  destruct (Nat.eqb_spec (length xs) 0) as [E|E].
  - destruct xs; [|discriminate]. cbn [obind fst snd firstn skipn length].
    rewrite store_ok by (cbn; lia). cbn [obind].
    rewrite store_ok by (rewrite length_splice; cbn; lia). cbn [obind].
    eexists; split; [|split].
    + f_equal. rewrite Nat.add_0_r, Nat.mod_small by lia. reflexivity.
    + rewrite !length_splice by (rewrite ?length_splice; cbn; lia). lia.
    + intros j Hj. destruct (Nat.ltb_spec (dist (capacity b) (write_index b) j) (length (@nil A))) as [H|H]; [cbn in H; lia|].
      rewrite !nth_error_splice by (rewrite ?length_splice; cbn; lia).
      cbn. repeat (match goal with |- context[if ?x then _ else _] => destruct x end); auto.
  - cbn [obind].
    assert (Hmin : (if capacity b <? num_available b + length xs then capacity b
                    else num_available b + length xs)
                   = Nat.min (capacity b) (num_available b + length xs)).
    { destruct (Nat.ltb_spec (capacity b) (num_available b + length xs)); lia. }
    destruct (Nat.leb_spec (write_index b + length xs) (capacity b)) as [Hs|Hs];
      cbn [fst snd data capacity is_full num_available read_index write_index].
    + rewrite firstn_all, skipn_all.
      rewrite store_ok by (cbn; lia). cbn [obind fst snd].
      rewrite store_ok by (rewrite length_splice; cbn; lia). cbn [obind fst snd].
      eexists; split; [|split].
      * rewrite Hmin. reflexivity.
      * rewrite !length_splice by (rewrite ?length_splice; cbn; lia). lia.
      * intros j Hj. rewrite dist_eq by lia.
        rewrite (nth_error_splice 0) by (rewrite length_splice; cbn; lia).
        cbn [length]. change (j <? 0) with false. change (j <? 0 + 0) with false. cbn [Nat.add].
        rewrite nth_error_splice by lia.
        destruct (Nat.leb_spec (write_index b) j) as [H1|H1].
        -- destruct (Nat.ltb_spec j (write_index b)); [lia|].
           destruct (Nat.ltb_spec j (write_index b + length xs));
             destruct (Nat.ltb_spec (j - write_index b) (length xs)); try lia; auto.
        -- destruct (Nat.ltb_spec j (write_index b)); [|lia].
           destruct (Nat.ltb_spec (j + capacity b - write_index b) (length xs)); try lia; auto.
    + set (p := capacity b - write_index b).
      assert (Hf : length (firstn p xs) = p) by (rewrite firstn_length; lia).
      assert (Hk : length (skipn p xs) = length xs - p) by (rewrite skipn_length; lia).
      rewrite store_ok by (cbn [fst snd]; lia). cbn [obind fst snd].
      rewrite store_ok by (rewrite length_splice; cbn [fst snd]; lia). cbn [obind fst snd].
      eexists; split; [|split].
      * rewrite Hmin. reflexivity.
      * rewrite !length_splice by (rewrite ?length_splice; lia). lia.
      * intros j Hj. rewrite dist_eq by lia.
        rewrite (nth_error_splice 0) by (rewrite length_splice; lia).
        rewrite Hk. change (j <? 0) with false. cbn [Nat.add].
        rewrite nth_error_splice by lia. rewrite Hf.
        rewrite nth_error_skipn, nth_error_firstn.
        destruct (Nat.leb_spec (write_index b) j) as [H1|H1].
        -- destruct (Nat.ltb_spec j (length xs - p)); [lia|].
           destruct (Nat.ltb_spec j (write_index b)); [lia|].
           destruct (Nat.ltb_spec j (write_index b + p)); [|lia].
           destruct (Nat.ltb_spec (j - write_index b) p); [|lia].
           destruct (Nat.ltb_spec (j - write_index b) (length xs)); [auto|lia].
        -- destruct (Nat.ltb_spec j (length xs - p)).
           ++ destruct (Nat.ltb_spec (j + capacity b - write_index b) (length xs)); [|lia].
              f_equal; lia.
           ++ destruct (Nat.ltb_spec j (write_index b)); [|lia].
              destruct (Nat.ltb_spec (j + capacity b - write_index b) (length xs)); [lia|auto].
Qed.

(* Content of the buffer as seen from the read index. *)
Lemma peek_spec b n :
  0 < capacity b -> length (data b) = capacity b -> read_index b < capacity b ->
  n <= num_available b -> n <= capacity b ->
  exists xs, cb_peek b n = Ok xs /\ length xs = n /\
    forall i, i < n ->
      nth_error xs i = nth_error (data b) ((read_index b + i) mod capacity b).
Proof.
  intros Hc Hl Hr Hn Hnc.
  unfold cb_peek, cb_peek_spans, ocheck.
  apply Nat.ltb_lt in Hc as Hc'. apply Nat.leb_le in Hn as Hn'. rewrite Hc'.
  destruct (Nat.eqb_spec n 0) as [E|E].
  - subst n. cbn [obind fst snd]. rewrite load_ok by (cbn; lia).
    cbn [obind fst snd]. exists []. cbn. repeat split; auto. intros; lia.
  - rewrite Hn'. cbv zeta.
    rewrite mod_lt2 by lia.
    set (e := if read_index b + n <? capacity b then read_index b + n
              else read_index b + n - capacity b).
    assert (He : e = if read_index b + n <? capacity b then read_index b + n
              else read_index b + n - capacity b) by reflexivity.
    clearbody e.
    destruct (Nat.ltb_spec (read_index b) e) as [H|H]; cbn [obind fst snd].
    + assert (read_index b + n < capacity b /\ e = read_index b + n) as [He1 He2].
      { destruct (Nat.ltb_spec (read_index b + n) (capacity b)); lia. }
      rewrite !load_ok by (cbn [fst snd]; lia). cbn [obind fst snd].
      assert (Hlen : length (slice (read_index b) (e - read_index b) (data b) ++ slice 0 0 (data b)) = n).
      { rewrite app_length, !length_slice by lia. lia. }
      unfold oguard. rewrite Hlen, Nat.eqb_refl.
      eexists; split; [reflexivity|split]; auto.
      intros i Hi. rewrite nth_error_app, length_slice by lia.
      rewrite nth_error_slice.
      destruct (Nat.ltb_spec i (e - read_index b)); [|lia].
      rewrite Nat.mod_small by lia. reflexivity.
    + assert (capacity b <= read_index b + n) as He1.
      { destruct (Nat.ltb_spec (read_index b + n) (capacity b)); lia. }
      rewrite !load_ok by (cbn [fst snd]; lia). cbn [obind fst snd].
      assert (Hlen : length (slice (read_index b) (length (data b) - read_index b) (data b) ++
                             slice 0 (n - (capacity b - read_index b)) (data b)) = n).
      { rewrite app_length, !length_slice by lia. lia. }
      unfold oguard. rewrite Hlen, Nat.eqb_refl.
      eexists; split; [reflexivity|split]; auto.
      intros i Hi. rewrite nth_error_app, length_slice by lia.
      rewrite !nth_error_slice. rewrite mod_lt2 by lia.
      destruct (Nat.ltb_spec i (length (data b) - read_index b)).
      * destruct (Nat.ltb_spec (read_index b + i) (capacity b)); [auto|lia].
      * destruct (Nat.ltb_spec (read_index b + i) (capacity b)); [lia|].
        destruct (Nat.ltb_spec (i - (length (data b) - read_index b)) (n - (capacity b - read_index b))); [|lia].
        f_equal; lia.
Qed.

(* Representation invariant: the queue [q] is stored from read_index on. *)
Record Rep (cap : nat) b q : Prop := {
  rep_cap : capacity b = cap;
  rep_pos : 0 < cap;
  rep_len : length (data b) = cap;
  rep_rd : read_index b < cap;
  rep_wr : write_index b = (read_index b + length q) mod cap;
  rep_av : num_available b = length q;
  rep_le : length q <= cap;
  rep_data : forall i, i < length q ->
     nth_error (data b) ((read_index b + i) mod cap) = nth_error q i;
  rep_full : is_full b = true -> length q = cap
}.

Lemma rep_init d cap : 0 < cap ->
  exists b, cb_init d (@cb_new A) cap = Ok b /\ Rep cap b [] /\ is_full b = false.
Proof.
  intro H. unfold cb_init, ocheck. apply Nat.ltb_lt in H as H'. rewrite H'.
  eexists; split; [reflexivity|]. split; [|reflexivity].
  constructor; cbn; auto.
  - apply length_vresize.
  - rewrite Nat.mod_small; lia.
  - lia.
  - intros; lia.
  - discriminate.
Qed.

Lemma rep_peek cap b q n : Rep cap b q -> n <= length q ->
  cb_peek b n = Ok (firstn n q).
Proof.
  intros R Hn. destruct R as [Ec Hp Hl Hr Hw Ha Hle Hd _].
  destruct (peek_spec b n) as (xs & E & Hxs & Hnth); try lia.
  rewrite E. f_equal. apply nth_error_ext; intro i.
  rewrite nth_error_firstn.
  destruct (Nat.ltb_spec i n).
  - rewrite Hnth, Ec by lia. apply Hd; lia.
  - apply nth_error_None; lia.
Qed.

Lemma rep_advance cap b q n : Rep cap b q -> n <= length q ->
  exists b', cb_advance b n = Ok b' /\ Rep cap b' (skipn n q) /\
             is_full b' = false.
Proof.
  intros R Hn. destruct R as [Ec Hp Hl Hr Hw Ha Hle Hd _].
  unfold cb_advance, ocheck, oguard.
  assert (Hn' : n <=? num_available b = true) by (apply Nat.leb_le; lia).
  assert (Hc' : 0 <? capacity b = true) by (apply Nat.ltb_lt; lia).
  rewrite Hn', Hc'. eexists; split; [reflexivity|]. split; [|reflexivity].
  constructor; cbn [capacity data read_index write_index num_available is_full]; rewrite ?skipn_length; try rewrite Ec; auto; try lia.
  - rewrite Hw, Nat.add_mod_idemp_l by lia. f_equal; lia.
  - intros i Hi. rewrite Nat.add_mod_idemp_l by lia.
    rewrite nth_error_skipn, <- Hd by lia. f_equal. f_equal. lia.
Qed.

Lemma rep_clear cap b q : Rep cap b q -> Rep cap (cb_clear b) [].
Proof.
  intros [Ec Hp Hl Hr Hw Ha Hle Hd _].
  constructor; cbn; auto; try lia.
  - rewrite Nat.mod_small; lia.
Qed.

Lemma rep_write cap b q xs : Rep cap b q -> length q + length xs <= cap ->
  exists b', cb_write b xs = Ok b' /\ Rep cap b' (q ++ xs) /\
    is_full b' = if length xs =? 0 then is_full b
                 else length (q ++ xs) =? cap.
Proof.
  intros R Hn. destruct R as [Ec Hp Hl Hr Hw Ha Hle Hd Hf].
  assert (Hwlt : write_index b < capacity b).
  { rewrite Hw, Ec. apply Nat.mod_upper_bound; lia. }
  destruct (write_spec b xs) as (d' & E & Hl' & Hd'); try lia.
  rewrite E. eexists; split; [reflexivity|].
  assert (Hwm : (write_index b + length xs) mod capacity b = (read_index b + length (q ++ xs)) mod cap).
  { rewrite Ec, Hw, Nat.add_mod_idemp_l, app_length by lia. f_equal; lia. }
  assert (Hfull : length xs <> 0 ->
      ((write_index b + length xs) mod capacity b =? read_index b) = (length (q ++ xs) =? cap)).
  { intro Hx. rewrite Hwm, app_length. rewrite mod_lt2 by lia.
    destruct (Nat.ltb_spec (read_index b + (length q + length xs)) cap);
      destruct (Nat.eqb_spec (length q + length xs) cap);
      match goal with |- (?u =? ?v) = _ => destruct (Nat.eqb_spec u v) end; lia. }
  split.
  - constructor; cbn [capacity data read_index write_index num_available is_full]; rewrite ?app_length; auto; try lia.
    + rewrite Hwm, app_length; auto.
    + destruct (Nat.eqb_spec (length xs) 0); lia.
    + intros i Hi. rewrite Hd' by (rewrite Ec; apply Nat.mod_upper_bound; lia).
      rewrite Ec in *.
      rewrite Hw, dist_shift, nth_error_app by lia.
      destruct (Nat.ltb_spec i (length q)) as [Hiq|Hiq].
      * rewrite Hd by auto.
        destruct (Nat.ltb_spec (i + cap - length q) (length xs)); [lia|auto].
      * destruct (Nat.ltb_spec (i - length q) (length xs)); [auto|lia].
    + destruct (Nat.eqb_spec (length xs) 0) as [E0|E0].
      * intro H; apply Hf in H; lia.
      * rewrite Hfull by auto. intro H. apply Nat.eqb_eq in H. rewrite app_length in H. lia.
  - cbn [is_full]. destruct (Nat.eqb_spec (length xs) 0) as [E0|E0]; auto.
Qed.

Lemma step_refines cap b q o q' out :
  Rep cap b q -> q_step cap q o = Some (q', out) ->
  exists b' out', cb_step b o = Ok (b', out') /\ Rep cap b' q' /\
                  hide_full out' = out.
Proof.
  intros R H. destruct o as [xs|n|n|n| | | |]; cbn [q_step cb_step] in *.
  - destruct (Nat.leb_spec (length q + length xs) cap) as [Hl|]; [|discriminate].
    injection H as <- <-.
    destruct (rep_write _ _ _ _ R Hl) as (b' & E & R' & _).
    rewrite E. cbn [obind]. eauto 10.
  - destruct (Nat.leb_spec n (length q)) as [Hl|]; [|discriminate].
    injection H as <- <-.
    destruct (rep_advance _ _ _ _ R Hl) as (b' & E & R' & _).
    unfold cb_read. rewrite (rep_peek _ _ _ _ R Hl). cbn [obind]. rewrite E.
    cbn [obind fst snd]. eauto 10.
  - destruct (Nat.leb_spec n (length q)) as [Hl|]; [|discriminate].
    injection H as <- <-. rewrite (rep_peek _ _ _ _ R Hl). cbn [obind]. eauto 10.
  - destruct (Nat.leb_spec n (length q)) as [Hl|]; [|discriminate].
    injection H as <- <-.
    destruct (rep_advance _ _ _ _ R Hl) as (b' & E & R' & _).
    rewrite E. cbn [obind]. eauto 10.
  - injection H as <- <-. eexists _, _; split; [reflexivity|split]; [eapply rep_clear; eauto|reflexivity].
  - injection H as <- <-. eexists _, _; split; [reflexivity|split]; [eauto|].
    cbn. f_equal. apply (rep_av _ _ _ R).
  - injection H as <- <-. eexists _, _; split; [reflexivity|split]; [eauto|].
    cbn. f_equal. apply (rep_cap _ _ _ R).
  - injection H as <- <-. eauto 10.
Qed.

Lemma run_refines cap ops : forall b q q' outs,
  Rep cap b q -> q_run cap q ops = Some (q', outs) ->
  exists b' outs', run cb_step b ops = Ok (b', outs') /\ Rep cap b' q' /\
                   map hide_full outs' = outs.
Proof.
  induction ops as [|o ops IH]; intros b q q' outs R H; cbn [q_run run] in *.
  - injection H as <- <-. eexists _, _; split; [reflexivity|]. auto.
  - destruct (q_step cap q o) as [[q1 out]|] eqn:E1; [|discriminate].
    destruct (q_run cap q1 ops) as [[q2 outs2]|] eqn:E2; [|discriminate].
    injection H as <- <-.
    destruct (step_refines _ _ _ _ _ _ R E1) as (b1 & out1 & S1 & R1 & H1).
    destruct (IH _ _ _ _ R1 E2) as (b2 & outs2' & S2 & R2 & H2).
    rewrite S1. cbn [obind fst snd]. rewrite S2. cbn [obind fst snd].
    eexists _, _; split; [reflexivity|]. split; auto. cbn. congruence.
Qed.

Theorem session_fifo d cap ops q outs :
  0 < cap -> q_run cap [] ops = Some (q, outs) ->
  exists b outs', cb_session d cap ops = Ok (b, outs') /\
                  map hide_full outs' = outs /\
                  num_available b = length q /\
                  cb_peek b (length q) = Ok q.
Proof.
  intros Hc H. destruct (rep_init d cap Hc) as (b0 & E0 & R0 & _).
  destruct (run_refines _ _ _ _ _ _ R0 H) as (b & outs' & E & R & Ho).
  exists b, outs'. unfold cb_session. rewrite E0. cbn [obind].
  repeat split; auto.
  - apply (rep_av _ _ _ R).
  - rewrite (rep_peek _ _ _ _ R (le_n _)), firstn_all. reflexivity.
Qed.

(* ---- IsFull ---- *)
Lemma step_refines_full cap b q o q' out :
  Rep cap b q -> is_full b = (length q =? cap) ->
  zero_consume o = false -> qf_step cap q o = Some (q', out) ->
  exists b', cb_step b o = Ok (b', out) /\ Rep cap b' q' /\
             is_full b' = (length q' =? cap).
Proof.
  intros R F Z H. destruct o as [xs|n|n|n| | | |]; cbn [qf_step q_step cb_step zero_consume] in *.
  - destruct (Nat.leb_spec (length q + length xs) cap) as [Hl|]; [|discriminate].
    injection H as <- <-.
    destruct (rep_write _ _ _ _ R Hl) as (b' & E & R' & F').
    rewrite E. cbn [obind]. eexists; split; [reflexivity|]. split; auto.
    rewrite F'. destruct (Nat.eqb_spec (length xs) 0) as [E0|]; auto.
    rewrite F, app_length, E0, Nat.add_0_r. reflexivity.
  - destruct (Nat.leb_spec n (length q)) as [Hl|]; [|discriminate].
    injection H as <- <-. apply Nat.eqb_neq in Z.
    destruct (rep_advance _ _ _ _ R Hl) as (b' & E & R' & F').
    unfold cb_read. rewrite (rep_peek _ _ _ _ R Hl). cbn [obind]. rewrite E.
    cbn [obind fst snd]. eexists; split; [reflexivity|]. split; auto.
    rewrite F'. symmetry. apply Nat.eqb_neq. rewrite skipn_length.
    pose proof (rep_le _ _ _ R). lia.
  - destruct (Nat.leb_spec n (length q)) as [Hl|]; [|discriminate].
    injection H as <- <-. rewrite (rep_peek _ _ _ _ R Hl). cbn [obind]. eauto 10.
  - destruct (Nat.leb_spec n (length q)) as [Hl|]; [|discriminate].
    injection H as <- <-. apply Nat.eqb_neq in Z.
    destruct (rep_advance _ _ _ _ R Hl) as (b' & E & R' & F').
    rewrite E. cbn [obind]. eexists; split; [reflexivity|]. split; auto.
    rewrite F'. symmetry. apply Nat.eqb_neq. rewrite skipn_length.
    pose proof (rep_le _ _ _ R). lia.
  - injection H as <- <-. eexists; split; [reflexivity|split]; [eapply rep_clear; eauto|].
    pose proof (rep_pos _ _ _ R). destruct cap; [lia|reflexivity].
  - injection H as <- <-. rewrite (rep_av _ _ _ R). eauto.
  - injection H as <- <-. rewrite (rep_cap _ _ _ R). eauto.
  - injection H as <- <-. rewrite F. eauto.
Qed.

Theorem session_full d cap ops q outs :
  0 < cap -> forallb (fun o => negb (zero_consume o)) ops = true ->
  qf_run cap [] ops = Some (q, outs) ->
  exists b, cb_session d cap ops = Ok (b, outs).
Proof.
  intros Hc Hz H. destruct (rep_init d cap Hc) as (b0 & E0 & R0 & F0).
  unfold cb_session. rewrite E0. cbn [obind]. clear E0.
  assert (F : is_full b0 = (length (@nil A) =? cap)).
  { rewrite F0. destruct cap; [lia|reflexivity]. }
  clear F0. revert b0 R0 F Hz H.
  generalize (@nil A) as q0. revert q outs.
  induction ops as [|o ops IH]; intros q outs q0 b0 R0 F Hz H; cbn [qf_run run] in *.
  - injection H as <- <-. eauto.
  - cbn [forallb] in Hz. apply andb_true_iff in Hz as [Hz1 Hz2].
    apply negb_true_iff in Hz1.
    destruct (qf_step cap q0 o) as [[q1 out]|] eqn:E1; [|discriminate].
    destruct (qf_run cap q1 ops) as [[q2 outs2]|] eqn:E2; [|discriminate].
    injection H as <- <-.
    destruct (step_refines_full _ _ _ _ _ _ R0 F Hz1 E1) as (b1 & S1 & R1 & F1).
    destruct (IH _ _ _ _ R1 F1 Hz2 E2) as (b2 & S2).
    rewrite S1. cbn [obind fst snd]. rewrite S2. cbn [obind fst snd]. eauto.
Qed.

(* IsFull never gives a false alarm as long as no write overruns. *)
Theorem session_full_sound d cap ops q outs b outs' :
  0 < cap -> q_run cap [] ops = Some (q, outs) ->
  cb_session d cap ops = Ok (b, outs') -> is_full b = true ->
  num_available b = capacity b.
Proof.
  intros Hc H Hs Hf. destruct (rep_init d cap Hc) as (b0 & E0 & R0 & _).
  destruct (run_refines _ _ _ _ _ _ R0 H) as (b1 & outs1 & E & R & Ho).
  unfold cb_session in Hs. rewrite E0 in Hs. cbn [obind] in Hs.
  rewrite E in Hs. injection Hs as <- <-.
  rewrite (rep_av _ _ _ R), (rep_cap _ _ _ R). apply (rep_full _ _ _ R Hf).
Qed.

(* ---- Overrunning writes ---- *)
Definition rotate (k : nat) (l : list A) : list A := skipn k l ++ firstn k l.

Theorem overrun_rotation cap b q xs :
  Rep cap b q -> length xs <= cap -> cap < length q + length xs ->
  exists b', cb_write b xs = Ok b' /\ num_available b' = cap /\
    cb_peek b' cap =
      Ok (rotate (2 * cap - (length q + length xs)) (newest cap (q ++ xs))).
Proof.
  intros R Hx Hov. destruct R as [Ec Hp Hl Hr Hw Ha Hle Hd Hf].
  assert (Hwlt : write_index b < capacity b).
  { rewrite Hw, Ec. apply Nat.mod_upper_bound; lia. }
  destruct (write_spec b xs) as (d' & E & Hl' & Hd'); try lia.
  rewrite E. eexists; split; [reflexivity|].
  assert (Hx0 : length xs =? 0 = false) by (apply Nat.eqb_neq; lia).
  cbn [num_available]. rewrite Hx0. split; [lia|].
  match goal with |- cb_peek ?b' _ = _ => destruct (peek_spec b' cap) as (ys & E' & Hys & Hnth) end;
    cbn [capacity data read_index num_available] in *; rewrite ?Hx0; try lia.
  rewrite E'. f_equal. apply nth_error_ext; intro i.
  assert (Hnl : length (newest cap (q ++ xs)) = cap).
  { unfold newest. rewrite skipn_length, app_length. lia. }
  set (k := 2 * cap - (length q + length xs)).
  destruct (Nat.ltb_spec i cap) as [Hi|Hi].
  - rewrite Hnth by lia.
    rewrite Hd' by (apply Nat.mod_upper_bound; lia). rewrite Ec in *.
    rewrite Hw, dist_shift by lia. unfold rotate.
    rewrite nth_error_app, skipn_length, Hnl, nth_error_skipn, nth_error_firstn.
    unfold newest. rewrite !nth_error_skipn, app_length, !nth_error_app.
    destruct (Nat.ltb_spec i (length q)) as [Hiq|Hiq].
    + rewrite Hd by auto.
      destruct (Nat.ltb_spec (i + cap - length q) (length xs)) as [H1|H1].
      * destruct (Nat.ltb_spec i (cap - k)) as [H2|H2].
        -- destruct (Nat.ltb_spec (length q + length xs - cap + (k + i)) (length q)); [lia|].
           f_equal; lia.
        -- lia.
      * destruct (Nat.ltb_spec i (cap - k)) as [H2|H2]; [lia|].
        destruct (Nat.ltb_spec (i - (cap - k)) k); [|lia].
        destruct (Nat.ltb_spec (length q + length xs - cap + (i - (cap - k))) (length q)); [|lia].
        f_equal; lia.
    + destruct (Nat.ltb_spec (i - length q) (length xs)); [|lia].
      destruct (Nat.ltb_spec i (cap - k)) as [H2|H2]; [lia|].
      destruct (Nat.ltb_spec (i - (cap - k)) k); [|lia].
      destruct (Nat.ltb_spec (length q + length xs - cap + (i - (cap - k))) (length q)); [lia|].
      f_equal; lia.
  - transitivity (@None A); [|symmetry]; apply nth_error_None; [lia|].
    unfold rotate. rewrite app_length, skipn_length, firstn_length. lia.
Qed.

(* ---- Rules broken by the caller are caught ---- *)
Theorem misuse_caught cap b q :
  Rep cap b q ->
  (forall n, length q < n -> cb_peek b n = CheckFail /\ cb_read b n = CheckFail
                             /\ cb_advance b n = CheckFail) /\
  (forall xs, cap < length xs -> cb_write b xs = CheckFail).
Proof.
  intros [Ec Hp Hl Hr Hw Ha Hle Hd Hf]. split.
  - intros n Hn.
    assert (cb_peek b n = CheckFail) as Hpk.
    { unfold cb_peek, cb_peek_spans, ocheck.
      replace (0 <? capacity b) with true by (symmetry; apply Nat.ltb_lt; lia).
      replace (n =? 0) with false by (symmetry; apply Nat.eqb_neq; lia).
      replace (n <=? num_available b) with false by (symmetry; apply Nat.leb_gt; lia).
      reflexivity. }
    repeat split; auto.
    + unfold cb_read. rewrite Hpk. reflexivity.
    + unfold cb_advance, ocheck.
      replace (n <=? num_available b) with false by (symmetry; apply Nat.leb_gt; lia).
      reflexivity.
  - intros xs Hx. unfold cb_write, cb_write_spans, ocheck.
    replace (0 <? capacity b) with true by (symmetry; apply Nat.ltb_lt; lia).
    replace (length xs <=? capacity b) with false by (symmetry; apply Nat.leb_gt; lia).
    reflexivity.
Qed.

(* After any legal history, breaking a rule aborts instead of corrupting. *)
Theorem session_misuse d cap ops q outs b outs' :
  0 < cap -> q_run cap [] ops = Some (q, outs) ->
  cb_session d cap ops = Ok (b, outs') ->
  (forall n, length q < n -> cb_peek b n = CheckFail /\ cb_read b n = CheckFail
                             /\ cb_advance b n = CheckFail) /\
  (forall xs, cap < length xs -> cb_write b xs = CheckFail).
Proof.
  intros Hc H Hs. destruct (rep_init d cap Hc) as (b0 & E0 & R0 & _).
  destruct (run_refines _ _ _ _ _ _ R0 H) as (b1 & outs1 & E & R & Ho).
  unfold cb_session in Hs. rewrite E0 in Hs. cbn [obind] in Hs.
  rewrite E in Hs. injection Hs as <- <-. eapply misuse_caught; eauto.
Qed.

Theorem session_overrun d cap ops q outs b outs' xs :
  0 < cap -> q_run cap [] ops = Some (q, outs) ->
  cb_session d cap ops = Ok (b, outs') ->
  length xs <= cap -> cap < length q + length xs ->
  exists b', cb_write b xs = Ok b' /\ num_available b' = cap /\
    cb_peek b' cap =
      Ok (rotate (2 * cap - (length q + length xs)) (newest cap (q ++ xs))).
Proof.
  intros Hc H Hs Hx Hov. destruct (rep_init d cap Hc) as (b0 & E0 & R0 & _).
  destruct (run_refines _ _ _ _ _ _ R0 H) as (b1 & outs1 & E & R & Ho).
  unfold cb_session in Hs. rewrite E0 in Hs. cbn [obind] in Hs.
  rewrite E in Hs. injection Hs as <- <-. eapply overrun_rotation; eauto.
Qed.

(* ---- Planar buffers ---- *)
Lemma planar_init_ok d channels cap : 0 < cap ->
  exists bs, planar_init d channels cap = Ok bs /\
             Forall2 (Rep cap) bs (repeat [] channels).
Proof.
  intro Hc. destruct (rep_init d cap Hc) as (b0 & E0 & R0 & _).
  exists (repeat b0 channels). unfold planar_init. split.
  - induction channels as [|n IH]; cbn [repeat omapM]; auto.
    rewrite E0. cbn [obind]. rewrite IH. reflexivity.
  - induction channels; cbn; auto.
Qed.

Lemma planar_write_ok cap n0 : forall bs qs input,
  Forall2 (Rep cap) bs qs -> length input = length qs ->
  forallb (fun c => length c =? n0) input = true ->
  forallb (fun q => length q + n0 <=? cap) qs = true ->
  exists bs', planar_write_from n0 bs input = Ok bs' /\
    Forall2 (Rep cap) bs' (map (fun p => fst p ++ snd p) (combine qs input)).
Proof.
  induction bs as [|b bs IH]; intros qs input F Hl H1 H2.
  - inversion F; subst. destruct input; [|discriminate]. exists []. split; [reflexivity|constructor].
  - inversion F as [|? q ? qs' R F']; subst.
    destruct input as [|x input]; [discriminate|].
    cbn [forallb] in H1, H2. apply andb_true_iff in H1 as [H1 H1'].
    apply andb_true_iff in H2 as [H2 H2'].
    apply Nat.eqb_eq in H1. apply Nat.leb_le in H2.
    destruct (rep_write _ _ _ x R) as (b' & E & R' & _); [lia|].
    destruct (IH qs' input F') as (bs' & E' & F''); auto.
    cbn [planar_write_from ocheck].
    unfold ocheck. rewrite (proj2 (Nat.eqb_eq _ _) H1), E. cbn [obind].
    rewrite E'. cbn [obind]. eexists; split; [reflexivity|].
    cbn. constructor; auto.
Qed.

Lemma planar_read_ok cap n : forall bs qs,
  Forall2 (Rep cap) bs qs -> forallb (fun q => n <=? length q) qs = true ->
  exists bs', planar_read bs n = Ok (bs', map (firstn n) qs) /\
    Forall2 (Rep cap) bs' (map (skipn n) qs).
Proof.
  induction bs as [|b bs IH]; intros qs F H.
  - inversion F; subst. exists []. split; [reflexivity|constructor].
  - inversion F as [|? q ? qs' R F']; subst.
    cbn [forallb] in H. apply andb_true_iff in H as [H H'].
    apply Nat.leb_le in H.
    destruct (rep_advance _ _ _ _ R H) as (b' & E & R' & _).
    destruct (IH qs' F' H') as (bs' & E' & F'').
    cbn [planar_read]. unfold cb_read. rewrite (rep_peek _ _ _ _ R H).
    cbn [obind]. rewrite E. cbn [obind fst snd]. rewrite E'. cbn [obind fst snd].
    eexists; split; [reflexivity|]. cbn. constructor; auto.
Qed.

Theorem planar_fifo (d : A) channels cap (ops : list (pl_op A)) qs outs :
  0 < cap -> pq_run cap (repeat [] channels) ops = Some (qs, outs) ->
  exists bs, planar_session d channels cap ops = Ok (bs, outs).
Proof.
  intros Hc H. destruct (planar_init_ok d channels cap Hc) as (bs0 & E0 & F0).
  cbv beta delta [planar_session]. rewrite E0. cbn [obind]. clear E0.
  revert bs0 F0 H. generalize (repeat (@nil A) channels) as qs0.
  revert qs outs.
  induction ops as [|o ops IH]; intros qs outs qs0 bs0 F0 H; cbn [pq_run run] in *.
  - injection H as <- <-. eauto.
  - destruct (pq_step cap qs0 o) as [[qs1 out]|] eqn:E1; [|discriminate].
    destruct (pq_run cap qs1 ops) as [[qs2 outs2]|] eqn:E2; [|discriminate].
    injection H as <- <-.
    assert (exists bs1, planar_step bs0 o = Ok (bs1, out) /\ Forall2 (Rep cap) bs1 qs1)
      as (bs1 & S1 & F1).
    { destruct o as [x|n|]; cbn [pq_step planar_step] in *.
      - destruct ((length x =? length qs0) && _ && _) eqn:C; [|discriminate].
        apply andb_true_iff in C as [C C3]. apply andb_true_iff in C as [C1 C2].
        apply Nat.eqb_eq in C1. injection E1 as <- <-.
        destruct (planar_write_ok cap _ bs0 qs0 x F0 C1 C2 C3) as (bs' & E & F).
        unfold planar_write. rewrite E. cbn [obind]. eauto.
      - destruct (forallb _ qs0) eqn:C; [|discriminate]. injection E1 as <- <-.
        destruct (planar_read_ok cap n bs0 qs0 F0 C) as (bs' & E & F).
        rewrite E. cbn [obind fst snd]. eauto.
      - destruct qs0 as [|q qs0]; [discriminate|]. injection E1 as <- <-.
        inversion F0 as [|b ? bs' ? R F']; subst.
        cbn [planar_num_readable obind]. rewrite (rep_av _ _ _ R). eauto. }
    destruct (IH _ _ _ _ F1 E2) as (bs2 & S2).
    rewrite S1. cbn [obind fst snd]. rewrite S2. cbn [obind fst snd]. eauto.
Qed.

End Proofs.
