(* C36: SpectralProcessor. *)
From Coq Require Import Reals Lra Permutation.
From Verif Require Import Common CInt NumberUtilModel NumberUtilProofs NumberUtilProps ListLemmas NthLemmas
  SpectrogramSpec SpectrogramProofs3
  SpectralProcessorModel SpectralProcessorSpec SpectralProcessorProofs.
Local Open Scope nat_scope.

Lemma fold_max_ge : forall rest s, (s <= fold_left Z.max rest s)%Z /\
  (forall x, In x rest -> (x <= fold_left Z.max rest s)%Z).
Proof.
  induction rest as [|a rest IH]; intros s; cbn [fold_left]; [split; [lia|easy]|].
  destruct (IH (Z.max s a)) as [H1 H2]. split; [lia|]. intros x [->|Hx]; [lia|]. now apply H2.
Qed.

Lemma make_config_ok sizes block hop :
  sizes <> [] -> Forall (fun z => int z /\ 0 <= z)%Z sizes -> (exists s, In s sizes /\ 0 < s)%Z ->
  (1 <= hop <= block)%Z -> int block ->
  exists g mx, make_config sizes block block hop = Ok
      (mkConfig (Z.to_nat hop) (Z.to_nat block) mx (Z.to_nat block - Z.to_nat g)) /\
    (1 <= g)%Z /\ (forall d, (d | g) <-> Forall (fun z => (d | z)) (sizes ++ [hop]))%Z /\
    forall z, In z sizes -> (z <= Z.of_nat mx)%Z.
Proof.
  intros Hne HF [s0 [Hs0 Hpos]] Hh Hb. destruct sizes as [|s rest]; [congruence|].
  destruct (C05_gcd_vector s (rest ++ [hop])) as (g & E & Hg & Hd).
  { change (Forall (fun z => int z /\ 0 <= z)%Z ((s :: rest) ++ [hop])). apply Forall_app. split; [exact HF|].
    constructor; [|constructor]. unfold int, INT_MIN, INT_MAX in *. lia. }
  assert (0 < g)%Z as Hg0.
  { destruct (Z.eq_dec g 0) as [->|]; [|lia]. exfalso.
    assert (Forall (fun z => (0 | z)%Z) (s :: rest ++ [hop])) as H by (apply Hd; apply Z.divide_0_r).
    rewrite Forall_forall in H. specialize (H hop). destruct H as [q Hq]; [|lia].
    right. apply in_or_app. right. now left. }
  assert (g <= hop)%Z as Hgh.
  { assert (Forall (fun z => (g | z)%Z) (s :: rest ++ [hop])) as H by (apply Hd; apply Z.divide_refl).
    rewrite Forall_forall in H. specialize (H hop). apply Z.divide_pos_le; [lia|]. apply H.
    right. apply in_or_app. right. now left. }
  exists g, (Z.to_nat (fold_left Z.max rest s)).
  destruct (fold_max_ge rest s) as [M1 M2].
  assert (0 < fold_left Z.max rest s)%Z as Hmx.
  { destruct Hs0 as [->|Hin]; [lia|]. specialize (M2 _ Hin). lia. }
  split; [|split; [lia|split]].
  - unfold make_config, gcd_with_hop. cbn [app]. rewrite E. cbn [obind].
    unfold ocheck, oguard.
    destruct (Z.ltb_spec 0 block); [|lia]. destruct (Z.ltb_spec 0 (fold_left Z.max rest s)); [|lia].
    rewrite Z.eqb_refl. destruct (Z.leb_spec 0 (block - g)); [|lia].
    f_equal. f_equal. lia.
  - exact Hd.
  - intros z Hz. rewrite Z2Nat.id by lia. destruct Hz as [<-|Hz]; [lia|]. now apply M2.
Qed.

(* One block: window, forward transform, callback, inverse transform, window;
   the callback is told [frames_arg] time domain frames. *)
Definition block_spec {TI TO SI SO CB} (zeroI : TI) (zero : TO)
    (winI : nat -> TI -> TI) (winO : nat -> TO -> TO) (fwd : list TI -> SI) (bwd : SO -> list TO)
    (callback : CB -> SI -> nat -> CB * SO) (frames_arg : nat) (cb : CB) (b : list TI)
    : CB * list TO :=
  let r := callback cb (fwd (window_with zeroI winI b)) frames_arg in
  (fst r, window_with zero winO (bwd (snd r))).

(* For every block length, hop <= block, list of chunk lengths, callback with
   its own state, and every sequence of non-empty chunks of the announced
   lengths: no check fails, every call returns as many columns as it was
   given, and the output is the overlap-add, at multiples of the hop, of the
   processed blocks of the input delayed by latency = block - gcd. *)
Theorem C36_output : forall TI TO SI SO CB (zeroI : TI) (zero : TO) (add : TO -> TO -> TO)
    winI winO (fwd : list TI -> SI) (bwd : SO -> list TO) (callback : CB -> SI -> nat -> CB * SO)
    sizes block hop,
  sizes <> [] -> Forall (fun z => int z /\ 0 <= z)%Z sizes -> (exists s, In s sizes /\ 0 < s)%Z ->
  (1 <= hop <= block)%Z -> int block ->
  exists cf g, make_config sizes block block hop = Ok cf /\
    (forall d, (d | g) <-> Forall (fun z => (d | z)) (sizes ++ [hop]))%Z /\ (1 <= g <= hop)%Z /\
    Z.of_nat (cf_delay cf) = (block - g)%Z /\
    ((forall so, length (bwd so) = Z.to_nat block) ->
     forall cb0 chunks,
      Forall (fun c => In (Z.of_nat (length c)) sizes /\ c <> []) chunks ->
      let xs := concat chunks in
      let n := blocks_before (Z.to_nat hop) (length xs) in
      let bs := input_blocks zeroI (cf_delay cf) (Z.to_nat hop) (Z.to_nat block) n xs in
      let ys := snd (process_all (block_spec zeroI zero winI winO fwd bwd callback
                       (Nat.div (Z.to_nat block) 2 + 1)) cb0 bs) in
      exists p outs,
        run (process_chunk zero add winI winO fwd bwd callback cf)
          (reset zeroI zero cf cb0) chunks = Ok (p, outs) /\
        map (@length _) outs = map (@length _) chunks /\
        concat outs = map (overlap_add zero add (Z.to_nat hop) ys) (seq 0 (length xs))).
Proof.
  intros TI TO SI SO CB zeroI zero add winI winO fwd bwd callback sizes block hop Hne HF Hpos Hh Hb.
  destruct (make_config_ok sizes block hop Hne HF Hpos Hh Hb) as (g & mx & E & Hg & Hd & Hmx).
  assert (Forall (fun z => (g | z)%Z) (sizes ++ [hop])) as Hdg by (apply Hd; apply Z.divide_refl).
  rewrite Forall_forall in Hdg.
  assert (g | hop)%Z as Hgh by (apply Hdg, in_or_app; right; now left).
  assert (g <= hop)%Z as Hgh2 by (apply Z.divide_pos_le; [lia|exact Hgh]).
  eexists. exists g. split; [exact E|]. split; [exact Hd|]. split; [lia|].
  cbn [cf_delay]. split; [lia|].
  intros Hbwd cb0 chunks HFc. cbv zeta.
  assert (forall z, (0 <= z)%Z -> (g | z)%Z -> Nat.divide (Z.to_nat g) (Z.to_nat z)) as Hdiv.
  { intros z Hz [q Hq]. exists (Z.to_nat q). rewrite Hq. apply Z2Nat.inj_mul; nia. }
  destruct (run_ok zeroI zero add winI winO fwd bwd callback (Z.to_nat hop) (Z.to_nat block) mx
    (Z.to_nat g)) with (cb0 := cb0) (chunks := chunks) (xs := @nil TI)
    (p := reset zeroI zero (mkConfig (Z.to_nat hop) (Z.to_nat block) mx (Z.to_nat block - Z.to_nat g)) cb0)
    as (p & outs & E2 & _ & EL & EC); try (lia || assumption).
  - apply Hdiv; [lia|exact Hgh].
  - apply reset_pinv; try (lia || assumption).
  - apply Nat.divide_0_r.
  - eapply Forall_impl; [|exact HFc]. cbv beta. intros c [Hin Hc]. split.
    + split; [destruct c; [congruence|cbn; lia]|]. specialize (Hmx _ Hin). lia.
    + rewrite <- (Nat2Z.id (length c)). apply Hdiv; [lia|]. apply Hdg, in_or_app. now left.
  - exists p, outs. split; [exact E2|]. split; [exact EL|].
    rewrite EC. reflexivity.
Qed.
Print Assumptions C36_output.

(* Constant latency: over the reals, with a callback that changes nothing and
   a window whose squares sum to 1 over every residue class modulo the hop,
   the output is the input delayed by the latency, for all chunk sizes. *)
Theorem C36_latency : forall (SI : Type) (w : nat -> R) (fwd : list R -> SI) (bwd : SI -> list R)
    sizes block hop,
  sizes <> [] -> Forall (fun z => int z /\ 0 <= z)%Z sizes -> (exists s, In s sizes /\ 0 < s)%Z ->
  (1 <= hop <= block)%Z -> int block ->
  (forall b, length b = Z.to_nat block -> bwd (fwd b) = b) ->
  (forall so, length (bwd so) = Z.to_nat block) ->
  (forall r, r < Z.to_nat hop ->
     fold_right Rplus 0%R (map (fun o => (w o * w o)%R)
       (filter (fun o => Nat.modulo o (Z.to_nat hop) =? r) (seq 0 (Z.to_nat block)))) = 1%R) ->
  exists cf, make_config sizes block block hop = Ok cf /\
    forall chunks, Forall (fun c => In (Z.of_nat (length c)) sizes /\ c <> []) chunks ->
    exists p outs,
      run (process_chunk 0%R Rplus (fun k x => (w k * x)%R) (fun k x => (w k * x)%R) fwd bwd
             (fun (_ : unit) s _ => (tt, s)) cf) (reset 0%R 0%R cf tt) chunks = Ok (p, outs) /\
      concat outs = firstn (length (concat chunks)) (repeat 0%R (cf_delay cf) ++ concat chunks).
Proof.
  intros SI w fwd bwd sizes block hop Hne HF Hpos Hh Hb Hinv Hbwd Hcola.
  destruct (C36_output R R SI SI unit 0%R 0%R Rplus (fun k x => (w k * x)%R) (fun k x => (w k * x)%R)
    fwd bwd (fun _ s _ => (tt, s)) sizes block hop Hne HF Hpos Hh Hb)
    as (cf & g & E & Hd & Hg & Hdel & Hrun).
  exists cf. split; [exact E|]. intros chunks HFc.
  destruct (Hrun Hbwd tt chunks HFc) as (p & outs & E2 & _ & EC). cbv zeta in EC.
  exists p, outs. split; [exact E2|]. rewrite EC. clear Hrun E2 EC outs p.
  assert (1 <= Z.to_nat hop <= Z.to_nat block) as Hhn by lia.
  assert (cf_delay cf = Z.to_nat block - Z.to_nat g /\ 1 <= Z.to_nat g <= Z.to_nat hop) as [Hdn Hgn] by lia.
  set (xs := concat chunks). set (h := Z.to_nat hop) in *. set (W := Z.to_nat block) in *.
  set (padded := repeat 0%R (cf_delay cf) ++ xs).
  set (m := blocks_before h (length xs)).
  assert (forall l cb, Forall (fun b => length b = W) l ->
    snd (process_all (block_spec 0%R 0%R (fun k x => (w k * x)%R) (fun k x => (w k * x)%R) fwd bwd
        (fun (_ : unit) s _ => (tt, s)) (W / 2 + 1)) cb l)
    = map (fun b => map (fun k => (w k * (w k * nth k b 0))%R) (seq 0 W)) l) as Hpa.
  { induction l as [|b l IH]; intros cb HFb; [reflexivity|].
    pose proof (Forall_inv HFb) as Lb. apply Forall_inv_tail in HFb.
    cbn [process_all snd map]. rewrite IH by exact HFb. f_equal.
    unfold block_spec. cbn [fst snd]. unfold window_with at 2. rewrite Lb.
    rewrite Hinv by now rewrite map_length, seq_length.
    unfold window_with. rewrite map_length, seq_length. apply map_ext_in. intros k Hk. apply in_seq in Hk.
    now rewrite nth_map_seq by lia. }
  pose proof (blocks_before_bounds h (length xs) (proj1 Hhn)) as [HB1 HB2]. fold m in HB1, HB2.
  assert (length padded = cf_delay cf + length xs) as Lp by (unfold padded; now rewrite app_length, repeat_length).
  assert (Nat.divide (Z.to_nat g) (length xs)) as Hdx.
  { unfold xs. clear - HFc Hd Hg. induction chunks as [|c cs IH]; [apply Nat.divide_0_r|].
    pose proof (Forall_inv HFc) as [Hin _]. apply Forall_inv_tail in HFc.
    cbn [concat]. rewrite app_length. apply Nat.divide_add_r; [|now apply IH].
    assert (Forall (fun z => (g | z)%Z) (sizes ++ [hop])) as Hdg by (apply Hd; apply Z.divide_refl).
    rewrite Forall_forall in Hdg. destruct (Hdg (Z.of_nat (length c))) as [q Hq]; [apply in_or_app; now left|].
    exists (Z.to_nat q). nia. }
  assert (Nat.divide (Z.to_nat g) h) as Hdh.
  { assert (Forall (fun z => (g | z)%Z) (sizes ++ [hop])) as Hdg by (apply Hd; apply Z.divide_refl).
    rewrite Forall_forall in Hdg. destruct (Hdg hop) as [q Hq]; [apply in_or_app; right; now left|].
    exists (Z.to_nat q). unfold h. nia. }
  assert (m <> 0 -> (m - 1) * h + W <= cf_delay cf + length xs) as Hav.
  { intros Hm. specialize (HB2 Hm).
    assert ((m - 1) * h + Z.to_nat g <= length xs); [|lia].
    destruct Hdh as [a Ea]. destruct Hdx as [b Eb]. rewrite Eb in *.
    assert ((m - 1) * h = ((m - 1) * a) * Z.to_nat g) as E1 by (rewrite Ea; lia).
    rewrite E1 in *. set (u := (m - 1) * a) in *. assert (u < b) by nia. nia. }
  rewrite Hpa.
  2:{ unfold input_blocks. apply Forall_forall. intros b Hin. apply in_map_iff in Hin.
      destruct Hin as (i & <- & Hi). apply in_seq in Hi. fold padded.
      unfold slice. rewrite firstn_length, skipn_length, Lp.
      assert (i * h <= (m - 1) * h) by (apply Nat.mul_le_mono_r; lia). specialize (Hav ltac:(lia)). lia. }
  apply (nth_ext _ _ 0%R 0%R).
  { rewrite map_length, seq_length, firstn_length. fold padded. rewrite Lp. lia. }
  intros t Ht. rewrite map_length, seq_length in Ht. rewrite nth_map_seq by exact Ht. cbn [Nat.add].
  rewrite nth_firstn by exact Ht. fold padded.
  unfold input_blocks. rewrite map_map. fold padded.
  unfold overlap_add. rewrite fold_left_rsum, Rplus_0_l.
  assert (SpectrogramSpec.covering h (map (fun i => map (fun k => (w k * (w k * nth k (slice (i * h) W padded) 0))%R)
       (seq 0 W)) (seq 0 m)) t
    = map (fun o => (nth t padded 0 * (w o * w o))%R)
        (map (fun i => (t - i * h)%nat)
          (filter (fun i => (i * h <=? t)%nat && (t - i * h <? W)%nat) (seq 0 m)))) as ->.
  { unfold SpectrogramSpec.covering. rewrite map_length, seq_length, map_map.
    rewrite <- concat_filter. f_equal. apply map_ext_in. intros i Hi. apply in_seq in Hi.
    rewrite nth_error_map, nth_error_seq. destruct (Nat.ltb_spec i m) as [_|]; [|lia].
    cbn [option_map Nat.add].
    destruct (Nat.leb_spec (i * h) t) as [Hit|Hit]; [|reflexivity]. cbn [andb].
    destruct (Nat.ltb_spec (t - i * h) W) as [Hw|Hw].
    - rewrite (nth_error_nth' _ 0%R) by (rewrite map_length, seq_length; lia).
      rewrite nth_map_seq by lia. cbn [Nat.add]. f_equal.
      rewrite nth_slice by lia. replace (i * h + (t - i * h)) with t by lia. ring.
    - rewrite (proj2 (nth_error_None _ _)); [reflexivity|]. rewrite map_length, seq_length. lia. }
  destruct (Nat.lt_ge_cases t (W - h)) as [Hsm|Hlg].
  - assert (nth t padded 0 = 0)%R as ->.
    { unfold padded. rewrite app_nth1 by (rewrite repeat_length; lia). apply nth_repeat. }
    match goal with |- rsum (map _ ?l) = _ => generalize l end. intros l.
    induction l as [|a l IH]; [reflexivity|]. unfold rsum in *. cbn [map fold_right]. rewrite IH. ring.
  - rewrite (rsum_perm _ _ (Permutation_map _ (residue_perm h W m t ltac:(lia) Hlg ltac:(lia)))).
    rewrite <- (map_map (fun o => (w o * w o)%R) (Rmult (nth t padded 0%R))).
    rewrite rsum_scale. unfold rsum. rewrite Hcola; [ring|]. apply Nat.mod_upper_bound. lia.
Qed.
Print Assumptions C36_latency.

(* A zero-length chunk, an announced size that the constructor accepts,
   destroys the stored overlap: inserting an empty call changes the output. *)
Theorem C36_empty_chunk_refuted :
  let pc := process_chunk 0%Z Z.add (fun _ x => x) (fun _ x => x) (fun l : list Z => l)
              (fun l => l) (fun (u : unit) s _ => (u, s)) in
  exists cf out1 out2,
    make_config [0; 1]%Z 2 2 1 = Ok cf /\
    omap snd (run (pc cf) (reset 0%Z 0%Z cf tt) [[5]; [7]]%Z) = Ok out1 /\
    omap snd (run (pc cf) (reset 0%Z 0%Z cf tt) [[5]; []; [7]]%Z) = Ok out2 /\
    concat out1 <> concat out2.
Proof.
  cbv zeta. do 3 eexists. split; [vm_compute; reflexivity|]. split; [vm_compute; reflexivity|].
  split; [vm_compute; reflexivity|]. vm_compute. discriminate.
Qed.
Print Assumptions C36_empty_chunk_refuted.

(* A hop larger than the block is accepted by the constructor but the first
   call aborts in Advance. *)
Theorem C36_large_hop_refuted :
  exists cf, make_config [1]%Z 2 2 3 = Ok cf /\
    process_chunk 0%Z Z.add (fun _ x => x) (fun _ x => x) (fun l : list Z => l)
      (fun l => l) (fun (u : unit) s _ => (u, s)) cf (reset 0%Z 0%Z cf tt) [5%Z] = CheckFail.
Proof. eexists. split; vm_compute; reflexivity. Qed.
Print Assumptions C36_large_hop_refuted.

(* A hop of 0 is accepted too; the loop of ProcessChunk then never ends: with
   any number of iterations allowed it is still running. *)
Theorem C36_zero_hop_refuted :
  exists cf, make_config [1]%Z 2 2 0 = Ok cf /\
    forall fuel out over, length out = 1 -> 2 <= length over ->
      chunk_loop 0%Z Z.add (fun _ x => x) (fun _ x => x) (fun l : list Z => l)
        (fun l => l) (fun (u : unit) s _ => (u, s)) cf fuel
        (mkProc 0 (pr_queue (reset 0%Z 0%Z cf tt) ++ [5%Z]) over tt) out = Undef.
Proof.
  eexists. split; [vm_compute; reflexivity|].
  induction fuel as [|fuel IH]; intros out over Lo Lv; [reflexivity|].
  change (pr_queue (reset 0%Z 0%Z {| cf_hop := 0; cf_block := 2; cf_max := 1; cf_delay := 1 |} tt) ++ [5%Z])
    with [0%Z; 5%Z] in *.
  cbn [chunk_loop pr_queue cf_block length]. change (2 <? 2) with false. cbv iota.
  cbn [cf_hop cf_block pr_queue pr_pos pr_over pr_cb firstn skipn length].
  change (window_and_process (fun (_ : nat) (x : Z) => x) (fun (_ : nat) (x : Z) => x)
     (fun l : list Z => l) (fun l : list Z => l) (fun (u : unit) (s : list Z) (_ : nat) => (u, s))
     {| cf_hop := 0; cf_block := 2; cf_max := 1; cf_delay := 1 |} tt [0%Z; 5%Z])
    with (Ok (tt, [0%Z; 5%Z])).
  unfold ocheck, obind, move_processed, oguard. cbn [Nat.leb fst snd length].
  rewrite Lo. cbn [Nat.min Nat.sub Nat.add Nat.leb].
  destruct (length over) as [|no] eqn:Eno; [lia|]. cbn [fst snd pr_pos].
  apply IH.
  - rewrite add_at_length by (cbn [firstn length]; lia). exact Lo.
  - rewrite app_length, firstn_length, add_at_length, repeat_length; rewrite ?Eno; cbn [slice firstn skipn length]; lia.
Qed.
Print Assumptions C36_zero_hop_refuted.

(* The callback interface (spectral_processor.h:57-70) promises that
   num_time_domain_frames is the block length; the callback is given
   block/2 + 1.  Here the callback's output is the number it is given. *)
Theorem C36_callback_frames_refuted : forall block, 1 <= block -> block <> 1 -> block <> 2 ->
  forall cf, cf_block cf = block ->
  exists n, n <> block /\
    window_and_process (fun _ x => x) (fun _ x => x) (fun l : list nat => l) (fun l => l)
      (fun (_ : nat) s n => (n, s)) cf 0 (repeat 0 block) = Ok (n, repeat 0 block).
Proof.
  intros block H1 H2 H3 cf E. exists (block / 2 + 1). split.
  - assert (block / 2 < block - 1); [|lia]. apply Nat.div_lt_upper_bound; lia.
  - unfold window_and_process. rewrite repeat_length, E, Nat.eqb_refl. cbn [ocheck].
    rewrite !(map_index_with 0). unfold window_with. do 2 f_equal. rewrite map_length, seq_length.
    apply (nth_ext _ _ 0 0); rewrite map_length, seq_length; [reflexivity|].
    intros k Hk. rewrite nth_map_seq by exact Hk. cbn [Nat.add]. now apply nth_map_seq.
Qed.
Print Assumptions C36_callback_frames_refuted.

(* Block 4, hop 2, chunks of 2 and 4 columns; the callback negates and counts. *)
Example C36_example :
  exists cf, make_config [2; 4]%Z 4 4 2 = Ok cf /\ cf_delay cf = 2 /\
    omap (fun r => (pr_cb (fst r), snd r))
      (run (process_chunk 0%Z Z.add (fun _ x => x) (fun k x => if k <? 2 then 0%Z else x)
             (fun l : list Z => l) (fun l => l) (fun (n : nat) s _ => (S n, map Z.opp s)) cf)
         (reset 0%Z 0%Z cf 0) [[1; 2]; [3; 4; 5; 6]; [7; 8]]%Z)
    = Ok (4, [[0; 0]; [-1; -2; -3; -4]; [-5; -6]]%Z).
Proof. eexists. split; [|split]; vm_compute; reflexivity. Qed.

(* The hypotheses of C36_latency hold for a constant window and hop = block. *)
Example C36_latency_example :
  exists cf, make_config [1; 2]%Z 2 2 2 = Ok cf /\ cf_delay cf = 1 /\
    forall x y z, exists p outs,
      run (process_chunk 0%R Rplus (fun k x => (1 * x)%R) (fun k x => (1 * x)%R) (fun l => l)
             (fun l => firstn 2 (l ++ repeat 0%R 2))
             (fun (_ : unit) s _ => (tt, s)) cf) (reset 0%R 0%R cf tt) [[x; y]; [z]] = Ok (p, outs) /\
      concat outs = [0%R; x; y].
Proof.
  destruct (C36_latency (list R) (fun _ => 1%R) (fun l => l) (fun l => firstn 2 (l ++ repeat 0%R 2))
    [1; 2]%Z 2 2) as (cf & E & H).
  - discriminate.
  - repeat constructor; unfold int, INT_MIN, INT_MAX; lia.
  - exists 1%Z. cbn. split; [now left|lia].
  - lia.
  - unfold int, INT_MIN, INT_MAX; lia.
  - intros [|a [|b [|]]] L; cbn in L; (discriminate || reflexivity).
  - intros so. change (Z.to_nat 2) with 2. rewrite firstn_length, app_length. cbn [repeat length]. lia.
  - intros r Hr. change (Z.to_nat 2) with 2 in *. destruct r as [|[|r]]; cbn; [lra..|lia].
  - exists cf. split; [exact E|]. vm_compute in E. injection E as <-. split; [reflexivity|].
    intros x y z. destruct (H [[x; y]; [z]]) as (p & outs & E2 & EC).
    + repeat constructor; cbn; (tauto || discriminate).
    + exists p, outs. split; [exact E2|]. rewrite EC. reflexivity.
Qed.
