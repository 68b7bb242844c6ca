(* Proofs for the spectral processor model. *)
From Verif Require Import Common CInt NumberUtilModel NumberUtilProps ListLemmas NthLemmas
  SpectrogramSpec SpectralProcessorModel SpectralProcessorSpec.
Local Open Scope nat_scope.

Lemma sp_covering_snoc {D} st (ys : list (list D)) y t :
  covering st (ys ++ [y]) t = covering st ys t ++
    (if length ys * st <=? t then
       match nth_error y (t - length ys * st) with Some v => [v] | None => [] end else []).
Proof.
  unfold covering. rewrite app_length. cbn [length].
  rewrite Nat.add_1_r, seq_S, map_app, concat_app. f_equal.
  - f_equal. apply map_ext_in. intros i Hi. apply in_seq in Hi.
    rewrite nth_error_app1 by lia. reflexivity.
  - cbn [map concat Nat.add]. rewrite nth_error_app2, Nat.sub_diag by lia. cbn [nth_error].
    now rewrite app_nil_r.
Qed.

Lemma sp_covering_late {D} F st : forall (ys : list (list D)) t,
  Forall (fun y => length y = F) ys ->
  (ys <> [] -> (length ys - 1) * st + F <= t) -> covering st ys t = [].
Proof.
  induction ys as [|y ys IH] using rev_ind; intros t HFo Ht; [reflexivity|].
  rewrite sp_covering_snoc. apply Forall_app in HFo. destruct HFo as [H1 H2].
  apply Forall_inv in H2.
  assert (length ys * st + F <= t) as Hle.
  { specialize (Ht ltac:(destruct ys; discriminate)). rewrite app_length in Ht. cbn [length] in Ht.
    replace (length ys + 1 - 1) with (length ys) in Ht by lia. exact Ht. }
  rewrite IH; [|exact H1|].
  - cbn [app]. destruct (Nat.leb_spec (length ys * st) t) as [H|H]; [|reflexivity].
    now rewrite (proj2 (nth_error_None y (t - length ys * st))) by lia.
  - intros _. assert ((length ys - 1) * st <= length ys * st) by (apply Nat.mul_le_mono_r; lia). lia.
Qed.

Lemma add_at_length {A} (add : A -> A -> A) start b l : start + length b <= length l ->
  length (add_at add start b l) = length l.
Proof.
  intros H. unfold add_at.
  assert (length (slice start (length b) l) = length b) as Ls
    by (unfold slice; rewrite firstn_length, skipn_length; lia).
  rewrite length_splice; [reflexivity|]. rewrite map_length, combine_length, Ls. lia.
Qed.

Section Lists.
Context {A : Type} (zero : A).

(* The shifting loop, after [i] iterations. *)
Lemma shift_loop_nth sh old : 1 <= sh ->
  forall n i l, i + n + sh = length old -> length l = length old ->
  (forall j, j < length old -> nth j l zero =
     if j <? i then nth (j + sh) old zero
     else if (sh <=? j) && (j <? i + sh) then zero else nth j old zero) ->
  length (shift_loop zero n i sh l) = length old /\
  forall j, j < length old -> nth j (shift_loop zero n i sh l) zero =
     if j <? i + n then nth (j + sh) old zero
     else if (sh <=? j) && (j <? i + n + sh) then zero else nth j old zero.
Proof.
  intros Hsh. induction n as [|n IH]; intros i l Hn Hl HI.
  - cbn [shift_loop]. rewrite Nat.add_0_r. split; [exact Hl|exact HI].
  - cbn [shift_loop]. cbv zeta.
    set (l1 := splice i [nth (i + sh) l zero] l).
    assert (length l1 = length old) as Hl1 by (unfold l1; rewrite length_splice; cbn [length]; lia).
    set (l2 := splice (i + sh) [zero] l1).
    assert (length l2 = length old) as Hl2 by (unfold l2; rewrite length_splice; cbn [length]; lia).
    destruct (IH (S i) l2 ltac:(lia) Hl2) as [L H].
    + intros j Hj. unfold l2.
      destruct (Nat.eq_dec j (i + sh)) as [->|Hne].
      { rewrite nth_splice_same by lia.
        destruct (Nat.ltb_spec (i + sh) (S i)); [lia|].
        destruct (Nat.leb_spec sh (i + sh)); [|lia].
        destruct (Nat.ltb_spec (i + sh) (S i + sh)); [|lia]. reflexivity. }
      rewrite nth_splice_other by lia. unfold l1.
      destruct (Nat.eq_dec j i) as [->|Hne2].
      { rewrite nth_splice_same by lia. destruct (Nat.ltb_spec i (S i)); [|lia].
        rewrite HI by lia. destruct (Nat.ltb_spec (i + sh) i); [lia|].
        destruct (Nat.leb_spec sh (i + sh)); [|lia].
        destruct (Nat.ltb_spec (i + sh) (i + sh)); [lia|]. reflexivity. }
      rewrite nth_splice_other by lia. rewrite HI by lia.
      destruct (Nat.ltb_spec j i), (Nat.ltb_spec j (S i)); try lia; [reflexivity|].
      destruct (Nat.leb_spec sh j); [|reflexivity]. cbn [andb].
      destruct (Nat.ltb_spec j (i + sh)), (Nat.ltb_spec j (S i + sh)); try lia; reflexivity.
    + split; [exact L|]. intros j Hj. rewrite H by exact Hj.
      replace (S i + n) with (i + S n) by lia. reflexivity.
Qed.

Lemma shift_ok sh blk old : 1 <= sh -> sh + blk <= length old ->
  (forall j, blk <= j -> nth j old zero = zero) ->
  let l := shift_loop zero (length old - sh) 0 sh old in
  length l = length old /\ forall j, j < length old -> nth j l zero = nth (j + sh) old zero.
Proof.
  intros Hsh Hlen Hz. cbv zeta.
  destruct (shift_loop_nth sh old Hsh (length old - sh) 0 old ltac:(lia) eq_refl) as [L H].
  - intros j Hj. destruct (Nat.ltb_spec j 0); [lia|].
    destruct (Nat.leb_spec sh j); [|reflexivity]. cbn [andb].
    destruct (Nat.ltb_spec j (0 + sh)); [lia|reflexivity].
  - split; [exact L|]. intros j Hj. rewrite H by exact Hj. cbn [Nat.add].
    destruct (Nat.ltb_spec j (length old - sh)); [reflexivity|].
    rewrite (Hz (j + sh)) by lia.
    destruct ((sh <=? j) && (j <? length old - sh + sh)); [reflexivity|]. apply Hz. lia.
Qed.

End Lists.

Lemma add_at_nth {A} (zero : A) (add : A -> A -> A) start b l j : start + length b <= length l -> j < length l ->
  nth j (add_at add start b l) zero =
  if (start <=? j) && (j <? start + length b)
  then add (nth j l zero) (nth (j - start) b zero) else nth j l zero.
Proof.
  intros H Hj. unfold add_at.
  assert (length (slice start (length b) l) = length b) as Ls
    by (unfold slice; rewrite firstn_length, skipn_length; lia).
  set (mid := map _ _).
  assert (length mid = length b) as Lm by (unfold mid; rewrite map_length, combine_length, Ls; lia).
  unfold splice.
  destruct (Nat.leb_spec start j) as [H1|H1]; cbn [andb].
  - rewrite app_nth2 by (rewrite firstn_length; lia).
    rewrite firstn_length, Nat.min_l by lia.
    destruct (Nat.ltb_spec j (start + length b)) as [H2|H2].
    + rewrite app_nth1 by lia. unfold mid.
      rewrite (nth_indep _ zero ((fun p => add (fst p) (snd p)) (zero, zero))) by (fold mid; lia).
      rewrite (map_nth (fun p => add (fst p) (snd p))), combine_nth by exact Ls.
      cbn [fst snd]. f_equal. unfold slice. rewrite nth_firstn by lia. rewrite nth_skipn. f_equal. lia.
    + rewrite app_nth2 by lia. rewrite nth_skipn. f_equal. lia.
  - rewrite app_nth1 by (rewrite firstn_length; lia). now rewrite nth_firstn by lia.
Qed.

Lemma nth_slice {A} (zero : A) start n l k : k < n -> nth k (slice start n l) zero = nth (start + k) l zero.
Proof. intros H. unfold slice. rewrite nth_firstn by exact H. apply nth_skipn. Qed.

Lemma map_index_with {A B} (zero : A) (f : nat -> A -> B) l : map_index f l = window_with zero f l.
Proof.
  unfold map_index, window_with.
  apply (nth_error_ext). intros i. rewrite !nth_error_map.
  destruct (Nat.lt_ge_cases i (length l)) as [H|H].
  - rewrite nth_error_seq. destruct (Nat.ltb_spec i (length l)); [|lia]. cbn [option_map Nat.add].
    rewrite (nth_error_nth' _ (0, zero)) by (rewrite combine_length, seq_length; lia).
    rewrite combine_nth by apply seq_length. rewrite seq_nth by lia. reflexivity.
  - rewrite !(proj2 (nth_error_None _ _)); [reflexivity| |].
    + rewrite seq_length. exact H.
    + rewrite combine_length, seq_length. lia.
Qed.

Lemma process_all_app {CB A B} (f : CB -> A -> CB * B) l1 : forall cb l2,
  process_all f cb (l1 ++ l2) =
  (fst (process_all f (fst (process_all f cb l1)) l2),
   snd (process_all f cb l1) ++ snd (process_all f (fst (process_all f cb l1)) l2)).
Proof.
  induction l1 as [|x l1 IH]; intros cb l2; cbn [app process_all fst snd].
  - now destruct (process_all f cb l2).
  - now rewrite IH.
Qed.

Lemma process_all_length {CB A B} (f : CB -> A -> CB * B) l : forall cb,
  length (snd (process_all f cb l)) = length l.
Proof. induction l as [|x l IH]; intros cb; cbn; [reflexivity|now rewrite IH]. Qed.

Lemma blocks_before_bounds hop N : 1 <= hop -> N <= blocks_before hop N * hop /\
  (blocks_before hop N <> 0 -> (blocks_before hop N - 1) * hop < N).
Proof.
  intros H1. unfold blocks_before.
  pose proof (Nat.div_mod (N + (hop - 1)) hop ltac:(lia)) as E.
  pose proof (Nat.mod_upper_bound (N + (hop - 1)) hop ltac:(lia)) as Hm.
  set (q := (N + (hop - 1)) / hop) in *. set (r := (N + (hop - 1)) mod hop) in *.
  split; [nia|]. intros Hq. destruct q as [|q]; [lia|]. replace (S q - 1) with q by lia. nia.
Qed.

Section Proc.
Context {TI TO SI SO CB : Type} (zeroI : TI) (zero : TO) (add : TO -> TO -> TO).
Variables (winI : nat -> TI -> TI) (winO : nat -> TO -> TO)
          (fwd : list TI -> SI) (bwd : SO -> list TO)
          (callback : CB -> SI -> nat -> CB * SO).
Variables (hop block maxc D : nat).
Hypothesis Hhop : 1 <= hop <= block.
Hypothesis HD : 1 <= D.
Hypothesis HDhop : Nat.divide D hop.
Notation delay := (block - D).
Notation cf := (mkConfig hop block maxc delay).
Hypothesis Hbwd : forall so, length (bwd so) = block.

(* What happens to one block. *)
Definition pblock (cb : CB) (b : list TI) : CB * list TO :=
  let r := callback cb (fwd (window_with zeroI winI b)) (block / 2 + 1) in
  (fst r, window_with zero winO (bwd (snd r))).

Lemma pblock_length cb b : length (snd (pblock cb b)) = block.
Proof. unfold pblock, window_with. cbn [snd]. rewrite map_length, seq_length. apply Hbwd. Qed.

Definition frames cb0 xs n := snd (process_all pblock cb0 (input_blocks zeroI delay hop block n xs)).
Definition cbst cb0 xs n := fst (process_all pblock cb0 (input_blocks zeroI delay hop block n xs)).
Notation OA := (overlap_add zero add hop).

Lemma D_le_hop : D <= hop.
Proof. apply Nat.divide_pos_le; [lia|exact HDhop]. Qed.

Lemma frames_length cb0 xs n : length (frames cb0 xs n) = n.
Proof. unfold frames, input_blocks. now rewrite process_all_length, map_length, seq_length. Qed.

Lemma frames_S cb0 xs n : frames cb0 xs (S n) = frames cb0 xs n ++
  [snd (pblock (cbst cb0 xs n) (slice (n * hop) block (repeat zeroI delay ++ xs)))].
Proof.
  unfold frames, cbst, input_blocks. rewrite seq_S, map_app, process_all_app. reflexivity.
Qed.

Lemma cbst_S cb0 xs n : cbst cb0 xs (S n) =
  fst (pblock (cbst cb0 xs n) (slice (n * hop) block (repeat zeroI delay ++ xs))).
Proof.
  unfold frames, cbst, input_blocks. rewrite seq_S, map_app, process_all_app. reflexivity.
Qed.

Lemma frames_Forall cb0 xs n : Forall (fun y => length y = block) (frames cb0 xs n).
Proof.
  induction n as [|n IH]; [constructor|]. rewrite frames_S. apply Forall_app. split; [exact IH|].
  constructor; [apply pblock_length|constructor].
Qed.

Lemma OA_S cb0 xs n t : OA (frames cb0 xs (S n)) t =
  if (n * hop <=? t) && (t <? n * hop + block)
  then add (OA (frames cb0 xs n) t)
           (nth (t - n * hop) (snd (pblock (cbst cb0 xs n)
              (slice (n * hop) block (repeat zeroI delay ++ xs)))) zero)
  else OA (frames cb0 xs n) t.
Proof.
  rewrite frames_S. unfold overlap_add. rewrite sp_covering_snoc, frames_length, fold_left_app.
  destruct (Nat.leb_spec (n * hop) t) as [H|H]; cbn [andb]; [|reflexivity].
  destruct (Nat.ltb_spec t (n * hop + block)) as [H2|H2].
  - rewrite (nth_error_nth' _ zero) by (rewrite pblock_length; lia). reflexivity.
  - rewrite (proj2 (nth_error_None _ _)) by (rewrite pblock_length; lia). reflexivity.
Qed.

Lemma OA_late cb0 xs n t : (n <> 0 -> (n - 1) * hop + block <= t) -> OA (frames cb0 xs n) t = zero.
Proof.
  intros H. unfold overlap_add. rewrite (sp_covering_late block); [reflexivity|apply frames_Forall|].
  rewrite frames_length. intros Hne. apply H. intros ->. apply Hne.
  destruct (frames cb0 xs 0) eqn:E; [reflexivity|]. pose proof (frames_length cb0 xs 0). rewrite E in H0. discriminate.
Qed.

(* Blocks within the known input do not depend on later input. *)
Lemma frames_prefix (xs ys : list TI) n : (n <> 0 -> (n - 1) * hop + block <= delay + length xs) ->
  input_blocks zeroI delay hop block n (xs ++ ys) = input_blocks zeroI delay hop block n xs.
Proof.
  intros H. unfold input_blocks. apply map_ext_in. intros i Hi. apply in_seq in Hi.
  rewrite app_assoc. unfold slice. rewrite skipn_app, firstn_app.
  rewrite skipn_length, app_length, repeat_length.
  assert (i * hop <= (n - 1) * hop) by (apply Nat.mul_le_mono_r; lia).
  specialize (H ltac:(lia)).
  replace (block - (delay + length xs - i * hop)) with 0 by lia.
  cbn [firstn]. now rewrite app_nil_r.
Qed.

Definition linv cb0 (xs : list TI) (N0 c n : nat) (p : @proc TI TO CB) (out : list TO) : Prop :=
  length xs = N0 + c /\ length out = c /\
  N0 <= n * hop /\ pr_pos p = n * hop - N0 /\
  (n <> 0 -> (n - 1) * hop < N0 + c) /\
  (n <> 0 -> (n - 1) * hop + block <= delay + length xs) /\
  pr_queue p = skipn (n * hop) (repeat zeroI delay ++ xs) /\
  pr_cb p = cbst cb0 xs n /\
  length (pr_over p) = maxc + block /\
  (forall j, j < c -> nth j out zero = OA (frames cb0 xs n) (N0 + j)) /\
  (forall j, j < maxc + block -> nth j (pr_over p) zero = OA (frames cb0 xs n) (N0 + c + j)).

Notation chunk_loop := (chunk_loop zero add winI winO fwd bwd callback cf).
Notation process_chunk := (process_chunk zero add winI winO fwd bwd callback cf).

Lemma wap cb b : length b = block ->
  window_and_process winI winO fwd bwd callback cf cb b = Ok (pblock cb b).
Proof.
  intros H. unfold window_and_process. cbn [cf_block]. rewrite H, Nat.eqb_refl. cbn [ocheck].
  rewrite (map_index_with zeroI winI).
  unfold pblock. destruct (callback cb (fwd (window_with zeroI winI b)) (block / 2 + 1)) as [cb' so].
  cbn [fst snd]. now rewrite (map_index_with zero winO).
Qed.

Lemma loop_step_ok cb0 xs N0 c n p out : linv cb0 xs N0 c n p out ->
  n * hop + block <= delay + length xs -> n * hop < N0 + c ->
  exists p' out', linv cb0 xs N0 c (S n) p' out' /\
    (length (pr_queue p) <? block = false) /\
    window_and_process winI winO fwd bwd callback cf (pr_cb p) (firstn block (pr_queue p))
      = Ok (pblock (cbst cb0 xs n) (slice (n * hop) block (repeat zeroI delay ++ xs))) /\
    (hop <=? length (pr_queue p) = true) /\
    move_processed zero add (snd (pblock (cbst cb0 xs n) (slice (n * hop) block (repeat zeroI delay ++ xs))))
      (pr_pos p) out (pr_over p) = Ok (out', pr_over p') /\
    p' = mkProc (pr_pos p + hop) (skipn hop (pr_queue p)) (pr_over p')
           (fst (pblock (cbst cb0 xs n) (slice (n * hop) block (repeat zeroI delay ++ xs)))).
Proof.
  intros (Lx & Lo & HN & Ep & Hlt & Hav & Eq & Ec & Lov & HO & HV) Hblk Hn.
  set (bb := slice (n * hop) block (repeat zeroI delay ++ xs)).
  set (pb := pblock (cbst cb0 xs n) bb).
  assert (length (snd pb) = block) as Lpb by apply pblock_length.
  assert (length (pr_queue p) = delay + length xs - n * hop) as Lq.
  { rewrite Eq, skipn_length, app_length, repeat_length. lia. }
  set (f := Nat.min block (c - pr_pos p)). set (e := block - f).
  set (over1 := add_at add 0 (slice f e (snd pb)) (pr_over p)).
  set (over' := firstn e over1 ++ repeat zero (length (pr_over p) - e)).
  set (out' := add_at add (pr_pos p) (firstn f (snd pb)) out).
  assert (length (firstn f (snd pb)) = f) as Lf by (rewrite firstn_length; lia).
  assert (length (slice f e (snd pb)) = e) as Le.
  { unfold slice. rewrite firstn_length, skipn_length. lia. }
  assert (pr_pos p < c) as Hpos by lia.
  assert (pr_pos p + f <= c) as Hpf by lia.
  assert (length over1 = maxc + block) as L1.
  { unfold over1. rewrite add_at_length by (rewrite Le, Lov; lia). exact Lov. }
  exists (mkProc (pr_pos p + hop) (skipn hop (pr_queue p)) over' (fst pb)), out'.
  split; [|split; [|split; [|split; [|split]]]].
  - unfold linv. cbn [pr_pos pr_queue pr_cb pr_over].
    split; [exact Lx|]. split; [unfold out'; rewrite add_at_length by lia; exact Lo|].
    split; [cbn [Nat.mul]; lia|]. split; [cbn [Nat.mul]; lia|].
    split; [intros _; cbn [Nat.sub]; rewrite Nat.sub_0_r; lia|].
    split; [intros _; cbn [Nat.sub]; rewrite Nat.sub_0_r; lia|].
    split; [rewrite Eq, skipn_skipn'; f_equal; cbn [Nat.mul]; lia|].
    split; [unfold pb, bb; now rewrite cbst_S|].
    split. { unfold over'. rewrite app_length, firstn_length, repeat_length. lia. }
    split.
    + intros j Hj. unfold out'. rewrite add_at_nth by lia. rewrite Lf, OA_S. fold bb pb.
      destruct (Nat.leb_spec (pr_pos p) j) as [H1|H1];
      destruct (Nat.leb_spec (n * hop) (N0 + j)) as [H2|H2]; try lia; cbn [andb].
      * destruct (Nat.ltb_spec j (pr_pos p + f)) as [H3|H3];
        destruct (Nat.ltb_spec (N0 + j) (n * hop + block)) as [H4|H4]; try lia.
        -- rewrite HO by lia. f_equal. rewrite nth_firstn by lia. f_equal. lia.
        -- apply HO. lia.
      * apply HO. lia.
    + intros j Hj. unfold over'. destruct (Nat.lt_ge_cases j e) as [H1|H1].
      * rewrite app_nth1 by (rewrite firstn_length; lia). rewrite nth_firstn by lia.
        unfold over1. rewrite add_at_nth by lia. rewrite Le. cbn [Nat.leb andb Nat.add].
        destruct (Nat.ltb_spec j e); [|lia]. rewrite OA_S. fold bb pb.
        destruct (Nat.leb_spec (n * hop) (N0 + c + j)) as [_|]; [|lia]. cbn [andb].
        destruct (Nat.ltb_spec (N0 + c + j) (n * hop + block)) as [_|]; [|lia].
        rewrite HV by lia. f_equal. rewrite Nat.sub_0_r. rewrite nth_slice by lia. f_equal. lia.
      * rewrite app_nth2 by (rewrite firstn_length; lia).
        rewrite nth_repeat. symmetry. apply OA_late. intros _. cbn [Nat.sub]. rewrite Nat.sub_0_r. lia.
  - destruct (Nat.ltb_spec (length (pr_queue p)) block); [lia|reflexivity].
  - rewrite Ec. assert (firstn block (pr_queue p) = bb) as -> by (rewrite Eq; reflexivity).
    apply wap. unfold bb, slice. rewrite firstn_length, skipn_length, app_length, repeat_length. lia.
  - apply Nat.leb_le. lia.
  - unfold move_processed. rewrite Lpb, Lo. fold f e. cbn [pr_over].
    unfold oguard. destruct (Nat.leb_spec (pr_pos p + f) c); [|lia].
    destruct (Nat.leb_spec e (length (pr_over p))); [|lia]. reflexivity.
  - reflexivity.
Qed.

Lemma loop_ok cb0 xs N0 c : Nat.divide D (N0 + c) -> 
  forall fuel n p out, linv cb0 xs N0 c n p out -> N0 + c - n * hop <= fuel ->
  exists n' p' out', chunk_loop fuel p out = Ok (p', out') /\ linv cb0 xs N0 c n' p' out' /\
    N0 + c <= n' * hop.
Proof.
  intros Hdv. pose proof D_le_hop as HDh.
  induction fuel as [|fuel IH]; intros n p out HI Hf.
  - assert (length (pr_queue p) <? block = true) as Hq.
    { destruct HI as (Lx & _ & HN & _ & _ & _ & Eq & _).
      apply Nat.ltb_lt. rewrite Eq, skipn_length, app_length, repeat_length. lia. }
    cbn [SpectralProcessorModel.chunk_loop]. cbn [cf_block]. rewrite Hq.
    exists n, p, out. split; [reflexivity|]. split; [exact HI|lia].
  - destruct (Nat.lt_ge_cases (n * hop) (N0 + c)) as [Hn|Hn].
    + assert (n * hop + D <= N0 + c) as HnD.
      { destruct HDhop as [h Eh]. destruct Hdv as [m Em]. 
        assert (n * hop = (n * h) * D) as E1 by (rewrite Eh; lia).
        rewrite E1, Em in *. set (a := n * h) in *. assert (a < m) by nia. nia. }
      pose proof HI as (Lx & Lo & _).
      destruct (loop_step_ok cb0 xs N0 c n p out HI ltac:(lia) Hn)
        as (p' & out' & HI' & Eq & Ew & Eh & Em & Ep').
      cbn [SpectralProcessorModel.chunk_loop]. cbn [cf_block cf_hop]. rewrite Eq. cbv zeta.
      rewrite Eh. cbn [ocheck]. rewrite Ew. cbn [obind]. rewrite Em. cbn [obind fst snd].
      rewrite <- Ep'.
      pose proof HI' as (_ & Lo' & HNn & Epos & _).
      destruct (Nat.leb_spec (length out) (pr_pos p')) as [Hb|Hb].
      * exists (S n), p', out'. split; [reflexivity|]. split; [exact HI'|]. lia.
      * destruct (IH (S n) p' out' HI' ltac:(cbn [Nat.mul]; lia)) as (n' & p2 & o2 & E & HI2 & Hn2).
        exists n', p2, o2. split; [exact E|]. split; [exact HI2|exact Hn2].
    + assert (length (pr_queue p) <? block = true) as Hq.
      { destruct HI as (Lx & _ & HN & _ & _ & _ & Eq & _).
        apply Nat.ltb_lt. rewrite Eq, skipn_length, app_length, repeat_length. lia. }
      cbn [SpectralProcessorModel.chunk_loop]. cbn [cf_block]. rewrite Hq.
      exists n, p, out. split; [reflexivity|]. split; [exact HI|lia].
Qed.

(* Between calls. *)
Definition pinv cb0 (xs : list TI) (p : @proc TI TO CB) : Prop :=
  exists n, linv cb0 xs (length xs) 0 n p [] .

Lemma count_unique N n : 1 <= hop -> N <= n * hop -> (n <> 0 -> (n - 1) * hop < N) ->
  n = blocks_before hop N.
Proof.
  intros H1 H2 H3. unfold blocks_before. destruct n as [|n].
  - replace N with 0 by lia. rewrite Nat.div_small; lia.
  - specialize (H3 ltac:(lia)). replace (S n - 1) with n in H3 by lia.
    apply (Nat.div_unique _ _ _ (N + (hop - 1) - S n * hop)); nia.
Qed.

Lemma reset_pinv cb0 : pinv cb0 [] (reset zeroI zero cf cb0).
Proof.
  exists 0. unfold linv, reset. cbn [pr_pos pr_queue pr_cb pr_over length Nat.mul Nat.add].
  split; [reflexivity|]. split; [reflexivity|]. split; [lia|]. split; [reflexivity|].
  split; [congruence|]. split; [congruence|]. split; [now rewrite app_nil_r|].
  split; [reflexivity|]. split; [now rewrite repeat_length|]. split; [intros; lia|].
  intros j Hj. rewrite nth_repeat. reflexivity.
Qed.

Lemma chunk_ok cb0 xs p input : pinv cb0 xs p ->
  1 <= length input <= maxc -> Nat.divide D (length xs) -> Nat.divide D (length input) ->
  exists p' out, process_chunk p input = Ok (p', out) /\ pinv cb0 (xs ++ input) p' /\
    out = map (fun j => OA (frames cb0 (xs ++ input) (blocks_before hop (length (xs ++ input))))
                           (length xs + j)) (seq 0 (length input)).
Proof.
  intros (n & Lx0 & _ & HN & Ep & Hlt & Hav & Eq & Ec & Lov & _ & HV) Hc Hdx Hdi.
  set (c := length input) in *. set (N0 := length xs) in *. pose proof D_le_hop as HDh.
  rewrite Nat.add_0_r in *.
  unfold SpectralProcessorModel.process_chunk. cbn [cf_max cf_block]. fold c.
  unfold ocheck at 1. destruct (Nat.leb_spec c maxc) as [_|]; [|lia].
  unfold move_overflow. rewrite Lov, Nat.min_r by lia.
  replace (c - c) with 0 by lia. cbn [repeat]. rewrite app_nil_r.
  assert (Hz : forall j, block <= j -> nth j (pr_over p) zero = zero).
  { intros j Hj. destruct (Nat.lt_ge_cases j (maxc + block)) as [H|H].
    - rewrite HV by exact H. apply OA_late. intros Hne. specialize (Hlt Hne). lia.
    - apply nth_overflow. lia. }
  destruct (shift_ok zero c block (pr_over p) ltac:(lia) ltac:(lia) Hz) as [Lsh Hsh].
  rewrite Lov in Lsh, Hsh.
  set (over := shift_loop zero (maxc + block - c) 0 c (pr_over p)) in *.
  assert (length (pr_queue p) = delay + N0 - n * hop) as Lq
    by (rewrite Eq, skipn_length, app_length, repeat_length; unfold N0; lia).
  rewrite app_length. fold c. unfold oguard.
  destruct (Nat.leb_spec (length (pr_queue p) + c) (maxc + block)) as [_|]; [|lia].
  assert (Epre : input_blocks zeroI delay hop block n (xs ++ input) = input_blocks zeroI delay hop block n xs)
    by (apply frames_prefix; exact Hav).
  assert (HI : linv cb0 (xs ++ input) N0 c n (mkProc (pr_pos p) (pr_queue p ++ input) over (pr_cb p))
                (firstn c (pr_over p))).
  { unfold linv. cbn [pr_pos pr_queue pr_cb pr_over].
    split; [apply app_length|]. split; [rewrite firstn_length; lia|]. split; [exact HN|].
    split; [exact Ep|]. split; [intros Hne; specialize (Hlt Hne); lia|].
    split; [intros Hne; specialize (Hav Hne); rewrite app_length; fold N0; lia|].
    split.
    { rewrite Eq, app_assoc, (skipn_app _ (repeat zeroI delay ++ xs) input).
      replace (n * hop - length (repeat zeroI delay ++ xs)) with 0; [reflexivity|].
      rewrite app_length, repeat_length. fold N0. 
      destruct n as [|n']; [lia|]. specialize (Hav ltac:(lia)).
      replace (S n' - 1) with n' in Hav by lia. cbn [Nat.mul]. fold N0 in Hav. lia. }
    split; [unfold cbst; rewrite Epre; exact Ec|]. split; [exact Lsh|].
    unfold frames. rewrite Epre. fold (frames cb0 xs n).
    split.
    - intros j Hj. rewrite nth_firstn by exact Hj. apply HV. lia.
    - intros j Hj. rewrite Hsh by exact Hj.
      destruct (Nat.lt_ge_cases (j + c) (maxc + block)) as [H|H].
      + rewrite HV by exact H. f_equal. lia.
      + rewrite nth_overflow by lia. symmetry. apply OA_late. intros Hne. specialize (Hlt Hne). lia. }
  destruct (loop_ok cb0 (xs ++ input) N0 c) with (fuel := c) (n := n)
    (p := mkProc (pr_pos p) (pr_queue p ++ input) over (pr_cb p)) (out := firstn c (pr_over p))
    as (n' & p' & out' & E & HI' & Hn').
  { apply Nat.divide_add_r; assumption. }
  { exact HI. }
  { lia. }
  rewrite E. cbn [obind fst snd].
  destruct HI' as (Lx' & Lo' & HN' & Ep' & Hlt' & Hav' & Eq' & Ec' & Lov' & HO' & HV').
  unfold ocheck. destruct (Nat.leb_spec c (pr_pos p')) as [_|]; [|lia].
  eexists. exists out'. split; [reflexivity|].
  assert (n' = blocks_before hop (length (xs ++ input))) as En.
  { apply count_unique; [lia|lia|]. intros Hne. rewrite Lx'. apply Hlt'. exact Hne. }
  split.
  - exists n'. unfold linv. cbn [pr_pos pr_queue pr_cb pr_over length].
    rewrite Lx', Nat.add_0_r. split; [reflexivity|]. split; [reflexivity|]. split; [exact Hn'|].
    split; [lia|]. split; [exact Hlt'|]. split; [rewrite <- Lx'; exact Hav'|].
    split; [exact Eq'|]. split; [exact Ec'|]. split; [exact Lov'|]. split; [intros; lia|]. exact HV'.
  - rewrite <- En. apply (nth_ext _ _ zero zero); [now rewrite map_length, seq_length, Lo'|].
    intros j Hj. rewrite Lo' in Hj. rewrite nth_map_seq by exact Hj. apply HO'. exact Hj.
Qed.

Lemma OA_more cb0 xs n n' t : n <= n' -> t < n * hop ->
  OA (frames cb0 xs n') t = OA (frames cb0 xs n) t.
Proof.
  intros H Ht. induction H as [|m Hm IH]; [reflexivity|]. rewrite OA_S, IH.
  assert (n * hop <= m * hop) by (apply Nat.mul_le_mono_r; exact Hm).
  destruct (Nat.leb_spec (m * hop) t); [lia|reflexivity].
Qed.

Lemma blocks_before_le a b : 1 <= hop -> a <= b -> blocks_before hop a <= blocks_before hop b.
Proof. intros H1 H. unfold blocks_before. apply Nat.div_le_mono; lia. Qed.


Lemma OA_extend cb0 xs ys t : t < length xs -> Nat.divide D (length xs) ->
  OA (frames cb0 (xs ++ ys) (blocks_before hop (length (xs ++ ys)))) t
  = OA (frames cb0 xs (blocks_before hop (length xs))) t.
Proof.
  intros Ht Hdv. destruct (blocks_before_bounds hop (length xs) ltac:(lia)) as [H1 H2].
  pose proof D_le_hop as HDh.
  rewrite (OA_more cb0 (xs ++ ys) (blocks_before hop (length xs))).
  - unfold frames. rewrite frames_prefix; [reflexivity|]. intros Hne. specialize (H2 Hne).
    set (m := blocks_before hop (length xs) - 1) in *.
    assert (m * hop + D <= length xs); [|lia].
    destruct HDhop as [h Eh]. destruct Hdv as [k Ek]. rewrite Ek in *.
    assert (m * hop = (m * h) * D) as E1 by (rewrite Eh; lia).
    rewrite E1 in *. set (a := m * h) in *. assert (a < k) by nia. nia.
  - apply blocks_before_le; [lia|]. rewrite app_length. lia.
  - lia.
Qed.

Lemma run_ok cb0 : forall chunks xs p, pinv cb0 xs p -> Nat.divide D (length xs) ->
  Forall (fun c => 1 <= length c <= maxc /\ Nat.divide D (length c)) chunks ->
  exists p' outs, run process_chunk p chunks = Ok (p', outs) /\
    pinv cb0 (xs ++ concat chunks) p' /\
    map (@length _) outs = map (@length _) chunks /\
    concat outs = map (fun j => OA (frames cb0 (xs ++ concat chunks)
        (blocks_before hop (length (xs ++ concat chunks)))) (length xs + j))
      (seq 0 (length (concat chunks))).
Proof.
  induction chunks as [|c cs IH]; intros xs p Hi Hdv HFo.
  - exists p, []. cbn. rewrite app_nil_r. split; [reflexivity|]. split; [exact Hi|]. now split.
  - pose proof (Forall_inv HFo) as [Hc Hdc]. apply Forall_inv_tail in HFo.
    destruct (chunk_ok cb0 xs p c Hi Hc Hdv Hdc) as (p1 & o1 & E1 & Hi1 & Eo1).
    assert (Nat.divide D (length (xs ++ c))) as Hd1
      by (rewrite app_length; apply Nat.divide_add_r; assumption).
    destruct (IH (xs ++ c) p1 Hi1 Hd1 HFo) as (p2 & outs & E2 & Hi2 & EL & Eo2).
    exists p2, (o1 :: outs). split; [|split; [|split]].
    + cbn [run]. rewrite E1. cbn [obind fst snd]. rewrite E2. reflexivity.
    + cbn [concat]. rewrite app_assoc. exact Hi2.
    + cbn [map]. rewrite EL. f_equal. rewrite Eo1, map_length, seq_length. reflexivity.
    + cbn [concat]. rewrite Eo2, Eo1. rewrite app_assoc, (app_length c).
      rewrite seq_app, map_app. f_equal.
      * apply map_ext_in. intros j Hj. apply in_seq in Hj. symmetry. apply OA_extend; [|exact Hd1].
        rewrite app_length. lia.
      * apply (nth_ext _ _ zero zero); rewrite !map_length, !seq_length; [reflexivity|].
        intros j Hj. rewrite !nth_map_seq by exact Hj. f_equal. rewrite app_length. lia.
Qed.
End Proc.
