From Verif Require Import Common ListLemmas NthLemmas Mealy RealUtil BiquadModel CascadeModel PoleZeroModel LadderModel LadderSpec FixedDelayLineModel FixedDelayLineProofs EnvelopeModel EnvelopeSpec EnvelopeProofs DrcCurveModel DrcModel DrcSpec DrcProofs DrcProps
  MultiCrossModel MultiCrossSpec MultiCrossProofs MultiCrossProofs3 MultiCrossProofs4 MultiCrossProofs5 MultiCompModel MultiCompSpec MultiCompProofs.
Local Open Scope R_scope.

Definition mixed (x : list (list R)) (outs : list (list (list R))) : list (list R) := fold_left add_frames outs (map (map (fun _ => 0)) x).
Fixpoint mix_all (bs : list (list (list R))) (res : list (list (list (list R)))) : list (list (list R)) :=
  match bs, res with b :: bs', r :: res' => mixed b r :: mix_all bs' res' | _, _ => [] end.

(* ---------- one controller ---------- *)
Lemma inputs_twice (l : list (list (list R))) : inputs_of (map (fun x => (x, x)) l) = concat l /\ sidechains_of (map (fun x => (x, x)) l) = concat l.
Proof. unfold inputs_of, sidechains_of. rewrite !map_map. cbn [fst snd]. now rewrite map_id. Qed.
Lemma process_band k (ys : list (list (list (list R)))) : map (fun v => Process (nth k v []) (nth k v [])) ys = process_all (map (fun x => (x, x)) (map (fun v => nth k v []) ys)).
Proof. unfold process_all. rewrite !map_map. reflexivity. Qed.
Lemma valid_twice nch m l : Forall (valid_frames nch m) l -> Forall (valid_block nch m) (map (fun x => (x, x)) l).
Proof. induction 1 as [|x l [H1 H2] _ IH]; cbn [map]; constructor; [|exact IH]. unfold valid_block. cbn [fst snd]. auto. Qed.
Lemma Forall2_of_nth {A B} (P : A -> B -> Prop) da db : forall l l', length l = length l' -> (forall j, (j < length l)%nat -> P (nth j l da) (nth j l' db)) -> Forall2 P l l'.
Proof. induction l as [|a l IH]; intros [|b l'] L H; cbn [length] in L; try lia; constructor; [exact (H 0%nat ltac:(cbn; lia))|]. apply IH; [lia|]. intros j Hj. exact (H (S j) ltac:(cbn; lia)). Qed.

Section Runs.
Variable eps : R.
Variables (smoothing : coeffs R) (samples_max : nat).
Variable junk : nat -> nat -> list R.
Notation mb_step := (mb_step eps smoothing samples_max junk).
Notation mb_process := (mb_process eps junk).

Lemma parts_same c s : mb_splitter c = Some s -> with_parts c s (mb_drc c) = c.
Proof. destruct c. cbn. intros ->. reflexivity. Qed.
Lemma parts_twice c s ds s' ds' : with_parts (with_parts c s ds) s' ds' = with_parts c s' ds'.
Proof. reflexivity. Qed.
Lemma run_parts : forall bs c s ds s' ys ds' res, run (split_block eps) s bs = Ok (s', ys) -> run (process_drcs junk 0) ds ys = Ok (ds', res) ->
  run mb_step (with_parts c s ds) (map MProcess bs) = Ok (with_parts c s' ds', mix_all bs res).
Proof.
  induction bs as [|b bs IH]; intros c s ds s' ys ds' res E1 E2; cbn [run map] in *; [injection E1 as <- <-; cbn [run] in E2; injection E2 as <- <-; reflexivity|].
  apply obind_inv in E1 as ([s1 y] & E3 & E1). apply obind_inv in E1 as ([s2 ys2] & E4 & E1). injection E1 as <- <-. cbn [run fst snd] in *. apply obind_inv in E2 as ([d1 r] & E5 & E2). apply obind_inv in E2 as ([d2 r2] & E6 & E2). injection E2 as <- <-. cbn [fst snd] in *.
  cbn [MultiCompModel.mb_step]. unfold MultiCompModel.mb_process. cbn [mb_splitter mb_drc with_parts]. rewrite E3. cbn [obind fst snd]. rewrite E5. cbn [obind fst snd]. rewrite parts_twice.
  rewrite (IH c s1 d1 s2 ys2 d2 r2 E4 E6). reflexivity.
Qed.
Lemma run_parts_inv : forall bs c s ds c' outs, run mb_step (with_parts c s ds) (map MProcess bs) = Ok (c', outs) ->
  exists s' ys ds' res, run (split_block eps) s bs = Ok (s', ys) /\ run (process_drcs junk 0) ds ys = Ok (ds', res) /\ c' = with_parts c s' ds' /\ outs = mix_all bs res.
Proof.
  induction bs as [|b bs IH]; intros c s ds c' outs E; cbn [run map] in *; [injection E as <- <-; exists s, [], ds, []; auto|].
  apply obind_inv in E as ([c1 o] & E1 & E). apply obind_inv in E as ([c2 o2] & E2 & E). injection E as <- <-. cbn [fst snd MultiCompModel.mb_step] in *. unfold MultiCompModel.mb_process in E1. cbn [mb_splitter mb_drc with_parts] in E1.
  apply obind_inv in E1 as ([s1 y] & E3 & E1). apply obind_inv in E1 as ([d1 r] & E4 & E1). injection E1 as <- <-. cbn [fst snd] in *. fold (with_parts c s1 d1) in E2.
  destruct (IH c s1 d1 c2 o2 E2) as (s' & ys & ds' & res & A & B & D & F). exists s', (y :: ys), ds', (r :: res). cbn [run]. rewrite E3. cbn [obind fst snd]. rewrite A. cbn [obind fst snd]. rewrite E4. cbn [obind fst snd]. rewrite B. cbn [obind fst snd]. rewrite D, F. auto.
Qed.

(* the blocks of every band, one after the other *)
Definition joined (k : nat) (res : list (list (list (list R)))) : list (list R) := concat (map (fun r => nth k r []) res).
Lemma map_seq_zip nb (f g : nat -> list (list R)) : zip_app (map f (seq 0 nb)) (map g (seq 0 nb)) = map (fun k => f k ++ g k) (seq 0 nb).
Proof. unfold zip_app. induction (seq 0 nb) as [|k l IH]; cbn [map combine fst snd]; [reflexivity|]. now rewrite IH. Qed.
Lemma seq_nth_map {A} (l : list A) d : map (fun k => nth k l d) (seq 0 (length l)) = l.
Proof.
  apply (nth_ext _ _ d d); [now rewrite map_length, seq_length|]. intros i Hi. rewrite map_length, seq_length in Hi. rewrite (nth_map_in _ _ i 0%nat d) by (rewrite seq_length; exact Hi). now rewrite seq_nth.
Qed.
Lemma add_app x1 : forall x2 y1 y2, length x1 = length y1 -> add_frames (x1 ++ x2) (y1 ++ y2) = add_frames x1 y1 ++ add_frames x2 y2.
Proof. intros x2 y1 y2 L. unfold add_frames. rewrite combine_app by exact L. apply map_app. Qed.
Lemma add_length x : forall y, length x = length y -> length (add_frames x y) = length x.
Proof. intros y L. unfold add_frames. rewrite map_length, combine_length. lia. Qed.
Lemma fold_app n : forall r1 r2 z1 z2, length r1 = length r2 -> Forall (fun s => length s = n) r1 -> length z1 = n ->
  fold_left add_frames (zip_app r1 r2) (z1 ++ z2) = fold_left add_frames r1 z1 ++ fold_left add_frames r2 z2.
Proof.
  induction r1 as [|a r1 IH]; intros [|b r2] z1 z2 L F LZ; cbn [length] in L; try lia; [reflexivity|]. pose proof (Forall_inv F) as LA. cbn beta in LA.
  change (zip_app (a :: r1) (b :: r2)) with ((a ++ b) :: zip_app r1 r2). cbn [fold_left]. rewrite add_app by lia. apply IH; [lia|exact (Forall_inv_tail F)|]. rewrite add_length; lia.
Qed.
Lemma fold_empty (r : list (list (list R))) : fold_left add_frames r [] = [].
Proof. induction r as [|a r IH]; [reflexivity|exact IH]. Qed.
Lemma mix_blocks nb : forall bs res, Forall2 (fun b r => length r = nb /\ Forall (fun s => length s = length b) r) bs res ->
  concat (mix_all bs res) = mixed (concat bs) (map (fun k => joined k res) (seq 0 nb)).
Proof.
  intros bs res H. unfold mixed. induction H as [|b r bs res [L H1] _ IH]; cbn [mix_all concat map]; [now rewrite fold_empty|].
  rewrite IH. unfold mixed. rewrite map_app, <- (fold_app (length b)); [|now rewrite map_length, seq_length|exact H1|apply map_length]. f_equal.
  rewrite <- (seq_nth_map r []) at 1. rewrite L, map_seq_zip. reflexivity.
Qed.
Lemma sum_unique nch n sigs o1 o2 : is_sum nch n sigs o1 -> is_sum nch n sigs o2 -> o1 = o2.
Proof.
  intros (F1 & L1 & H1) (F2 & L2 & H2). apply (nth_ext _ _ [] []); [lia|]. intros j Hj. unfold frames_of in *. rewrite Forall_forall in F1, F2.
  assert (Q1 : length (nth j o1 []) = nch) by (apply F1, nth_In; exact Hj). assert (Q2 : length (nth j o2 []) = nch) by (apply F2, nth_In; lia). apply (nth_ext _ _ 0 0); [lia|]. intros i Hi. rewrite H1, H2 by lia. reflexivity.
Qed.

(* Everything the compressor does with a sequence of blocks, band by band. *)
Lemma bands_run nb nch m c s ds bs s2 y : shaped nb s -> split_block eps s (concat bs) = Ok (s2, y) -> Forall (fun b => (1 <= length b <= m)%nat) bs -> length ds = nb ->
  (forall k, (k < nb)%nat -> frames_of nch (nth k y [])) -> (forall k, (k < nb)%nat -> sound (nth k ds no_drc)) ->
  (forall k l, (k < nb)%nat -> Forall (valid_frames nch m) l -> exists e o, run (drc_step (junk k)) (nth k ds no_drc) (process_all (map (fun x => (x, x)) l)) = Ok (e, o)) ->
  exists s' ys c' outs os, run (split_block eps) s bs = Ok (s', ys) /\ (forall k, concat (map (fun v => nth k v []) ys) = nth k y []) /\
    (forall k, (k < nb)%nat -> Forall (valid_frames nch m) (map (fun v => nth k v []) ys)) /\ length os = nb /\
    (forall k, (k < nb)%nat -> exists e, run (drc_step (junk k)) (nth k ds no_drc) (process_all (map (fun x => (x, x)) (map (fun v => nth k v []) ys))) = Ok (e, nth k os [])) /\
    run mb_step (with_parts c s ds) (map MProcess bs) = Ok (c', outs) /\ concat outs = mixed (concat bs) (map (@concat _) os).
Proof.
  intros SH E LB LD FY SD HR. destruct (split_blocks eps nb bs s s2 y SH E) as (s' & ys & R & J). destruct (run_shapes eps nb bs s s' ys SH R) as [_ F2].
  assert (V : forall k, (k < nb)%nat -> Forall (valid_frames nch m) (map (fun v => nth k v []) ys)).
  { intros k Hk. specialize (FY k Hk). rewrite <- J in FY. clear -F2 LB FY Hk. induction F2 as [|b v bs ys [L Q] _ IH]; cbn [map concat] in *; constructor.
    - apply Forall_app in FY as [FY _]. split; [|exact FY]. rewrite Forall_forall in Q. rewrite Q by (apply nth_In; lia). exact (Forall_inv LB).
    - apply IH; [exact (Forall_inv_tail LB)|]. apply Forall_app in FY. tauto. }
  destruct (choose (fun k eo => run (drc_step (junk k)) (nth k ds no_drc) (process_all (map (fun x => (x, x)) (map (fun v => nth k v []) ys))) = Ok eo) (no_drc, []) nb) as (eos & LE & HE).
  { intros k Hk. destruct (HR k _ Hk (V k Hk)) as (e & o & Q). eauto. }
  assert (LY : Forall (fun v => length v = nb) ys) by (clear -F2; induction F2 as [|b v bs ys [L _] _ IH]; constructor; auto).
  destruct (run_bands junk nb ys ds LD LY (map fst eos) (map snd eos)) as (res & RB & LR & HB); [now rewrite map_length|now rewrite map_length| |].
  { intros k Hk. rewrite process_band, (HE k Hk), (nth_map_in fst eos k (no_drc, []) no_drc), (nth_map_in snd eos k (no_drc, []) []) by lia. now destruct (nth k eos _). }
  assert (LYS : length ys = length bs) by (now apply run_length in R).
  assert (OL : forall k, (k < nb)%nat -> Forall2 (fun v o => length o = length (nth k v [])) ys (nth k (map snd eos) [])).
  { intros k Hk. pose proof (HE k Hk) as Q. rewrite (nth_map_in snd eos k (no_drc, []) []) by lia. destruct (nth k eos _) as [e o]. pose proof (run_lengths junk k _ _ _ _ (SD k Hk) Q) as Q2. cbn [snd]. rewrite !map_map in Q2. clear -Q2. revert o Q2. induction ys as [|v ys IH]; intros [|a o] Q; cbn [map] in Q; inversion Q; subst; constructor; auto. }
  exists s', ys, (with_parts c s' (map fst eos)), (mix_all bs res), (map snd eos). split; [exact R|]. split; [exact J|]. split; [exact V|]. split; [now rewrite map_length|]. split; [|split].
  - intros k Hk. exists (fst (nth k eos (no_drc, []))). rewrite (HE k Hk), (nth_map_in snd eos k (no_drc, []) []) by lia. now destruct (nth k eos _).
  - eapply run_parts; eassumption.
  - assert (N2 : forall j, (j < length ys)%nat -> length (nth j ys []) = nb /\ Forall (fun u => length u = length (nth j bs [])) (nth j ys [])).
    { intros j Hj. destruct (Forall2_nth _ _ _ [] [] F2) as [_ A]. exact (A j ltac:(lia)). }
    rewrite (mix_blocks nb).
    + f_equal. apply (nth_ext _ _ [] []); [rewrite !map_length, seq_length; lia|]. intros k Hk. rewrite map_length, seq_length in Hk. rewrite (nth_map_in _ _ k 0%nat []) by (rewrite seq_length; lia). rewrite seq_nth by lia. rewrite (nth_map_in (@concat _) _ k [] []) by (rewrite map_length; lia). cbn [Nat.add]. unfold joined. f_equal.
      pose proof (Forall2_len _ _ _ (OL k Hk)) as OLL. apply (nth_ext _ _ [] []); [rewrite map_length; lia|]. intros j Hj. rewrite map_length in Hj. rewrite (nth_map_in _ res j [] []) by lia. now apply HB; [lia|].
    + apply Forall2_of_nth with (da := []) (db := []); [lia|]. intros j Hj. destruct (HB j ltac:(lia)) as [A B]. split; [exact A|]. apply Forall_forall. intros o Ho. apply In_nth with (d := []) in Ho as (k & Hk & <-). rewrite A in Hk. rewrite B by exact Hk.
      destruct (Forall2_nth _ _ _ [] [] (OL k Hk)) as [_ Q]. rewrite (Q j ltac:(lia)). destruct (N2 j ltac:(lia)) as [N3 N4]. rewrite Forall_forall in N4. apply N4, nth_In. lia.
Qed.
Lemma documented_frames p fs n d x sc : frames_of n x -> frames_of n (documented_output p fs n d x sc).
Proof.
  intros F. unfold documented_output. cbv zeta. set (l := map (level_of _) _). clearbody l. assert (G : frames_of n (firstn (length x) (repeat (repeat 0 n) d ++ x))).
  { apply PoleZeroProofs16.firstn_Forall. apply Forall_app. split; [|exact F]. apply Forall_forall. intros y Hy. apply repeat_spec in Hy. rewrite Hy. apply repeat_length. }
  revert l. induction G as [|f fr H _ IH]; intros [|y l]; cbn [combine map]; constructor; [cbn [fst]; now rewrite map_length|apply IH].
Qed.
End Runs.
