(* Proofs for the Spectrogram layout and for InverseSpectrogram. *)
From Verif Require Import Common CInt NumberUtilModel NumberUtilProps ListLemmas NthLemmas
  SpectrogramModel SpectrogramSpec SpectrogramProofs.
Local Open Scope nat_scope.

Section Layout.
Context {D : Type} (zero : D) (add mul : D -> D -> D).
Variable (rdft : list D -> list D).

Lemma windowed_eq w N xs start : length w <= N -> start + length w <= length xs ->
  windowed zero mul w N (slice start (length w) xs)
  = map (fun k => if k <? length w
                  then mul (nth (start + k) xs zero) (nth k w zero)
                  else zero) (seq 0 N).
Proof.
  intros HN Hx. unfold windowed.
  assert (length (slice start (length w) xs) = length w) as Ls
    by (unfold slice; rewrite firstn_length, skipn_length; lia).
  apply (nth_ext _ _ zero zero).
  { rewrite app_length, map_length, combine_length, repeat_length, map_length, seq_length, Ls. lia. }
  intros k Hk.
  rewrite app_length, map_length, combine_length, repeat_length, Ls, Nat.min_id in Hk.
  rewrite nth_map_seq by lia. cbn [Nat.add].
  destruct (Nat.ltb_spec k (length w)) as [H|H].
  - rewrite app_nth1 by (rewrite map_length, combine_length, Ls; lia).
    rewrite (nth_indep _ zero ((fun p => mul (fst p) (snd p)) (zero, zero)))
      by (rewrite map_length, combine_length, Ls; lia).
    rewrite (map_nth (fun p => mul (fst p) (snd p))).
    rewrite combine_nth by exact Ls. cbn [fst snd]. f_equal.
    unfold slice. rewrite nth_firstn by lia. now rewrite nth_skipn.
  - rewrite app_nth2 by (rewrite map_length, combine_length, Ls; lia).
    rewrite map_length, combine_length, Ls, Nat.min_id.
    apply nth_repeat.
Qed.

Lemma bins_eq N k b : N = 2 ^ S k -> length b = N ->
  bins zero N ([nth 0 b zero; zero] ++ skipn 2 b ++ [nth 1 b zero; zero])
  = map (spectrum_bin zero N b) (seq 0 (1 + N / 2)).
Proof.
  intros EN Lb. unfold bins. apply map_ext_in. intros j Hj. apply in_seq in Hj.
  assert (N / 2 = 2 ^ k) as EH.
  { rewrite EN. cbn [Nat.pow]. rewrite Nat.mul_comm. apply Nat.div_mul. lia. }
  assert (N = 2 * (N / 2)) as E2 by (rewrite EH, EN; reflexivity).
  assert (1 <= N / 2) as H1 by (rewrite EH; apply Nat.neq_0_lt_0, Nat.pow_nonzero; lia).
  unfold spectrum_bin. set (h := N / 2) in *. clearbody h.
  destruct (Nat.eqb_spec j 0) as [->|Hj0]; [reflexivity|].
  assert (forall i, 2 <= i -> i < N -> nth i ([nth 0 b zero; zero] ++ skipn 2 b ++ [nth 1 b zero; zero]) zero
     = nth i b zero) as HM.
  { intros i Hi Hi'. rewrite app_nth2 by (cbn; lia). cbn [length].
    rewrite app_nth1 by (rewrite skipn_length; lia).
    rewrite nth_skipn. f_equal. lia. }
  destruct (Nat.eqb_spec j h) as [->|Hjh].
  - f_equal; (rewrite app_nth2 by (cbn; lia); cbn [length];
      rewrite app_nth2 by (rewrite skipn_length; lia); rewrite skipn_length, Lb).
    + replace (2 * h - 2 - (N - 2)) with 0 by lia. reflexivity.
    + replace (2 * h + 1 - 2 - (N - 2)) with 1 by lia. reflexivity.
  - f_equal; apply HM; lia.
Qed.

Lemma render_eq N k w xs start md : N = 2 ^ S k -> length w <= N ->
  start + length w <= length xs ->
  (forall u, length u = N -> length (rdft u) = N) ->
  render zero add mul md N (core_fft zero mul rdft w N (slice start (length w) xs))
  = let b := map (spectrum_bin zero N (frame_spectrum zero mul rdft w N xs start))
                 (seq 0 (1 + N / 2)) in
    match md with
    | Complex => CSlice b
    | SquaredMagnitude =>
        PSlice (map (fun c => add (mul (fst c) (fst c)) (mul (snd c) (snd c))) b)
    end.
Proof.
  intros EN Hw Hx Hl. unfold core_fft. rewrite windowed_eq by assumption.
  fold (frame_spectrum zero mul rdft w N xs start). cbv zeta.
  assert (length (frame_spectrum zero mul rdft w N xs start) = N) as L
    by (apply Hl; rewrite map_length, seq_length; reflexivity).
  destruct md; cbn [render]; rewrite (bins_eq N k) by assumption; reflexivity.
Qed.
End Layout.

(* The packed layout is undone by [pack]. *)
Section Pack.
Context {D : Type} (zero : D).
Lemma flat_pairs : forall (b : list D) n a, length b = a + 2 * n ->
  flat_map (fun j => [nth (a + 2 * j) b zero; nth (a + 2 * j + 1) b zero]) (seq 0 n)
  = skipn a b.
Proof.
  intros b n. induction n as [|n IH]; intros a Hl.
  - rewrite skipn_all2 by lia. reflexivity.
  - cbn [seq flat_map]. rewrite <- seq_shift, flat_map_concat_map, map_map, <- flat_map_concat_map.
    rewrite (flat_map_ext _ (fun j => [nth ((2 + a) + 2 * j) b zero; nth ((2 + a) + 2 * j + 1) b zero])).
    2:{ intros j. replace (a + 2 * S j) with (2 + a + 2 * j) by lia. reflexivity. }
    rewrite IH by lia.
    apply (nth_ext _ _ zero zero).
    { cbn [app length]. rewrite !skipn_length. lia. }
    intros i Hi. rewrite nth_skipn. destruct i as [|[|i]]; cbn [app nth].
    + f_equal; lia.
    + f_equal; lia.
    + rewrite nth_skipn. f_equal; lia.
Qed.

Lemma pack_bins N k b : N = 2 ^ S k -> length b = N ->
  pack zero N (map (spectrum_bin zero N b) (seq 0 (1 + N / 2))) = b.
Proof.
  intros EN Lb. unfold pack.
  assert (N / 2 = 2 ^ k) as EH.
  { rewrite EN. cbn [Nat.pow]. rewrite Nat.mul_comm. apply Nat.div_mul. lia. }
  assert (N = 2 * (N / 2)) as E2 by (rewrite EH, EN; reflexivity).
  assert (1 <= N / 2) as H1 by (rewrite EH; apply Nat.neq_0_lt_0, Nat.pow_nonzero; lia).
  set (h := N / 2) in *.
  assert (forall j, j <= h -> nth j (map (spectrum_bin zero N b) (seq 0 (1 + h))) (zero, zero)
     = spectrum_bin zero N b j) as Hn.
  { intros j Hj. rewrite nth_map_seq by lia. reflexivity. }
  rewrite !Hn by lia.
  transitivity (firstn 2 b ++ skipn 2 b); [|apply firstn_skipn]. f_equal.
  - unfold spectrum_bin. fold h. cbn [Nat.eqb]. destruct (Nat.eqb_spec h 0); [lia|].
    rewrite Nat.eqb_refl. cbn [fst]. destruct b as [|b0 [|b1 b']]; cbn in Lb; [lia|lia|]. reflexivity.
  - rewrite <- seq_shift, flat_map_concat_map, map_map, <- flat_map_concat_map.
    transitivity (flat_map (fun j => [nth (2 + 2 * j) b zero; nth (2 + 2 * j + 1) b zero]) (seq 0 (h - 1))).
    2:{ apply flat_pairs. lia. }
    rewrite !flat_map_concat_map. f_equal. apply map_ext_in. intros j Hj. apply in_seq in Hj.
    rewrite Hn by lia. unfold spectrum_bin. fold h.
    destruct (Nat.eqb_spec (S j) 0); [lia|]. destruct (Nat.eqb_spec (S j) h); [lia|].
    cbn [fst snd]. replace (2 * S j) with (2 + 2 * j) by lia. reflexivity.
Qed.
End Pack.

Section Inverse.
Context {D : Type} (zero one : D) (add mul div : D -> D -> D) (of_nat : nat -> D).
Variable (irdft : list D -> list D).
Hypothesis add_0_l : forall x, add zero x = x.
Notation process_slice := (process_slice zero one add mul div of_nat irdft).
Notation inv_process := (inv_process zero one add mul div of_nat irdft).

Variables (N F step : nat) (win : nat -> D) (ww : bool) (wf : list D).
Hypothesis HN : exists k, N = 2 ^ S k.
Hypothesis HF : F <= N.
Hypothesis Hs : 1 <= step.
Hypothesis Hir : forall u, length u = N -> length (irdft u) = N.
Hypothesis Hwin : forall s, iv_with_window s = ww -> iv_window s = wf ->
  forall k, k < F -> window_value zero one s k = Ok (win k).
Notation ov := (F - step).
Notation eff := (F - ov).

Definition fr (sl : list (D * D)) : list D :=
  synth_frame zero mul div (of_nat (N / 2)) win F (irdft (pack zero N sl)).

Definition same (s : @inverse D) : Prop :=
  iv_fft s = N /\ iv_frame s = F /\ iv_step s = step /\ iv_overlap s = ov /\
  iv_initialized s = true /\ iv_with_window s = ww /\ iv_window s = wf.

Lemma pack_length sl : length (pack zero N sl) = N.
Proof.
  destruct HN as [k EN]. unfold pack.
  assert (N / 2 = 2 ^ k) as EH.
  { rewrite EN. cbn [Nat.pow]. rewrite Nat.mul_comm. apply Nat.div_mul. lia. }
  assert (N = 2 * (N / 2)) as E2 by (rewrite EH, EN; reflexivity).
  assert (1 <= N / 2) as H1 by (rewrite EH; apply Nat.neq_0_lt_0, Nat.pow_nonzero; lia).
  rewrite app_length. cbn [length].
  assert (forall (f g : nat -> D) l, length (flat_map (fun j => [f j; g j]) l) = 2 * length l) as Hl.
  { intros f g l. induction l; [reflexivity|]. cbn [flat_map]. rewrite app_length. cbn [length]. lia. }
  rewrite Hl, seq_length. lia.
Qed.

Lemma overlap_loop_ok s y work0 cur : same s -> N <= length y -> length work0 = ov ->
  (forall k, k < F -> cur k = mul (div (nth k y zero) (of_nat (N / 2))) (win k)) ->
  forall left k, left + k = F ->
  overlap_loop zero one add mul div of_nat s y left k
    (map (fun k => if k <? ov then add (nth k work0 zero) (cur k) else cur k) (seq 0 k)
     ++ skipn k work0)
  = Ok (map (fun k => if k <? ov then add (nth k work0 zero) (cur k) else cur k) (seq 0 F)).
Proof.
  intros (Ef & EF & Es & Eo & Ei & Eww & Ewf) Ly Lw Hcur.
  set (g := fun k => if k <? ov then add (nth k work0 zero) (cur k) else cur k).
  induction left as [|left IH]; intros k Hk.
  - cbn [overlap_loop Nat.add] in *. subst k. rewrite skipn_all2 by lia. now rewrite app_nil_r.
  - cbn [overlap_loop].
    rewrite (nth_error_nth' y zero) by lia.
    rewrite (Hwin s Eww Ewf) by lia. cbn [obind]. cbv zeta.
    rewrite Eo, Ef. rewrite <- (Hcur k) by lia.
    assert (map g (seq 0 (S k)) = map g (seq 0 k) ++ [g k]) as EM
      by (rewrite seq_S, map_app; reflexivity).
    assert (length (map g (seq 0 k)) = k) as LM by now rewrite map_length, seq_length.
    destruct (Nat.ltb_spec k ov) as [H|H].
    + rewrite nth_error_app2 by lia. rewrite LM, Nat.sub_diag.
      destruct (skipn k work0) as [|o rest] eqn:Esk.
      { apply (f_equal (@length _)) in Esk. rewrite skipn_length in Esk. cbn in Esk. lia. }
      cbn [nth_error].
      assert (o = nth k work0 zero) as ->.
      { pose proof (nth_skipn zero k 0 work0) as Hn. rewrite Esk in Hn. cbn in Hn.
        rewrite Nat.add_0_r in Hn. exact Hn. }
      rewrite <- (IH (S k)) by lia. f_equal. rewrite EM.
      unfold splice. rewrite firstn_app, LM, Nat.sub_diag, firstn_all2 by lia.
      cbn [firstn]. rewrite app_nil_r, <- app_assoc. f_equal.
      cbn [app]. f_equal.
      { unfold g. destruct (Nat.ltb_spec k ov) as [_|]; [reflexivity|lia]. }
      fold g. rewrite skipn_app, LM, skipn_all2 by (cbn [length]; lia).
      cbn [app length]. replace (k + 1 - k) with 1 by lia.
      replace (S k) with (k + 1) by lia. rewrite <- (skipn_skipn' work0 1 k), Esk. reflexivity.
    + rewrite (skipn_all2 work0) by lia. rewrite app_nil_r.
      rewrite <- (IH (S k)) by lia. f_equal. rewrite EM, (skipn_all2 work0) by lia.
      rewrite app_nil_r. f_equal. unfold g. destruct (Nat.ltb_spec k ov); [lia|reflexivity].
Qed.

Notation OA := (overlap_add zero add eff).

Lemma covering_snoc st (ys : list (list D)) y t :
  covering st (ys ++ [y]) t = covering st ys t ++
    (if length ys * st <=? t then
       match nth_error y (t - length ys * st) with Some v => [v] | None => [] end else []).
Proof.
  unfold covering. rewrite app_length. cbn [length].
  rewrite Nat.add_1_r, seq_S, map_app, concat_app. f_equal.
  - f_equal. apply map_ext_in. intros i Hi. apply in_seq in Hi.
    rewrite nth_error_app1 by lia. reflexivity.
  - cbn [map concat Nat.add]. rewrite nth_error_app2, Nat.sub_diag by lia. cbn [nth_error].
    now rewrite app_nil_r.
Qed.

Lemma covering_late st (ys : list (list D)) t : Forall (fun y => length y = F) ys ->
  (ys <> [] -> (length ys - 1) * st + F <= t) -> covering st ys t = [].
Proof.
  intros HFo Ht. unfold covering.
  assert (forall l, (forall i, In i l -> i < length ys) ->
    concat (map (fun i => match nth_error ys i with
    | Some y => if i * st <=? t then
        match nth_error y (t - i * st) with Some v => [v] | None => [] end else []
    | None => [] end) l) = []) as HH.
  { induction l as [|i l IH]; intros Hl; [reflexivity|]. cbn [map concat].
    rewrite IH by (intros; apply Hl; now right). rewrite app_nil_r.
    assert (i < length ys) as Hi by (apply Hl; now left).
    destruct (nth_error ys i) as [y|] eqn:Ey; [|reflexivity].
    destruct (Nat.leb_spec (i * st) t) as [H|H]; [|reflexivity].
    rewrite (proj2 (nth_error_None y (t - i * st))); [reflexivity|].
    assert (length y = F) as ->.
    { rewrite Forall_forall in HFo. apply HFo. eapply nth_error_In; eauto. }
    assert (ys <> []) by (destruct ys; [cbn in Hi; lia|discriminate]).
    specialize (Ht H0). assert (i * st <= (length ys - 1) * st) by (apply Nat.mul_le_mono_r; lia).
    lia. }
  apply HH. intros i Hi. apply in_seq in Hi. lia.
Qed.

(* Samples of earlier frames are final. *)
Lemma OA_early ys y t : t < length ys * eff -> OA (ys ++ [y]) t = OA ys t.
Proof.
  intros H. unfold overlap_add. rewrite covering_snoc.
  destruct (Nat.leb_spec (length ys * eff) t); [lia|]. now rewrite app_nil_r.
Qed.

Definition winv (s : @inverse D) (ys : list (list D)) : Prop :=
  same s /\ Forall (fun y => length y = F) ys /\
  iv_processed s = negb (length ys =? 0) /\
  iv_working s = map (fun j => OA ys (length ys * eff + j)) (seq 0 ov).

Lemma fr_length sl : length (fr sl) = F.
Proof. unfold fr, synth_frame. now rewrite map_length, seq_length. Qed.

Lemma fr_nth sl k : k < F -> nth_error (fr sl) k =
  Some (mul (div (nth k (irdft (pack zero N sl)) zero) (of_nat (N / 2))) (win k)).
Proof.
  intros H. unfold fr, synth_frame. rewrite nth_error_map, nth_error_seq.
  destruct (Nat.ltb_spec k F); [reflexivity|lia].
Qed.

Lemma slice_ok s ys sl : winv s ys -> length sl = N / 2 + 1 ->
  exists s', process_slice s sl =
    Ok (s', map (fun j => OA (ys ++ [fr sl]) (length ys * eff + j)) (seq 0 eff)) /\
    winv s' (ys ++ [fr sl]).
Proof.
  intros (Hsame & HFo & Hpr & Hwk) Hsl.
  pose proof Hsame as (Ef & EF & Es & Eo & Ei & Eww & Ewf).
  unfold SpectrogramModel.process_slice. rewrite Ef, Hsl, Nat.eqb_refl. cbn [ocheck].
  cbv zeta.
  assert (length (iv_working s) = ov) as Lw by (rewrite Hwk, map_length, seq_length; reflexivity).
  rewrite Eo, Lw, Nat.eqb_refl. cbn [ocheck].
  set (y := irdft (pack zero N sl)).
  set (cur := fun k => mul (div (nth k y zero) (of_nat (N / 2))) (win k)).
  pose proof (overlap_loop_ok s y (iv_working s) cur Hsame) as HL.
  specialize (HL ltac:(unfold y; rewrite Hir; [lia|apply pack_length]) Lw (fun k _ => eq_refl)).
  specialize (HL F 0 ltac:(lia)). cbn [seq map app skipn] in HL.
  rewrite EF, HL. clear HL. cbn [obind].
  set (work := map _ (seq 0 F)).
  assert (work = map (fun j => OA (ys ++ [fr sl]) (length ys * eff + j)) (seq 0 F)) as Ework.
  { unfold work. apply map_ext_in. intros k Hk. apply in_seq in Hk.
    unfold overlap_add. rewrite covering_snoc.
    destruct (Nat.leb_spec (length ys * eff) (length ys * eff + k)) as [_|]; [|lia].
    replace (length ys * eff + k - length ys * eff) with k by lia.
    rewrite fr_nth by lia. fold y. fold (cur k). rewrite fold_left_app. cbn [fold_left].
    destruct (Nat.ltb_spec k ov) as [H|H].
    - f_equal. rewrite Hwk.
      rewrite nth_map_seq by lia. reflexivity.
    - assert (covering eff ys (length ys * eff + k) = []) as ->.
      { apply covering_late; [assumption|]. intros Hne. destruct ys as [|y0 ys0]; [congruence|].
        cbn [length Nat.mul]. rewrite Nat.sub_succ, Nat.sub_0_r. lia. }
      cbn [fold_left]. now rewrite add_0_l. }
  assert (length work = F) as Lwork by (unfold work; now rewrite map_length, seq_length).
  rewrite Lwork. eexists. split.
  - f_equal. f_equal. rewrite Ework, firstn_map. f_equal.
    replace (seq 0 F) with (seq 0 eff ++ seq eff ov) by (rewrite <- seq_app; f_equal; lia).
    rewrite firstn_app, seq_length, Nat.sub_diag, firstn_all2 by (rewrite seq_length; lia).
    cbn [firstn]. now rewrite app_nil_r.
  - split.
    { unfold same. cbn. intuition. }
    split. { apply Forall_app. split; [exact HFo|]. constructor; [apply fr_length|constructor]. }
    split. { cbn [iv_processed]. rewrite app_length. cbn [length]. destruct (Nat.eqb_spec (length ys + 1) 0); [lia|reflexivity]. }
    cbn [iv_working]. rewrite Ework, skipn_map.
    replace (seq 0 F) with (seq 0 eff ++ seq eff ov) by (rewrite <- seq_app; f_equal; lia).
    rewrite skipn_app, seq_length, Nat.sub_diag, skipn_all2 by (rewrite seq_length; lia).
    cbn [app skipn]. rewrite app_length. cbn [length].
    apply (nth_ext _ _ zero zero); rewrite !map_length, !seq_length; [reflexivity|].
    intros j Hj.
    rewrite nth_map_seq by lia.
    rewrite nth_map_seq by lia.
    f_equal. lia.
Qed.

Lemma OA_prefix ys zs t : t < length ys * eff -> OA (ys ++ zs) t = OA ys t.
Proof.
  revert ys. induction zs as [|z zs IH]; intros ys H.
  - now rewrite app_nil_r.
  - replace (ys ++ z :: zs) with ((ys ++ [z]) ++ zs) by now rewrite <- app_assoc.
    rewrite IH by (rewrite app_length; cbn [length]; lia). now apply OA_early.
Qed.

Lemma slices_ok : forall sls s ys, winv s ys ->
  Forall (fun sl => length sl = N / 2 + 1) sls ->
  exists s' outs, run process_slice s sls = Ok (s', outs) /\
    winv s' (ys ++ map fr sls) /\
    concat outs = map (fun j => OA (ys ++ map fr sls) (length ys * eff + j))
                      (seq 0 (length sls * eff)).
Proof.
  induction sls as [|sl sls IH]; intros s ys Hi HFo.
  - exists s, []. cbn. rewrite app_nil_r. now split.
  - pose proof (Forall_inv HFo) as H0. apply Forall_inv_tail in HFo.
    destruct (slice_ok s ys sl Hi H0) as (s1 & E1 & Hi1).
    destruct (IH s1 _ Hi1 HFo) as (s2 & outs & E2 & Hi2 & EC).
    exists s2. eexists. split.
    { cbn [run]. rewrite E1. cbn [obind fst snd]. rewrite E2. reflexivity. }
    cbn [map]. replace (ys ++ fr sl :: map fr sls) with ((ys ++ [fr sl]) ++ map fr sls)
      by now rewrite <- app_assoc.
    split; [exact Hi2|]. cbn [fst snd concat]. rewrite EC. rewrite app_length. cbn [length].
    cbn [Nat.mul]. rewrite seq_app, map_app. f_equal.
    + apply map_ext_in. intros j Hj. apply in_seq in Hj. symmetry. apply OA_prefix.
      rewrite app_length. cbn [length]. nia.
    + cbn [Nat.add]. 
      apply (nth_ext _ _ zero zero); rewrite !map_length, !seq_length; [reflexivity|].
      intros j Hj.
      rewrite nth_map_seq by lia.
      rewrite nth_map_seq by lia.
      f_equal. lia.
Qed.

Lemma groups_ok : forall groups s ys, winv s ys ->
  Forall (fun sl => length sl = N / 2 + 1) (concat groups) ->
  exists s' outs, run inv_process s groups = Ok (s', map Some outs) /\
    winv s' (ys ++ map fr (concat groups)) /\
    length outs = length groups /\
    concat outs = map (fun j => OA (ys ++ map fr (concat groups)) (length ys * eff + j))
                      (seq 0 (length (concat groups) * eff)).
Proof.
  induction groups as [|g gs IH]; intros s ys Hi HFo.
  - exists s, []. cbn. rewrite app_nil_r. now split.
  - cbn [concat] in HFo. apply Forall_app in HFo. destruct HFo as [Hg Hgs].
    destruct (slices_ok g s ys Hi Hg) as (s1 & o1 & E1 & Hi1 & EC1).
    destruct (IH s1 _ Hi1 Hgs) as (s2 & outs & E2 & Hi2 & EL & EC2).
    exists s2, (concat o1 :: outs). split.
    { cbn [run]. unfold SpectrogramModel.inv_process at 1.
      destruct Hi as ((_ & _ & _ & _ & Ei & _) & _). rewrite Ei, E1. cbn [obind fst snd].
      rewrite E2. reflexivity. }
    cbn [concat]. rewrite map_app, app_assoc. split; [exact Hi2|].
    split; [cbn [length]; now rewrite EL|].
    rewrite EC1, EC2. rewrite !app_length, map_length, (Nat.mul_add_distr_r (length g)), seq_app, map_app.
    f_equal.
    + apply map_ext_in. intros j Hj. apply in_seq in Hj. symmetry. apply OA_prefix.
      rewrite app_length, map_length. nia.
    + cbn [Nat.add].
      apply (nth_ext _ _ zero zero); rewrite !map_length, !seq_length; [reflexivity|].
      intros j Hj.
      rewrite nth_map_seq by lia.
      rewrite nth_map_seq by lia.
      f_equal. lia.
Qed.
End Inverse.
