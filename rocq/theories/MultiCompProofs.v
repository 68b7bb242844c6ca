From Verif Require Import Common ListLemmas NthLemmas RealUtil BiquadModel CascadeModel PoleZeroModel LadderModel LadderSpec FixedDelayLineModel FixedDelayLineProofs EnvelopeModel EnvelopeSpec DrcCurveModel DrcModel DrcSpec DrcProofs DrcProps
  MultiCrossModel MultiCrossSpec MultiCrossProofs MultiCrossProofs3 MultiCrossProofs4 MultiCrossProofs5 MultiCompModel MultiCompSpec.
Local Open Scope R_scope.

(* ---------- sums of blocks ---------- *)
Lemma add_entry n : forall x y j, length x = n -> length y = n -> nth j (map (fun q : R * R => fst q + snd q) (combine x y)) 0 = nth j x 0 + nth j y 0.
Proof.
  induction n as [|n IH]; intros [|a x] [|b y] j Hx Hy; cbn in Hx, Hy; try lia; [destruct j; cbn; ring|]. destruct j as [|j]; cbn [combine map nth fst snd]; [reflexivity|]. apply IH; lia.
Qed.
Lemma add_shape nch x y n : frames_of nch x -> frames_of nch y -> length x = n -> length y = n ->
  frames_of nch (add_frames x y) /\ length (add_frames x y) = n /\ forall j i, (j < n)%nat -> nth i (nth j (add_frames x y) []) 0 = nth i (nth j x []) 0 + nth i (nth j y []) 0.
Proof.
  revert y n. induction x as [|a x IH]; intros [|b y] n FX FY LX LY; cbn [length] in *; try lia.
  - subst n. repeat split; try constructor. intros j i H. lia.
  - destruct n as [|n]; [lia|]. destruct (IH y n (Forall_inv_tail FX) (Forall_inv_tail FY) ltac:(lia) ltac:(lia)) as (A & B & D). pose proof (Forall_inv FX) as HA. pose proof (Forall_inv FY) as HB. cbn beta in HA, HB. unfold add_frames in *. cbn [combine map fst snd length]. split; [constructor; [|exact A]|split; [now rewrite B|]].
    + rewrite map_length, combine_length. lia.
    + intros [|j] i H; cbn [nth]; [now apply (add_entry nch)|]. apply D. lia.
Qed.
Lemma fold_sum nch n sigs : forall z, Forall (fun s => frames_of nch s /\ length s = n) sigs -> frames_of nch z -> length z = n ->
  frames_of nch (fold_left add_frames sigs z) /\ length (fold_left add_frames sigs z) = n /\
  forall j i, (j < n)%nat -> nth i (nth j (fold_left add_frames sigs z) []) 0 = nth i (nth j z []) 0 + rsum (map (fun s => nth i (nth j s []) 0) sigs).
Proof.
  induction sigs as [|s sigs IH]; intros z F FZ LZ; cbn [fold_left map rsum].
  - split; [exact FZ|]. split; [exact LZ|]. intros. ring.
  - destruct (Forall_inv F) as [FS LS]. destruct (add_shape nch z s n FZ FS LZ LS) as (A & B & D). destruct (IH (add_frames z s) (Forall_inv_tail F) A B) as (E1 & E2 & E3). split; [exact E1|]. split; [exact E2|]. intros j i H. rewrite E3, D by exact H. ring.
Qed.
Lemma mixed_is_sum nch (x : list (list R)) sigs : frames_of nch x -> Forall (fun s => frames_of nch s /\ length s = length x) sigs -> is_sum nch (length x) sigs (fold_left add_frames sigs (map (map (fun _ => 0)) x)).
Proof.
  intros FX F. destruct (fold_sum nch (length x) sigs (map (map (fun _ => 0)) x) F) as (A & B & D).
  - clear -FX. induction FX as [|f x H _ IH]; cbn [map]; constructor; [now rewrite map_length|exact IH].
  - now rewrite map_length.
  - split; [exact A|]. split; [exact B|]. intros j i H _. rewrite D by exact H. assert (Q : nth i (nth j (map (map (fun _ : R => 0)) x) []) 0 = 0); [|rewrite Q; ring].
    clear. revert x. induction j as [|j IH]; intros [|f x]; cbn [map nth]; [now destruct i| |now destruct i|apply IH].
    revert i. induction f as [|a f IH]; intros [|i]; cbn; auto.
Qed.
Lemma sum_app nch n1 n2 sigs1 sigs2 out1 out2 : is_sum nch n1 sigs1 out1 -> is_sum nch n2 sigs2 out2 -> length sigs1 = length sigs2 -> Forall (fun s => length s = n1) sigs1 -> is_sum nch (n1 + n2) (zip_app sigs1 sigs2) (out1 ++ out2).
Proof.
  intros (A1 & B1 & D1) (A2 & B2 & D2) L F. split; [apply Forall_app; auto|]. split; [rewrite app_length; lia|]. intros j i Hj Hi. rewrite <- B1 in *.
  destruct (Nat.lt_ge_cases j (length out1)) as [C|C].
  - rewrite app_nth1 by exact C. rewrite D1 by assumption. clear D1 D2 A1 A2. revert sigs2 L. induction F as [|s sigs1 H _ IH]; intros [|s2 sigs2] L; cbn in L; try lia; [reflexivity|]. unfold zip_app in *. cbn [combine map rsum fst snd]. rewrite app_nth1 by lia. f_equal. apply IH. lia.
  - rewrite app_nth2 by exact C. rewrite D2 by (assumption || lia). clear D1 D2 A1 A2. revert sigs2 L. induction F as [|s sigs1 H _ IH]; intros [|s2 sigs2] L; cbn in L; try lia; [reflexivity|]. unfold zip_app in *. cbn [combine map rsum fst snd]. rewrite (app_nth2 s s2) by lia. rewrite H. f_equal. apply IH. lia.
Qed.

(* ---------- the filterbank block by block ---------- *)
Section Splitting.
Variable eps : R.
Lemma run_length {S A B} (step : S -> A -> outcome (S * B)) xs : forall s s' ys, run step s xs = Ok (s', ys) -> length ys = length xs.
Proof using. clear eps.
  induction xs as [|x xs IH]; intros s s' ys E; cbn [run] in E; [injection E as <- <-; reflexivity|]. apply obind_inv in E as ([s1 y] & _ & E). apply obind_inv in E as ([s2 r] & E2 & E). injection E as <- <-. cbn [length snd]. f_equal. eapply IH. exact E2.
Qed.
Lemma cascade_length : forall fl x fl' y, run_cascade eps fl x = Ok (fl', y) -> length y = length x.
Proof.
  induction fl as [|f fl IH]; intros x fl' y E; cbn [run_cascade] in E; [injection E as <- <-; reflexivity|]. apply obind_inv in E as ([f1 u] & E1 & E). apply obind_inv in E as ([fl2 v] & E2 & E). injection E as <- <-. cbn [snd] in *. rewrite (IH _ _ _ E2). apply run_length in E1. exact E1.
Qed.
Lemma stages_lengths : forall hp lp x h l b, run_stages eps hp lp x = Ok (h, l, b) -> Forall (fun y => length y = length x) b.
Proof.
  induction hp as [|hc hp IH]; intros [|lc lp] x h l b E; cbn [run_stages] in E; try (injection E as <- <- <-; constructor; [reflexivity|constructor]).
  apply obind_inv in E as ([h1 u] & E1 & E). apply obind_inv in E as ([l1 v] & E2 & E). apply obind_inv in E as ([[h2 l2] b2] & E3 & E). injection E as <- <- <-. cbn [fst snd] in *. apply cascade_length in E1. apply cascade_length in E2. constructor; [exact E2|]. rewrite <- E1. eapply IH. exact E3.
Qed.
Lemma allpass_lengths n : forall ap bands a b, run_allpass eps ap bands = Ok (a, b) -> Forall (fun y : list (list R) => length y = n) bands -> Forall (fun y => length y = n) b.
Proof.
  induction ap as [|c ap IH]; intros [|y bands] a b E F; cbn [run_allpass] in E; try (injection E as <- <-; exact F).
  apply obind_inv in E as ([c1 u] & E1 & E). apply obind_inv in E as ([ap2 v] & E2 & E). injection E as <- <-. cbn [fst snd] in *. apply cascade_length in E1. constructor; [rewrite E1; exact (Forall_inv F)|]. eapply IH; [exact E2|exact (Forall_inv_tail F)].
Qed.
(* the sizes of the vectors of filters, which no operation changes *)
Definition shaped (nb : nat) (s : splitter) : Prop :=
  (1 < nb)%nat /\ sp_bands s = nb /\ length (highpass_filters s) = (nb - 1)%nat /\ length (lowpass_filters s) = (nb - 1)%nat /\ length (allpass_filters s) = (nb - 2)%nat.
Lemma allpass_counts : forall ap bands a b, (length ap <= length bands)%nat -> run_allpass eps ap bands = Ok (a, b) -> length a = length ap /\ length b = length bands.
Proof.
  induction ap as [|c ap IH]; intros [|y bands] a b L E; cbn [run_allpass length] in *; try lia; try (injection E as <- <-; auto).
  apply obind_inv in E as ([c1 u] & E1 & E). apply obind_inv in E as ([ap2 v] & E2 & E). injection E as <- <-. cbn [fst snd length] in *. destruct (IH bands ap2 v ltac:(lia) E2). lia.
Qed.
Lemma split_lengths nb s x s' y : shaped nb s -> split_block eps s x = Ok (s', y) -> shaped nb s' /\ length y = nb /\ Forall (fun b => length b = length x) y.
Proof.
  intros (N & N0 & N1 & N2 & N3) E. unfold split_block in E. apply obind_inv in E as ([[h l] b] & R & E). apply obind_inv in E as ([a b'] & R' & E). cbn [fst snd] in *. injection E as <- <-.
  assert (N4 : length (highpass_filters s) = length (lowpass_filters s)) by lia. destruct (run_stages_length _ _ _ _ _ _ _ N4 R) as (LB & LH & LL). destruct (allpass_counts (allpass_filters s) b a b' ltac:(lia) R') as [LA LB'].
  split; [repeat split; cbn [sp_bands highpass_filters lowpass_filters allpass_filters]; lia|]. split; [lia|]. apply stages_lengths in R. now apply (allpass_lengths (length x)) in R'.
Qed.
Lemma nth_zip_app k : forall p q, length p = length q -> nth k (zip_app p q) [] = nth k p [] ++ nth k q [].
Proof.
  induction k as [|k IH]; intros [|a p] [|b q] H; cbn in H; try lia; try reflexivity. unfold zip_app in *. cbn [combine map nth]. apply IH. lia.
Qed.
(* one block cut into several *)
Lemma empty_bands nb s s2 y : shaped nb s -> split_block eps s [] = Ok (s2, y) -> forall k, nth k y [] = [].
Proof.
  intros F E k. destruct (split_lengths _ _ _ _ _ F E) as (_ & LY & FY). assert (Q : length (nth k y []) = 0%nat); [|destruct (nth k y []); [reflexivity|discriminate]].
  destruct (Nat.lt_ge_cases k (length y)) as [C|C]; [|now rewrite nth_overflow]. rewrite Forall_forall in FY. apply FY. now apply nth_In.
Qed.
(* one block cut into several *)
Lemma split_blocks nb : forall bs s s2 y, shaped nb s -> split_block eps s (concat bs) = Ok (s2, y) ->
  exists s' ys, run (split_block eps) s bs = Ok (s', ys) /\ forall k, concat (map (fun v => nth k v []) ys) = nth k y [].
Proof.
  induction bs as [|b bs IH]; intros s s2 y F E; cbn [concat] in E.
  - exists s, []. split; [reflexivity|]. intros k. symmetry. now apply (empty_bands nb s s2).
  - apply split_app in E as (s1 & y1 & y2 & E1 & E2 & ->). destruct (split_lengths _ _ _ _ _ F E1) as (F1 & L1 & Q1). destruct (split_lengths _ _ _ _ _ F1 E2) as (F2 & L2 & Q2).
    destruct (IH s1 s2 y2 F1 E2) as (s' & ys & R & D). exists s', (y1 :: ys). cbn [run]. rewrite E1. cbn [obind fst snd]. rewrite R. cbn [obind fst snd]. split; [reflexivity|].
    intros k. cbn [map concat]. rewrite D, nth_zip_app by lia. reflexivity.
Qed.
(* several blocks joined *)
Lemma join_blocks nb : forall bs b s s' ys, shaped nb s -> run (split_block eps) s (b :: bs) = Ok (s', ys) ->
  exists y, split_block eps s (concat (b :: bs)) = Ok (s', y).
Proof.
  induction bs as [|b2 bs IH]; intros b s s' ys F E; cbn [run] in E.
  - apply obind_inv in E as ([s1 y1] & E1 & E). injection E as <- <-. cbn [concat]. rewrite app_nil_r. eauto.
  - apply obind_inv in E as ([s1 y1] & E1 & E). apply obind_inv in E as ([s2 y2] & E2 & E). injection E as <- <-. cbn [fst snd] in *. destruct (split_lengths _ _ _ _ _ F E1) as (F1 & _).
    destruct (IH b2 s1 s2 y2 F1 E2) as (y & E3). exists (zip_app y1 y). change (concat (b :: b2 :: bs)) with (b ++ concat (b2 :: bs)). apply split_app. eauto 8.
Qed.
Lemma run_shapes nb : forall bs s s' ys, shaped nb s -> run (split_block eps) s bs = Ok (s', ys) ->
  shaped nb s' /\ Forall2 (fun b v => length v = nb /\ Forall (fun u => length u = length b) v) bs ys.
Proof.
  induction bs as [|b bs IH]; intros s s' ys F E; cbn [run] in E; [injection E as <- <-; split; [exact F|constructor]|].
  apply obind_inv in E as ([s1 y1] & E1 & E). apply obind_inv in E as ([s2 y2] & E2 & E). injection E as <- <-. cbn [fst snd] in *. destruct (split_lengths _ _ _ _ _ F E1) as (F1 & L & Q). destruct (IH _ _ _ F1 E2) as [A B]. split; [exact A|constructor; auto].
Qed.
End Splitting.

(* ---------- the controllers band by band ---------- *)
Section Bands.
Variable junk : nat -> nat -> list R.
Definition no_drc : drc := {| num_channels := 0; max_block := 0; params := default_params; change_needed := false; next_params := default_params;
  lookahead_delay := {| delay_samples := 0; last_frame := 0; last_request := 0; buffer := [] |}; detector := None |}.
Lemma process_drcs_ok : forall bands b ds r, length bands = length ds -> length r = length ds ->
  (forall k, (k < length ds)%nat -> drc_process (junk (b + k)) (nth k ds no_drc) (nth k bands []) (nth k bands []) = Ok (nth k r (no_drc, []))) ->
  process_drcs junk b ds bands = Ok (map fst r, map snd r).
Proof.
  induction bands as [|x bands IH]; intros b [|d ds] [|e r] L1 L2 H; cbn in L1, L2; try lia; cbn [process_drcs map]; [reflexivity|].
  pose proof (H O ltac:(cbn; lia)) as H0. cbn [nth] in H0. rewrite Nat.add_0_r in H0. rewrite H0. cbn [obind]. rewrite (IH (S b) ds r); [reflexivity|lia|lia|].
  intros k Hk. specialize (H (S k) ltac:(cbn; lia)). cbn [nth] in H. rewrite <- H. f_equal. f_equal. lia.
Qed.
Lemma process_drcs_inv : forall bands b ds ds' outs, process_drcs junk b ds bands = Ok (ds', outs) -> length bands = length ds ->
  length ds' = length ds /\ length outs = length ds /\ forall k, (k < length ds)%nat -> drc_process (junk (b + k)) (nth k ds no_drc) (nth k bands []) (nth k bands []) = Ok (nth k ds' no_drc, nth k outs []).
Proof.
  induction bands as [|x bands IH]; intros b [|d ds] ds' outs E L; cbn in L; try lia; cbn [process_drcs] in E.
  - injection E as <- <-. repeat split; auto. cbn. intros; lia.
  - apply obind_inv in E as ([d1 o1] & E1 & E). apply obind_inv in E as ([d2 o2] & E2 & E). injection E as <- <-. cbn [fst snd] in *. destruct (IH _ _ _ _ E2 ltac:(lia)) as (A & B & D). cbn [length]. split; [lia|]. split; [lia|].
    intros [|k] Hk; cbn [nth]; [now rewrite Nat.add_0_r|]. replace (b + S k)%nat with (S b + k)%nat by lia. apply D. lia.
Qed.
Lemma run_bands nb : forall ys ds, length ds = nb -> Forall (fun v => length v = nb) ys -> forall ends outs, length outs = nb -> length ends = nb ->
  (forall k, (k < nb)%nat -> run (drc_step (junk k)) (nth k ds no_drc) (map (fun v => Process (nth k v []) (nth k v [])) ys) = Ok (nth k ends no_drc, nth k outs [])) ->
  exists res, run (process_drcs junk 0) ds ys = Ok (ends, res) /\ length res = length ys /\ (forall j, (j < length ys)%nat -> length (nth j res []) = nb /\ forall k, (k < nb)%nat -> nth k (nth j res []) [] = nth j (nth k outs []) []).
Proof.
  induction ys as [|v ys IH]; intros ds LD F ends outs LO LE H.
  - exists []. cbn [run]. split; [|split; [reflexivity|cbn; intros; lia]]. do 2 f_equal. apply (nth_ext _ _ no_drc no_drc); [lia|]. intros k Hk. specialize (H k ltac:(lia)). cbn in H. congruence.
  - assert (G : forall k, (k < nb)%nat -> exists r, drc_process (junk k) (nth k ds no_drc) (nth k v []) (nth k v []) = Ok r /\ nth k outs [] = snd r :: tl (nth k outs []) /\
        run (drc_step (junk k)) (fst r) (map (fun v => Process (nth k v []) (nth k v [])) ys) = Ok (nth k ends no_drc, tl (nth k outs []))).
    { intros k Hk. specialize (H k Hk). cbn [map run drc_step] in H. apply obind_inv in H as (r & E1 & H). apply obind_inv in H as ([e o] & E2 & H). exists r. split; [exact E1|]. injection H as H1 H2. cbn [fst snd] in *. rewrite <- H2. cbn [tl]. split; [reflexivity|]. now rewrite E2, H1. }
    destruct (choose (fun k r => drc_process (junk k) (nth k ds no_drc) (nth k v []) (nth k v []) = Ok r /\ nth k outs [] = snd r :: tl (nth k outs []) /\
        run (drc_step (junk k)) (fst r) (map (fun v => Process (nth k v []) (nth k v [])) ys) = Ok (nth k ends no_drc, tl (nth k outs []))) (no_drc, []) nb G) as (rs & LR & HR).
    pose proof (Forall_inv F) as LV. cbn beta in LV.
    assert (P : process_drcs junk 0 ds v = Ok (map fst rs, map snd rs)) by (apply process_drcs_ok; [lia|lia|]; intros k Hk; apply (HR k); lia).
    destruct (IH (map fst rs) ltac:(rewrite map_length; lia) (Forall_inv_tail F) ends (map (@tl _) outs)) as (res & R & LS & A); [now rewrite map_length|exact LE| |].
    { intros k Hk. rewrite (nth_map_in fst rs k (no_drc, []) no_drc) by lia. rewrite (nth_map_in (@tl _) outs k [] []) by lia. apply (HR k Hk). }
    exists (map snd rs :: res). cbn [run]. rewrite P. cbn [obind fst snd]. rewrite R. cbn [obind fst snd]. split; [reflexivity|]. split; [cbn [length]; lia|]. intros [|j] Hj; cbn [nth length] in *.
    + split; [rewrite map_length; lia|]. intros k Hk. rewrite (nth_map_in snd rs k (no_drc, []) []) by lia. destruct (HR k Hk) as (_ & -> & _). reflexivity.
    + destruct (A j ltac:(lia)) as [A1 A2]. split; [exact A1|]. intros k Hk. rewrite A2 by exact Hk. rewrite (nth_map_in (@tl _) outs k [] []) by lia. destruct (nth k outs []); [destruct j; reflexivity|reflexivity].
Qed.
(* every block comes out with its own length *)
Lemma process_length k s i sc s' out : sound s -> drc_process (junk k) s i sc = Ok (s', out) -> length out = length i /\ sound s'.
Proof.
  intros HS E. pose proof (step_sound (junk k) s (Process i sc) s' out HS E) as HS'. split; [|exact HS']. pose proof (process_valid (junk k) s i sc _ E) as V. destruct HS as (_ & _ & HD).
  destruct (detector s) as [e|] eqn:ED; [|exfalso; destruct V as ((V1 & V2) & _); cbn [fst] in *; lia]. destruct HD as (d & h & HR).
  destruct (process_ready (junk k) s e d h i sc HR V) as (s1 & E1 & _). rewrite E in E1. injection E1 as _ ->. unfold scaled. rewrite map_length, combine_length. unfold env_values. rewrite Mealy.scan_length, map_length.
  destruct V as (_ & V & _). cbn [fst snd] in V. rewrite V, length_slice; [lia|]. rewrite !app_length. lia.
Qed.
Lemma run_lengths k : forall bs s s' outs, sound s -> run (drc_step (junk k)) s (process_all bs) = Ok (s', outs) -> Forall2 (fun b o => length o = length (fst b)) bs outs.
Proof.
  induction bs as [|[i sc] bs IH]; intros s s' outs HS E; cbn [process_all map run drc_step fst snd] in E; [injection E as <- <-; constructor|].
  apply obind_inv in E as ([s1 o] & E1 & E). apply obind_inv in E as ([s2 r] & E2 & E). injection E as <- <-. cbn [fst snd] in *. destruct (process_length _ _ _ _ _ _ HS E1) as [L HS1]. constructor; [exact L|]. eapply IH; [exact HS1|exact E2].
Qed.
End Bands.
