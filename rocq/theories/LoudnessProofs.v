From Verif Require Import Common ListLemmas Mealy RealUtil NthLemmas BiquadModel BiquadSpec BiquadProofs LoudnessModel LoudnessSpec DesignModel.
From Coq Require Import Lra.

(* interleaved samples *)
Lemma columns_frames {F} n frames : forall (rest : list F), Forall (fun fr => length fr = n) frames ->
  columns n (length frames) (concat frames ++ rest) = frames.
Proof.
  intros rest HF. unfold columns. apply nth_ext with (d := []) (d' := []); [now rewrite map_length, seq_length|].
  rewrite map_length, seq_length. intros j Hj. rewrite (nth_indep _ _ (slice (0 * n) n (concat frames ++ rest))) by (now rewrite map_length, seq_length).
  rewrite (map_nth (fun j => slice (j * n) n (concat frames ++ rest))), seq_nth by exact Hj. cbn [Nat.add].
  revert j Hj. induction HF as [|fr frames Hfr HF IH]; intros j Hj; [cbn in Hj; lia|].
  destruct j as [|j]; unfold slice in *; cbn [concat nth].
  - cbn [Nat.mul skipn]. rewrite <- app_assoc, <- Hfr. rewrite firstn_app, Nat.sub_diag, firstn_all, firstn_O, app_nil_r. reflexivity.
  - cbn [length] in Hj. rewrite <- (IH j) by lia. cbn [Nat.mul]. rewrite <- app_assoc.
    replace (n + j * n) with (length fr + j * n) by lia. rewrite skipn_app, skipn_all2 by lia. cbn [app]. f_equal. f_equal. lia.
Qed.
Lemma frames_count {F} n (frames : list (list F)) (rest : list F) : 1 <= n -> Forall (fun fr => length fr = n) frames -> length rest < n ->
  length (concat frames ++ rest) / n = length frames.
Proof.
  intros Hn HF HR. assert (E : length (concat frames) = length frames * n).
  { induction HF as [|fr frames Hfr HF IH]; [reflexivity|]. cbn [concat length]. rewrite app_length, IH, Hfr. lia. }
  rewrite app_length, E, Nat.add_comm, Nat.div_add, Nat.div_small by lia. lia.
Qed.

(* ---- any arithmetic ---- *)
Section Any.
Context {F D : Type} (zero one : F) (add sub mul div : F -> F -> F) (is_zero : F -> bool)
        (colsum : list F -> F) (db : F -> D).
Notation ps := (pure_sample add sub mul).
Notation mblock := (meter_block zero add sub mul colsum db).
Notation cp := (column_power mul colsum).

Definition mstep (m : meter F) (fr : list F) : meter F * D :=
  let p := chain ps (k_filter m) fr in
  let q := ps (averager m) [cp (weights m) (snd p)] in
  ({| weights := weights m; k_filter := fst p; averager := fst q |}, db (hd zero (snd q))).
Lemma mscan frames : forall m, scan mstep m frames =
  let p := chain_scan ps (k_filter m) frames in
  let q := scan ps (averager m) (map (fun fr => [cp (weights m) fr]) (snd p)) in
  ({| weights := weights m; k_filter := fst p; averager := fst q |}, map (fun fr => db (hd zero fr)) (snd q)).
Proof.
  cbv zeta. induction frames as [|fr frames IH]; intros m.
  - rewrite <- scan_chain. cbn. now destruct m.
  - cbn [scan]. rewrite IH. cbn [mstep fst snd weights k_filter averager]. rewrite <- !scan_chain. cbn [scan fst snd map]. reflexivity.
Qed.
Definition good (n : nat) (m : meter F) : Prop :=
  1 <= n /\ length (weights m) = n /\ 1 <= length (k_filter m) /\ Forall (wf n) (k_filter m) /\ wf 1 (averager m).
Lemma mblock_ok n m frames : good n m -> Forall (fun fr => length fr = n) frames ->
  mblock n m frames = Ok (scan mstep m frames) /\ good n (fst (scan mstep m frames)).
Proof.
  intros (H1 & H2 & H3 & H4 & H5) HF. unfold meter_block.
  replace (forallb (fun fr => length fr =? n) frames) with true
    by (symmetry; apply forallb_forall; intros fr Hfr; rewrite Forall_forall in HF; apply Nat.eqb_eq, HF, Hfr).
  cbn [oguard]. unfold cascade_block. replace (1 <=? length (k_filter m)) with true by lia. cbn [oguard].
  destruct (stages_block_ok add sub mul n (k_filter m) frames H1 H4 HF) as (A & B & _). rewrite A. cbn [obind fst snd].
  rewrite H2, Nat.leb_refl. cbn [oguard].
  destruct (block_ok add sub mul 1 (averager m) (map (fun fr => [cp (weights m) fr]) (snd (chain_scan ps (k_filter m) frames)))) as (C & W & _);
    [lia|exact H5|apply Forall_forall; intros fr Hfr; apply in_map_iff in Hfr as (? & <- & _); reflexivity|].
  rewrite C. cbn [obind fst snd]. rewrite mscan. cbn [fst]. split; [reflexivity|].
  unfold good. cbn [weights k_filter averager]. rewrite chain_scan_length. auto.
Qed.
Lemma mblocks_ok n m blocks : good n m -> Forall (Forall (fun fr => length fr = n)) blocks ->
  exists outs, run (mblock n) m blocks = Ok (fst (scan mstep m (concat blocks)), outs) /\
    concat outs = snd (scan mstep m (concat blocks)) /\ map (@length _) outs = map (@length _) blocks.
Proof.
  intros G HF. destruct (run_scan (mblock n) (scan mstep) (good n) (Forall (fun fr => length fr = n))) with (xs := blocks) (s := m) as [E I]; auto.
  { intros s x Hs Hx. apply mblock_ok; auto. }
  destruct (scan_blocks mstep blocks m) as (B1 & B2 & B3). exists (snd (scan (scan mstep) m blocks)).
  split; [rewrite E, (surjective_pairing (scan (scan mstep) m blocks)), B1; reflexivity|]. auto.
Qed.
(* what Init leaves behind *)
Lemma minit_inv m ws av nz ks m' : meter_init zero one mul div is_zero m ws av nz ks = Ok (m', true) ->
  exists n, nz = Z.of_nat n /\ length ws = n /\ 1 <= n /\ 1 <= length ks /\ weights m' = ws /\
    Forall2 (fun c f => biquad_init zero one mul div is_zero n c = Ok f) ks (k_filter m') /\
    biquad_init zero one mul div is_zero 1 av = Ok (averager m') /\ good n m'.
Proof using zero one mul div is_zero.
  clear add sub colsum db.
  unfold meter_init. destruct (Z.eqb_spec (Z.of_nat (length ws)) nz) as [E|]; cbn [negb]; [|discriminate]. subst nz. rewrite Nat2Z.id.
  unfold cascade_init. destruct ((1 <=? length ws) && (1 <=? length ks)) eqn:C; cbn [oguard obind]; [|discriminate].
  apply andb_prop in C as [C1 C2]. apply Nat.leb_le in C1, C2.
  destruct (init_stages zero one mul div is_zero (length ws) ks) as [fs| |] eqn:E1; cbn [obind]; try discriminate.
  destruct (biquad_init zero one mul div is_zero 1 av) as [a| |] eqn:E2; cbn [obind]; try discriminate.
  intros H. injection H as <-. exists (length ws). cbn [weights k_filter averager].
  pose proof (init_stages_inv zero one mul div is_zero _ _ _ E1) as H2.
  assert (HL : length ks = length fs) by (clear -H2; induction H2; cbn [length]; lia).
  assert (HW : Forall (wf (length ws)) fs).
  { clear -H2. induction H2 as [|c f cs fs H HR IH]; constructor; [|exact IH]. exact (proj1 (proj2 (proj2 (init_inv zero one mul div is_zero _ c f H)))). }
  pose proof (proj1 (proj2 (proj2 (init_inv zero one mul div is_zero _ _ _ E2)))) as WA.
  unfold good. cbn [weights k_filter averager]. do 7 (split; [solve [auto|lia]|]). repeat (split; [solve [auto|lia]|]). auto.
Qed.
Lemma mreset_ok m ws av nz ks m' n frames : meter_init zero one mul div is_zero m ws av nz ks = Ok (m', true) ->
  nz = Z.of_nat n -> Forall (fun fr => length fr = n) frames ->
  meter_reset zero (fst (scan mstep m' frames)) = Ok m'.
Proof.
  intros HI Hn HF. destruct (minit_inv _ _ _ _ _ _ HI) as (n' & E & Hl & H1 & H2 & Hw & HK & HA & G). assert (Q : n' = n) by lia. rewrite Q in HK, Hl, H1.
  rewrite mscan. unfold meter_reset. cbn [k_filter averager weights fst].
  rewrite (reset_cascade zero one add sub mul div is_zero n ks (k_filter m') HK frames HF). cbn [obind].
  rewrite (reset_scan zero one add sub mul div is_zero 1 av (averager m') _ HA) by (apply Forall_forall; intros fr Hfr; apply in_map_iff in Hfr as (? & <- & _); reflexivity).
  cbn [obind]. now destruct m'.
Qed.
End Any.

(* ---- real numbers ---- *)
Local Open Scope R_scope.
Notation rmblock := (meter_block 0 Rplus Rminus Rmult rsum loudness_db).
Notation rminit := (meter_init 0 1 Rmult Rdiv (fun v => Reqb v 0)).
Notation rps := (pure_sample Rplus Rminus Rmult).
Notation rstep := (mstep 0 Rplus Rminus Rmult rsum loudness_db).
Notation rfilters := (filters 0 Rplus Rminus Rmult).
Notation rcfilters := (cascade_filters 0 Rplus Rminus Rmult).

Lemma column_power_spec ws : forall fr, column_power Rmult rsum ws fr = weighted_power ws fr.
Proof.
  unfold column_power, rsum. induction ws as [|w ws IH]; intros [|x fr]; cbn [combine map fold_right weighted_power]; try reflexivity.
  rewrite IH. cbn [fst snd]. ring.
Qed.
Lemma Reqb_zero x : Reqb x 0 = true <-> x = 0.
Proof. destruct (Reqb_spec x 0); split; intros; auto; discriminate. Qed.
Lemma chain_filtered n ks fs : Forall2 (fun c f => biquad_init 0 1 Rmult Rdiv (fun v => Reqb v 0) n c = Ok f) ks fs ->
  forall frames, Forall (fun fr => length fr = n) frames -> frames_filtered n ks frames (snd (chain_scan rps fs frames)).
Proof.
  induction 1 as [|c f ks fs HI HR IH]; intros frames HF.
  - cbn. split; [reflexivity|]. split; [exact HF|reflexivity].
  - cbn [chain_scan snd]. destruct (init_inv 0 1 Rmult Rdiv _ n c f HI) as (Hn & HZ & HW & _ & _ & _ & _ & _ & HR0).
    destruct (block_ok Rplus Rminus Rmult n f frames Hn HW HF) as (_ & _ & L). destruct (IH _ L) as (I1 & I2 & I3).
    split; [rewrite I1; apply scan_length|]. split; [exact I2|]. intros i Hi. exists (channel 0 i (snd (scan rps f frames))). split; [|exact (I3 i Hi)].
    destruct (channel_scan 0 Rplus Rminus Rmult n i frames f HW HF Hi) as [_ E]. rewrite E, HR0, nth_repeat.
    exact (init_filters 0 1 Rplus Rmult Rminus Ropp Rdiv Rinv Rfield (fun v => Reqb v 0) Reqb_zero n c f _ HI).
Qed.
Lemma averaged n c a powers : biquad_init 0 1 Rmult Rdiv (fun v => Reqb v 0) n c = Ok a -> n = 1%nat ->
  rfilters c powers (map (hd 0) (snd (scan rps a (map (fun p => [p]) powers)))).
Proof.
  intros HI ->. destruct (init_inv 0 1 Rmult Rdiv _ 1 c a HI) as (Hn & HZ & HW & _ & _ & _ & _ & _ & HR0).
  assert (HF : Forall (fun fr => length fr = 1%nat) (map (fun p : R => [p]) powers)) by (apply Forall_forall; intros fr Hfr; apply in_map_iff in Hfr as (? & <- & _); reflexivity).
  destruct (channel_scan 0 Rplus Rminus Rmult 1 0 _ a HW HF ltac:(lia)) as [_ E].
  assert (C : forall l, map (hd 0) l = channel 0 0 l) by (intros l; apply map_ext; intros [|]; reflexivity).
  rewrite C, E, HR0. cbn [repeat nth].
  assert (C2 : channel 0 0 (map (fun p => [p]) powers) = powers) by (unfold channel; rewrite map_map; apply map_id). rewrite C2.
  exact (init_filters 0 1 Rplus Rmult Rminus Ropp Rdiv Rinv Rfield (fun v => Reqb v 0) Reqb_zero 1 c a _ HI).
Qed.
Lemma meter_formula m ws av nz ks m' n frames : rminit m ws av nz ks = Ok (m', true) -> nz = Z.of_nat n ->
  Forall (fun fr => length fr = n) frames ->
  exists y p, frames_filtered n ks frames y /\ rfilters av (map (weighted_power ws) y) p /\
    snd (scan rstep m' frames) = map loudness_db p.
Proof.
  intros HI Hn HF. destruct (minit_inv 0 1 Rmult Rdiv (fun v => Reqb v 0) _ _ _ _ _ _ HI) as (n' & E & Hl & H1 & H2 & Hw & HK & HA & G). assert (Q : n' = n) by lia. rewrite Q in HK, Hl, H1.
  exists (snd (chain_scan rps (k_filter m') frames)). eexists. split; [exact (chain_filtered n ks _ HK frames HF)|].
  split; [exact (averaged 1 av (averager m') _ HA eq_refl)|]. rewrite mscan. cbn [snd]. rewrite Hw, !map_map.
  assert (M : map (fun fr => [column_power Rmult rsum ws fr]) (snd (chain_scan rps (k_filter m') frames)) =
              map (fun p => [weighted_power ws p]) (snd (chain_scan rps (k_filter m') frames))).
  { apply map_ext. intros fr. now rewrite column_power_spec. }
  rewrite M. reflexivity.
Qed.

(* uniqueness and scaling *)
Lemma cascade_unique cs : Forall (fun c => a0 c <> 0) cs -> forall x y y', rcfilters cs x y -> rcfilters cs x y' -> y = y'.
Proof.
  induction 1 as [|c cs Hc HC IH]; intros x y y'; cbn [cascade_filters]; [congruence|].
  intros (w & H1 & H2) (w' & H1' & H2').
  assert (w = w') by exact (difference_unique 0 1 Rplus Rmult Rminus Ropp Rdiv Rinv Rfield c Hc x 0 0 0 0 w w' H1 H1').
  subst w'. exact (IH _ _ _ H2 H2').
Qed.
Lemma difference_scale c g x : forall x1 x2 y1 y2 y, difference_equation Rplus Rminus Rmult c x1 x2 y1 y2 x y ->
  difference_equation Rplus Rminus Rmult c (g * x1) (g * x2) (g * y1) (g * y2) (map (Rmult g) x) (map (Rmult g) y).
Proof.
  induction x as [|u x IH]; intros x1 x2 y1 y2 [|v y] H; cbn [difference_equation map] in *; try contradiction; auto.
  destruct H as [H1 H2]. split; [|exact (IH _ _ _ _ _ H2)].
  transitivity (g * (a0 c * v)); [ring|]. rewrite H1. ring.
Qed.
Lemma filters_scale c g x y : rfilters c x y -> rfilters c (map (Rmult g) x) (map (Rmult g) y).
Proof. unfold filters. intros H. apply (difference_scale c g) in H. rewrite Rmult_0_r in H. exact H. Qed.
Lemma cascade_scale g cs : forall x y, rcfilters cs x y -> rcfilters cs (map (Rmult g) x) (map (Rmult g) y).
Proof.
  induction cs as [|c cs IH]; intros x y; cbn [cascade_filters]; [intros ->; reflexivity|].
  intros (w & H1 & H2). exists (map (Rmult g) w). split; [apply filters_scale, H1|apply IH, H2].
Qed.
Lemma filters_length c x : forall x1 x2 y1 y2 y, difference_equation Rplus Rminus Rmult c x1 x2 y1 y2 x y -> length x = length y.
Proof. induction x as [|u x IH]; intros ? ? ? ? [|v y] H; cbn [difference_equation] in *; try contradiction; auto. destruct H as [_ H]. cbn. f_equal. eapply IH, H. Qed.
Lemma channel_scale n i g frames : (i < n)%nat -> Forall (fun fr => length fr = n) frames ->
  channel 0 i (map (map (Rmult g)) frames) = map (Rmult g) (channel 0 i frames).
Proof.
  intros Hi HF. unfold channel. rewrite !map_map. apply map_ext_in. intros fr Hfr. rewrite Forall_forall in HF. specialize (HF fr Hfr).
  rewrite <- (Rmult_0_r g) at 1. apply map_nth.
Qed.
Lemma frames_eq n (y y' : list (list R)) : Forall (fun fr => length fr = n) y -> Forall (fun fr => length fr = n) y' -> length y = length y' ->
  (forall i, (i < n)%nat -> channel 0 i y = channel 0 i y') -> y = y'.
Proof.
  intros H H' L E. apply nth_ext with (d := []) (d' := []); [exact L|]. intros k Hk. rewrite Forall_forall in H, H'.
  assert (K1 : length (nth k y []) = n) by (apply H, nth_In, Hk). assert (K2 : length (nth k y' []) = n) by (apply H', nth_In; lia).
  apply nth_ext with (d := 0) (d' := 0); [congruence|]. intros i Hi. rewrite K1 in Hi. specialize (E i Hi). unfold channel in E.
  assert (Q : forall l, (k < length l)%nat -> nth k (map (fun fr => nth i fr 0) l) 0 = nth i (nth k l []) 0).
  { intros l Hkl. rewrite (nth_indep _ _ (nth i [] 0)) by (rewrite map_length; exact Hkl). apply (map_nth (fun fr => nth i fr 0)). }
  rewrite <- !Q by lia. now rewrite E.
Qed.
Lemma filtered_unique n cs x y y' : Forall (fun c => a0 c <> 0) cs -> frames_filtered n cs x y -> frames_filtered n cs x y' -> y = y'.
Proof.
  intros HC (L & W & H) (L' & W' & H'). apply (frames_eq n); auto; [congruence|]. intros i Hi. exact (cascade_unique cs HC _ _ _ (H i Hi) (H' i Hi)).
Qed.
Lemma filtered_scale n cs g x y : Forall (fun fr => length fr = n) x -> frames_filtered n cs x y -> frames_filtered n cs (map (map (Rmult g)) x) (map (map (Rmult g)) y).
Proof.
  intros HX (L & W & H). split; [now rewrite !map_length|]. split.
  - apply Forall_forall. intros fr Hfr. apply in_map_iff in Hfr as (fr' & <- & Hfr). rewrite map_length. rewrite Forall_forall in W. apply W, Hfr.
  - intros i Hi. rewrite !(channel_scale n) by auto. apply cascade_scale, H, Hi.
Qed.
Lemma weighted_scale g ws : forall fr, weighted_power ws (map (Rmult g) fr) = g * g * weighted_power ws fr.
Proof. induction ws as [|w ws IH]; intros [|x fr]; cbn [weighted_power map]; try ring. rewrite IH. ring. Qed.
Lemma init_stages_a0 n ks fs : Forall2 (fun c f => biquad_init 0 1 Rmult Rdiv (fun v => Reqb v 0) n c = Ok f) ks fs -> Forall (fun c => a0 c <> 0) ks.
Proof.
  induction 1 as [|c f ks fs HI HR IH]; constructor; [|exact IH]. destruct (init_inv 0 1 Rmult Rdiv _ n c f HI) as (_ & HZ & _).
  intros E. apply Reqb_zero in E. congruence.
Qed.

(* exponential averages *)
Lemma average_filters c x : forall p0, difference_equation Rplus Rminus Rmult {| b0 := c; b1 := 0; b2 := 0; a0 := 1; a1 := c - 1; a2 := 0 |} 0 0 p0 0 x (exponential_average c p0 x) /\
  forall x1 x2 p1, difference_equation Rplus Rminus Rmult {| b0 := c; b1 := 0; b2 := 0; a0 := 1; a1 := c - 1; a2 := 0 |} x1 x2 p0 p1 x (exponential_average c p0 x).
Proof.
  induction x as [|v x IH]; intros p0; [split; [exact I|intros; exact I]|]. cbn [exponential_average difference_equation b0 b1 b2 a0 a1 a2].
  split; [|intros x1 x2 p1]; (split; [ring|apply IH]).
Qed.
Lemma average_unique t fs x p : rfilters (first_order_lowpass t fs) x p -> p = exponential_average (first_order_coefficient t fs) 0 x.
Proof.
  intros H. symmetry. refine (difference_unique 0 1 Rplus Rmult Rminus Ropp Rdiv Rinv Rfield (first_order_lowpass t fs) _ x 0 0 0 0 _ _ _ H).
  - cbn. lra.
  - apply average_filters.
Qed.
Lemma average_range c lo hi x : 0 <= c <= 1 -> Forall (fun v => lo <= v <= hi) x -> forall p0, lo <= p0 <= hi ->
  Forall (fun v => lo <= v <= hi) (exponential_average c p0 x).
Proof.
  intros Hc H. induction H as [|v x Hv H IH]; intros p0 Hp; constructor.
  - nra.
  - apply IH. nra.
Qed.
Lemma weighted_nonneg ws : Forall (fun w => 0 <= w) ws -> forall fr, 0 <= weighted_power ws fr.
Proof.
  induction 1 as [|w ws Hw H IH]; intros [|x fr]; cbn [weighted_power]; try lra. specialize (IH fr). pose proof (Rle_0_sqr x). unfold Rsqr in *. nra.
Qed.
Lemma weighted_ext ws : forall fr fr', length fr = length fr' -> (forall i, nth i ws 0 <> 0 -> nth i fr 0 = nth i fr' 0) -> weighted_power ws fr = weighted_power ws fr'.
Proof.
  induction ws as [|w ws IH]; intros [|x fr] [|x' fr'] L H; cbn [weighted_power length] in *; try lia; auto.
  rewrite (IH fr fr') by (try lia; intros i Hi; exact (H (S i) Hi)). destruct (Req_dec w 0) as [->|N]; [ring|]. specialize (H 0%nat N). cbn in H. rewrite H. reflexivity.
Qed.
