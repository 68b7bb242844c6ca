(* C76: the streaming loudness meter (StreamingLoudness1771). *)
From Verif Require Import Common ListLemmas Mealy RealUtil NthLemmas BiquadModel BiquadSpec BiquadProofs DesignModel DesignSpec CascadeSpec SteadySpec SteadyProofs
  LoudnessModel LoudnessSpec LoudnessProofs LoudnessProofs2.
From Coq Require Import Lra Lia Reals.

(* Init returns false exactly when the number of weights is not the number of channels. *)
Theorem C76_init : forall (F : Type) (zero one : F) (mul div : F -> F -> F) (is_zero : F -> bool)
    (m : meter F) (ws : list F) (av : coeffs F) (n : Z) (ks : list (coeffs F)),
  (Z.of_nat (length ws) <> n ->
     exists m', meter_init zero one mul div is_zero m ws av n ks = Ok (m', false)) /\
  (forall m' b, meter_init zero one mul div is_zero m ws av n ks = Ok (m', b) -> (b = true <-> Z.of_nat (length ws) = n)) /\
  (Z.of_nat (length ws) = n -> (0 < n)%Z -> ks <> nil -> Forall (fun c => is_zero (a0 c) = false) (av :: ks) ->
     exists m', meter_init zero one mul div is_zero m ws av n ks = Ok (m', true)).
Proof.
  intros F zero one mul div is_zero m ws av n ks. unfold meter_init. destruct (Z.eqb_spec (Z.of_nat (length ws)) n) as [E|N]; cbn [negb].
  - split; [congruence|]. split.
    + intros m' b. destruct (cascade_init _ _ _ _ _ _ _); cbn [obind]; try discriminate. destruct (biquad_init _ _ _ _ _ _ _); cbn [obind]; try discriminate.
      intros H. injection H as _ <-. tauto.
    + intros _ Hn Hk HF. inversion HF as [|? ? Ha HK]; subst. rewrite Nat2Z.id.
      assert (B : forall k c, (1 <= k)%nat -> is_zero (a0 c) = false -> exists f, biquad_init zero one mul div is_zero k c = Ok f).
      { intros k c Hk1 Hc. unfold biquad_init. replace (1 <=? k) with true by lia. rewrite Hc. cbn. eauto. }
      assert (S : exists fs, init_stages zero one mul div is_zero (length ws) ks = Ok fs).
      { clear -HK B Hn. induction HK as [|c ks Hc HK IH]; [eexists; reflexivity|]. cbn [init_stages]. destruct (B (length ws) c ltac:(lia) Hc) as [f ->]. destruct IH as [fs ->]. cbn. eauto. }
      unfold cascade_init. replace (1 <=? length ws) with true by lia. replace (1 <=? length ks) with true by (destruct ks; [congruence|cbn; lia]).
      cbn [andb oguard]. destruct S as [fs ->]. cbn [obind]. destruct (B 1%nat av ltac:(lia) Ha) as [a ->]. cbn. eauto.
  - split; [eauto|]. split; [|congruence]. intros m' b H. injection H as _ <-. split; [discriminate|congruence].
Qed.
Print Assumptions C76_init.

(* One value per frame, the same for every way of cutting the signal into blocks, for any arithmetic;
   Reset makes the meter as it was after Init. *)
Theorem C76_blocks : forall (F D : Type) (zero one : F) (add sub mul div : F -> F -> F) (is_zero : F -> bool) (colsum : list F -> F) (db : F -> D)
    (m m' : meter F) (ws : list F) (av : coeffs F) (n : nat) (ks : list (coeffs F)) (blocks : list (list (list F))),
  meter_init zero one mul div is_zero m ws av (Z.of_nat n) ks = Ok (m', true) ->
  Forall (Forall (fun fr => length fr = n)) blocks ->
  exists m'' outs out,
    run (meter_block zero add sub mul colsum db n) m' blocks = Ok (m'', outs) /\
    meter_block zero add sub mul colsum db n m' (concat blocks) = Ok (m'', out) /\
    concat outs = out /\ map (@length _) outs = map (@length _) blocks /\
    meter_reset zero m'' = Ok m'.
Proof.
  intros F D zero one add sub mul div is_zero colsum db m m' ws av n ks blocks HI HF.
  destruct (minit_inv zero one mul div is_zero _ _ _ _ _ _ HI) as (n' & E & _ & _ & _ & _ & _ & _ & G). assert (Q : n' = n) by lia. rewrite Q in G.
  destruct (mblocks_ok zero one add sub mul div is_zero colsum db n m' blocks G HF) as (outs & R1 & R2 & R3).
  destruct (mblock_ok zero one add sub mul div is_zero colsum db n m' (concat blocks) G (Forall_concat _ _ HF)) as (B & _).
  eexists _, outs, _. split; [exact R1|]. split; [rewrite B; apply f_equal, surjective_pairing|]. split; [exact R2|]. split; [exact R3|].
  exact (mreset_ok zero one add sub mul div is_zero colsum db m ws av _ ks m' n (concat blocks) HI eq_refl (Forall_concat _ _ HF)).
Qed.
Print Assumptions C76_blocks.

(* ProcessVector takes interleaved samples and ignores an incomplete last frame. *)
Theorem C76_vector : forall (F D : Type) (zero one : F) (add sub mul div : F -> F -> F) (is_zero : F -> bool) (colsum : list F -> F) (db : F -> D)
    (m m' : meter F) (ws : list F) (av : coeffs F) (n : nat) (ks : list (coeffs F)) (frames : list (list F)) (rest : list F),
  meter_init zero one mul div is_zero m ws av (Z.of_nat n) ks = Ok (m', true) ->
  Forall (fun fr => length fr = n) frames -> (length rest < n)%nat ->
  meter_vector zero add sub mul colsum db m' (concat frames ++ rest) = meter_block zero add sub mul colsum db n m' frames.
Proof.
  intros F D zero one add sub mul div is_zero colsum db m m' ws av n ks frames rest HI HF HR.
  destruct (minit_inv zero one mul div is_zero _ _ _ _ _ _ HI) as (n' & E & Hl & H1 & _ & Hw & _). assert (Q : n' = n) by lia. rewrite Q in *.
  unfold meter_vector. rewrite Hw, Hl. replace (1 <=? n)%nat with true by lia. cbn [oguard].
  rewrite (frames_count n frames rest H1 HF HR), columns_frames by exact HF. reflexivity.
Qed.
Print Assumptions C76_vector.

(* A refused Init has already replaced the weights: a working two-channel meter then reads outside them. *)
Theorem C76_failed_init_refuted : exists (m m' m'' : meter R) (blocks : list (list R)),
  meter_init 0%R 1%R Rmult Rdiv (fun v => Reqb v 0) (meter_new 0%R) [1%R; 1%R] (first_order_lowpass 1 1) 2 [{| b0 := 1%R; b1 := 0%R; b2 := 0%R; a0 := 1%R; a1 := 0%R; a2 := 0%R |}] = Ok (m, true) /\
  is_ok (meter_block 0%R Rplus Rminus Rmult rsum loudness_db 2 m blocks) = true /\
  meter_init 0%R 1%R Rmult Rdiv (fun v => Reqb v 0) m [1%R] (first_order_lowpass 1 1) 2 [{| b0 := 1%R; b1 := 0%R; b2 := 0%R; a0 := 1%R; a1 := 0%R; a2 := 0%R |}] = Ok (m', false) /\
  meter_block 0%R Rplus Rminus Rmult rsum loudness_db 2 m' blocks = Undef.
Proof.
  set (id := {| b0 := 1%R; b1 := 0%R; b2 := 0%R; a0 := 1%R; a1 := 0%R; a2 := 0%R |}).
  assert (E : exists m, meter_init 0%R 1%R Rmult Rdiv (fun v => Reqb v 0) (meter_new 0%R) [1%R; 1%R] (first_order_lowpass 1 1) 2 [id] = Ok (m, true)).
  { apply C76_init; cbn; auto; try lia; [discriminate|]. constructor; [|constructor; [|constructor]]; cbn; destruct (Reqb_spec 1 0); try lra; reflexivity. }
  destruct E as [m E]. exists m. eexists. exists m, [[1%R; 1%R]]. split; [exact E|].
  pose proof (minit_inv 0%R 1%R Rmult Rdiv (fun v => Reqb v 0) _ _ _ _ _ _ E) as (n & En & _ & _ & _ & Hw & HK & HA & G). assert (Q : n = 2%nat) by lia. rewrite Q in *.
  assert (HF : Forall (fun fr : list R => length fr = 2%nat) [[1%R; 1%R]]) by (constructor; [reflexivity|constructor]).
  split; [|split; [reflexivity|]].
  - destruct (mblock_ok 0%R 1%R Rplus Rminus Rmult Rdiv (fun v => Reqb v 0) rsum loudness_db 2 m [[1%R; 1%R]] G HF) as (B & _). rewrite B. reflexivity.
  - destruct G as (G1 & G2 & G3 & G4 & G5). unfold meter_block. cbn [forallb length Nat.eqb andb oguard k_filter weights].
    unfold cascade_block. replace (1 <=? length (k_filter m)) with true by lia. cbn [oguard].
    destruct (stages_block_ok Rplus Rminus Rmult 2 (k_filter m) [[1%R; 1%R]] G1 G4 HF) as (A & _). rewrite A. reflexivity.
Qed.
Print Assumptions C76_failed_init_refuted.

Local Open Scope R_scope.
Notation rmblock := (meter_block 0 Rplus Rminus Rmult rsum loudness_db).
Notation rminit := (meter_init 0 1 Rmult Rdiv (fun v => Reqb v 0)).

(* Over the real numbers: K-weight every channel, add the weighted squares, average, convert to decibels. *)
Theorem C76_formula m ws av n ks m' blocks : rminit m ws av (Z.of_nat n) ks = Ok (m', true) ->
  Forall (Forall (fun fr => length fr = n)) blocks ->
  exists m'' outs y p, run (rmblock n) m' blocks = Ok (m'', outs) /\
    frames_filtered n ks (concat blocks) y /\ filters 0 Rplus Rminus Rmult av (map (weighted_power ws) y) p /\
    concat outs = map loudness_db p.
Proof.
  intros HI HF. destruct (minit_inv 0 1 Rmult Rdiv (fun v => Reqb v 0) _ _ _ _ _ _ HI) as (n' & E & _ & _ & _ & _ & _ & _ & G). assert (Q : n' = n) by lia. rewrite Q in G.
  destruct (mblocks_ok 0 1 Rplus Rminus Rmult Rdiv (fun v => Reqb v 0) rsum loudness_db n m' blocks G HF) as (outs & R1 & R2 & _).
  destruct (meter_formula m ws av _ ks m' n (concat blocks) HI eq_refl (Forall_concat _ _ HF)) as (y & p & F1 & F2 & F3).
  eexists _, outs, y, p. split; [exact R1|]. split; [exact F1|]. split; [exact F2|]. now rewrite R2.
Qed.
Print Assumptions C76_formula.

(* With the averaging filter of the ready-made parameters the power is an exponential average; with
   non-negative weights it is a power: never NaN, and at most the largest weighted power. *)
Theorem C76_average m ws t fs n ks m' blocks B : 0 < t * fs -> Forall (fun w => 0 <= w) ws ->
  rminit m ws (first_order_lowpass t fs) (Z.of_nat n) ks = Ok (m', true) ->
  Forall (Forall (fun fr => length fr = n)) blocks ->
  exists m'' outs y p, run (rmblock n) m' blocks = Ok (m'', outs) /\ frames_filtered n ks (concat blocks) y /\
    p = exponential_average (1 - exp (-1 / (t * fs))) 0 (map (weighted_power ws) y) /\ concat outs = map loudness_db p /\
    Forall (fun v => 0 <= v) p /\
    (0 <= B -> Forall (fun fr => weighted_power ws fr <= B) y -> Forall (fun v => v <= B) p).
Proof.
  intros Ht HW HI HF. destruct (C76_formula m ws _ n ks m' blocks HI HF) as (m'' & outs & y & p & R1 & F1 & F2 & F3).
  exists m'', outs, y, p. split; [exact R1|]. split; [exact F1|]. apply average_unique in F2.
  destruct (first_order_stable t fs Ht) as [_ Hc]. unfold first_order_coefficient in *. split; [exact F2|]. split; [exact F3|].
  assert (P : forall b, 0 <= b -> Forall (fun fr => weighted_power ws fr <= b) y -> Forall (fun v => 0 <= v <= b) p).
  { intros b Hb Hy. rewrite F2. apply average_range; [lra| |lra]. apply Forall_forall. intros v Hv. apply in_map_iff in Hv as (fr & <- & Hfr).
    rewrite Forall_forall in Hy. split; [apply weighted_nonneg, HW|apply Hy, Hfr]. }
  split.
  - assert (X : exists b, 0 <= b /\ Forall (fun fr => weighted_power ws fr <= b) y).
    { clear. induction y as [|fr y [b [H1 H2]]]; [exists 0; split; [lra|constructor]|].
      exists (Rmax b (weighted_power ws fr)). split; [eapply Rle_trans; [exact H1|apply Rmax_l]|]. constructor; [apply Rmax_r|].
      eapply Forall_impl; [|exact H2]. intros v Hv. eapply Rle_trans; [exact Hv|apply Rmax_l]. }
    destruct X as (b & H1 & H2). eapply Forall_impl; [|exact (P b H1 H2)]. intros v Hv. apply Hv.
  - intros H1 H2. eapply Forall_impl; [|exact (P B H1 H2)]. intros v Hv. apply Hv.
Qed.
Print Assumptions C76_average.

(* The ready-made parameters: one and two channels with equal weights; with six channels (left, right, centre, low
   frequency effects, left and right surround) the fourth is ignored and the surround channels count 1.41 times. *)
Theorem C76_presets : forall t fs, (forall a, weighted_power (fst (mono_params t fs)) [a] = a ^ 2) /\
  (forall a b, weighted_power (fst (stereo_params t fs)) [a; b] = a ^ 2 + b ^ 2) /\
  (forall a b c d e f, weighted_power (fst (surround_params t fs)) [a; b; c; d; e; f] = a ^ 2 + b ^ 2 + c ^ 2 + 141 / 100 * (e ^ 2 + f ^ 2)) /\
  forall q, In q [mono_params t fs; stereo_params t fs; surround_params t fs] ->
    forall m n ks m' blocks, 0 < t * fs -> rminit m (fst q) (snd q) (Z.of_nat n) ks = Ok (m', true) -> Forall (Forall (fun fr => length fr = n)) blocks ->
    n = length (fst q) /\ exists m'' outs y, run (rmblock n) m' blocks = Ok (m'', outs) /\ frames_filtered n ks (concat blocks) y /\
      concat outs = map loudness_db (exponential_average (1 - exp (-1 / (t * fs))) 0 (map (weighted_power (fst q)) y)).
Proof.
  intros t fs. split; [intros; cbn; ring|]. split; [intros; cbn; ring|]. split; [intros; cbn; field|]. intros q HQ m n ks m' blocks Ht HI HF.
  assert (A : snd q = first_order_lowpass t fs /\ Forall (fun w => 0 <= w) (fst q)).
  { cbn [In] in HQ. destruct HQ as [<-|[<-|[<-|[]]]]; (split; [reflexivity|]); cbn [fst mono_params stereo_params surround_params]; repeat (constructor; [lra|]); constructor. }
  destruct A as [A1 A2]. rewrite A1 in HI. split.
  - destruct (minit_inv 0 1 Rmult Rdiv (fun v => Reqb v 0) _ _ _ _ _ _ HI) as (n' & E & X). assert (n' = n) by lia. intuition lia.
  - destruct (C76_average m (fst q) t fs n ks m' blocks 0 Ht A2 HI HF) as (m'' & outs & y & p & R1 & R2 & R3 & R4 & _). subst p. eauto 8.
Qed.
Print Assumptions C76_presets.

(* Changing the gain of the input by g changes every measured value by 20 log10 |g| decibels. *)
Definition shifted (d : R) (l : level) : level := match l with Level x => Level (x + d) | l' => l' end.
Theorem C76_gain m ws av n ks m' blocks g : g <> 0 -> rminit m ws av (Z.of_nat n) ks = Ok (m', true) ->
  Forall (Forall (fun fr => length fr = n)) blocks ->
  exists m1 outs1 m2 outs2, run (rmblock n) m' blocks = Ok (m1, outs1) /\
    run (rmblock n) m' (map (map (map (Rmult g))) blocks) = Ok (m2, outs2) /\
    concat outs2 = map (shifted (20 * (ln (Rabs g) / ln 10))) (concat outs1).
Proof.
  intros Hg HI HF.
  assert (HF2 : Forall (Forall (fun fr => length fr = n)) (map (map (map (Rmult g))) blocks)).
  { apply Forall_forall. intros b Hb. apply in_map_iff in Hb as (b' & <- & Hb). apply Forall_forall. intros fr Hfr. apply in_map_iff in Hfr as (fr' & <- & Hfr).
    rewrite map_length. rewrite Forall_forall in HF. specialize (HF b' Hb). rewrite Forall_forall in HF. apply HF, Hfr. }
  destruct (C76_formula m ws av n ks m' _ HI HF) as (m1 & o1 & y & p & R1 & F1 & F2 & F3).
  destruct (C76_formula m ws av n ks m' _ HI HF2) as (m2 & o2 & y2 & p2 & R2 & G1 & G2 & G3).
  exists m1, o1, m2, o2. split; [exact R1|]. split; [exact R2|]. rewrite G3, F3, map_map.
  destruct (minit_inv 0 1 Rmult Rdiv (fun v => Reqb v 0) _ _ _ _ _ _ HI) as (n' & _ & _ & _ & _ & _ & HK & HA & _).
  assert (E1 : y2 = map (map (Rmult g)) y).
  { rewrite <- concat_map in G1. apply (filtered_unique n ks _ _ _ (init_stages_a0 _ _ _ HK) G1). apply filtered_scale; [apply Forall_concat, HF|exact F1]. }
  assert (E2 : p2 = map (Rmult (g * g)) p).
  { destruct (init_inv 0 1 Rmult Rdiv _ _ _ _ HA) as (_ & HZ & _).
    assert (HA0 : a0 av <> 0) by (intros X; apply Reqb_zero in X; congruence).
    refine (difference_unique 0 1 Rplus Rmult Rminus Ropp Rdiv Rinv Rfield av HA0 _ 0 0 0 0 p2 _ G2 _).
    apply (filters_scale av (g * g)) in F2. rewrite E1, map_map.
    rewrite (map_ext (fun x => weighted_power ws (map (Rmult g) x)) (fun x => g * g * weighted_power ws x)) by (intros; apply weighted_scale).
    rewrite map_map in F2. exact F2. }
  rewrite E2, map_map. apply map_ext. intros v. unfold loudness_db.
  assert (Hgg : 0 < g * g) by nra.
  destruct (Rltb_spec 0 v) as [Hv|Hv], (Rltb_spec 0 (g * g * v)) as [Hw|Hw]; try nra.
  - cbn [shifted]. f_equal. rewrite ln_mult by lra. assert (Hl : ln (g * g) = 2 * ln (Rabs g)).
    { replace (g * g) with (Rabs g * Rabs g) by (rewrite <- Rabs_mult; apply Rabs_right; lra). rewrite ln_mult by (apply Rabs_pos_lt, Hg). ring. }
    rewrite Hl. field. assert (0 < ln 10) by (rewrite <- ln_1; apply ln_increasing; lra). lra.
  - destruct (Rltb_spec v 0), (Rltb_spec (g * g * v) 0); try reflexivity; nra.
Qed.
Print Assumptions C76_gain.

(* Channels with weight zero (the LFE channel of 5.1 sound) have no influence. *)
Theorem C76_zero_weight m ws av n ks m' frames frames' : rminit m ws av (Z.of_nat n) ks = Ok (m', true) ->
  Forall (fun fr => length fr = n) frames -> Forall (fun fr => length fr = n) frames' -> length frames = length frames' ->
  (forall i, (i < n)%nat -> nth i ws 0 <> 0 -> channel 0 i frames = channel 0 i frames') ->
  exists m1 m2 out, rmblock n m' frames = Ok (m1, out) /\ rmblock n m' frames' = Ok (m2, out).
Proof.
  intros HI HF HF' HL H.
  destruct (minit_inv 0 1 Rmult Rdiv (fun v => Reqb v 0) _ _ _ _ _ _ HI) as (n' & E & Hl & _ & _ & _ & HK & HA & G). assert (Q : n' = n) by lia. rewrite Q in *.
  destruct (mblock_ok 0 1 Rplus Rminus Rmult Rdiv (fun v => Reqb v 0) rsum loudness_db n m' frames G HF) as (B & _).
  destruct (mblock_ok 0 1 Rplus Rminus Rmult Rdiv (fun v => Reqb v 0) rsum loudness_db n m' frames' G HF') as (B' & _).
  destruct (meter_formula m ws av _ ks m' n frames HI eq_refl HF) as (y & p & (L1 & W1 & F1) & F2 & F3).
  destruct (meter_formula m ws av _ ks m' n frames' HI eq_refl HF') as (y' & p' & (L1' & W1' & F1') & F2' & F3').
  assert (Ep : map (weighted_power ws) y = map (weighted_power ws) y').
  { apply nth_ext with (d := 0) (d' := 0); [rewrite !map_length; lia|]. rewrite map_length. intros k Hk.
    assert (M : forall l, (k < length l)%nat -> nth k (map (weighted_power ws) l) 0 = weighted_power ws (nth k l [])).
    { intros l Hkl. rewrite (nth_indep _ _ (weighted_power ws [])) by (rewrite map_length; exact Hkl). apply map_nth. }
    rewrite !M by lia. rewrite Forall_forall in W1, W1'. assert (K1 := W1 _ (nth_In y [] Hk)). assert (K2 := W1' _ (nth_In y' [] (n := k) ltac:(lia))).
    apply weighted_ext; [congruence|]. intros i Hi.
    destruct (Nat.lt_ge_cases i n) as [Hin|Hin]; [|rewrite !nth_overflow by lia; reflexivity].
    pose proof (F1 i Hin) as A1. rewrite (H i Hin Hi) in A1.
    pose proof (cascade_unique ks (init_stages_a0 _ _ _ HK) _ _ _ A1 (F1' i Hin)) as A2. unfold channel in A2.
    assert (Q2 : forall l, (k < length l)%nat -> nth k (map (fun fr => nth i fr 0) l) 0 = nth i (nth k l []) 0).
    { intros l Hkl. rewrite (nth_indep _ _ (nth i [] 0)) by (rewrite map_length; exact Hkl). apply (map_nth (fun fr => nth i fr 0)). }
    rewrite <- !Q2 by lia. now rewrite A2. }
  assert (E2 : p = p').
  { rewrite Ep in F2. destruct (init_inv 0 1 Rmult Rdiv _ _ _ _ HA) as (_ & HZ & _).
    assert (HA0 : a0 av <> 0) by (intros X; apply Reqb_zero in X; congruence).
    exact (difference_unique 0 1 Rplus Rmult Rminus Ropp Rdiv Rinv Rfield av HA0 _ 0 0 0 0 p p' F2 F2'). }
  eexists _, _, _. split; [rewrite B, (surjective_pairing (scan _ _ _)), F3; reflexivity|]. rewrite B', (surjective_pairing (scan _ _ _)), F3', E2. reflexivity.
Qed.
Print Assumptions C76_zero_weight.

From Coquelicot Require Import Coquelicot.
(* A tone: the measured power approaches the weighted mean power of the K-weighted tone plus a
   ripple at twice its frequency, attenuated by the averaging filter. *)
Theorem C76_tone m ws t fs n ks m' (x : nat -> list R) z h h2 (As : list C) : 0 < t * fs ->
  rminit m ws (first_order_lowpass t fs) (Z.of_nat n) ks = Ok (m', true) ->
  List.Forall stable ks -> (forall k, length (x k) = n) ->
  Cmod z = 1 -> cascade_value ks z h -> has_value (first_order_lowpass t fs) (Cmult z z) h2 ->
  length As = n -> (forall i, (i < n)%nat -> settles (channel_of i x) (sinusoid (nth i As (RtoC 0)) z)) ->
  exists p : nat -> R,
    (forall blocks k, concat blocks = first_frames x k -> exists m'' outs, run (rmblock n) m' blocks = Ok (m'', outs) /\
       concat outs = map (fun j => loudness_db (p j)) (seq 0 k)) /\
    settles p (fun k => mean_power ws (map (Cmult h) As) + sinusoid (Cmult h2 (second_harmonic ws (map (Cmult h) As))) (Cmult z z) k).
Proof.
  intros Ht HI HS HL Hz V V2 LA HX.
  destruct (minit_inv 0 1 Rmult Rdiv (fun v => Reqb v 0) _ _ _ _ _ _ HI) as (n' & E & Hl & _). assert (Q : n' = n) by lia. rewrite Q in *.
  destruct (meter_streams m ws _ _ ks m' n x HI eq_refl HL) as (y & p & Ly & Hc & Hp & HR). exists p. split; [exact HR|].
  apply (tone_average t fs ws y p z _ h2 Ht Hz V2); [rewrite map_length; lia|rewrite Hl; exact Ly| |exact Hp].
  intros i Hi. rewrite Hl in Hi.
  rewrite (nth_indep _ _ (Cmult h (RtoC 0))) by (rewrite map_length; lia). rewrite (map_nth (Cmult h)).
  apply (cascade_settles ks (channel_of i x) (channel_of i y) (nth i As (RtoC 0)) z h HS); auto. intros X. rewrite X, Cmod_0 in Hz. lra.
Qed.
Print Assumptions C76_tone.

(* A stereo meter with K-weighting replaced by a gain of 2: full-scale alternating samples on the left,
   silence on the right; gain 1/2 lowers the measurement by 6 dB. *)
Definition gain2 : coeffs R := {| b0 := 2; b1 := 0; b2 := 0; a0 := 1; a1 := 0; a2 := 0 |}.
Example C76_case : exists m', rminit (meter_new 0) (1 :: 1 :: nil) (first_order_lowpass (1/2) 4) 2 (gain2 :: nil) = Ok (m', true) /\
  exists m'' c, rmblock 2 m' ((1 :: 0 :: nil) :: nil) = Ok (m'', loudness_db (c * 4) :: nil) /\ 0 < c < 1.
Proof.
  assert (E : exists m, rminit (meter_new 0) (1 :: 1 :: nil) (first_order_lowpass (1/2) 4) 2 (gain2 :: nil) = Ok (m, true)).
  { apply C76_init; cbn; auto; try lia; [discriminate|]. constructor; [|constructor; [|constructor]]; cbn; destruct (Reqb_spec 1 0); try lra; reflexivity. }
  destruct E as [m E]. exists m. split; [exact E|].
  assert (HF : List.Forall (List.Forall (fun fr : list R => length fr = 2%nat)) (((1 :: 0 :: nil) :: nil) :: nil)) by (repeat constructor).
  destruct (C76_average (meter_new 0) (1 :: 1 :: nil) (1/2) 4 2 (gain2 :: nil) m _ 0 ltac:(lra) ltac:(repeat constructor; lra) E HF) as (m'' & outs & y & p & R1 & F1 & F2 & F3 & _).
  destruct (first_order_stable (1/2) 4 ltac:(lra)) as [_ Hc]. unfold first_order_coefficient in Hc.
  exists m'', (1 - exp (-1 / (1 / 2 * 4))). split; [|exact Hc].
  cbn [run] in R1. destruct (rmblock 2 m ((1 :: 0 :: nil) :: nil)) as [[m3 o3]| |]; cbn [obind fst snd] in R1; try discriminate.
  injection R1 as -> <-. cbn [concat] in F3, F1. rewrite !app_nil_r in *.
  assert (Ey : y = (2 :: 0 :: nil) :: nil).
  { apply (filtered_unique 2 (gain2 :: nil) ((1 :: 0 :: nil) :: nil)); [constructor; [cbn; lra|constructor]|exact F1|].
    split; [reflexivity|]. split; [repeat constructor|]. intros [|[|i]] Hi; try lia; (eexists; split; [|reflexivity]); cbn; split; try exact I; ring. }
  rewrite F3, F2, Ey. cbn [map weighted_power exponential_average]. do 3 f_equal. f_equal. ring.
Qed.
