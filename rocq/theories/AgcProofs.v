From Coq Require Import ZArith Reals List Lia Lra.
From Flocq Require Import Core.
From Coquelicot Require Rcomplements.
From Verif Require Import Common CInt RealUtil MfccModel MfccProofs FastFunModel FastFunSpec FastFunProofs
  FastFunProofs2 FastFunProofs3 FastFunProofs4 FastFunProofs5 AgcModel AgcSpec.
Import ListNotations.
Local Open Scope R_scope.

Definition exact (x : R) : R := x.

(* --- the averages --- *)
Lemma total_app l x : total (l ++ [x]) = total l + x.
Proof. unfold total. rewrite fold_right_app. cbn. induction l as [|y l IH]; cbn; [ring|]. rewrite IH. ring. Qed.

Lemma ema_nil c p0 : ema c p0 [] = p0.
Proof. unfold ema. cbn. ring. Qed.
Lemma ema_snoc c p0 l x : ema c p0 (l ++ [x]) = ema c p0 l + c * (x - ema c p0 l).
Proof. unfold ema. rewrite app_length, rev_app_distr. cbn [length rev app weighted]. rewrite pow_add. cbn [pow]. ring. Qed.

Lemma run_snoc rd st l x : agc_run rd st (l ++ [x]) = agc_process rd (agc_run rd st l) x.
Proof. unfold agc_run. now rewrite fold_left_app. Qed.

Definition fresh (c y floor : R) (w : Z) : agc := mkAgc c y 1 floor w 1.

Lemma exact_state c y floor w l :
  agc_run exact (fresh c y floor (Z.of_nat w)) l =
  if Nat.ltb (length l) w
  then mkAgc c y (1 + total l) floor (Z.of_nat w) (Z.of_nat (length l) + 1)
  else mkAgc c y (estimate w c l) floor (Z.of_nat w) (Z.of_nat w + 1).
Proof.
  unfold estimate. induction l as [|x l IH] using rev_ind.
  - unfold agc_run, fresh. cbn [fold_left length total fold_right]. destruct (Nat.ltb_spec 0 w) as [L|L].
    + rewrite Rplus_0_r. reflexivity.
    + assert (w = 0)%nat as -> by lia. cbn [firstn skipn total fold_right INR]. rewrite ema_nil.
      rewrite !Rplus_0_r. f_equal. field.
  - rewrite run_snoc, IH, app_length. cbn [length]. rewrite total_app.
    destruct (Nat.ltb_spec (length l) w) as [L|L].
    + unfold agc_process. cbn [ag_counter ag_warm_up].
      destruct (Z.leb_spec (Z.of_nat (length l) + 1) (Z.of_nat w)) as [_|X]; [|lia].
      unfold agc_warm_up_process, exact. cbn [ag_counter ag_warm_up ag_smoothed ag_coeff ag_exponent ag_floor].
      destruct (Nat.ltb_spec (length l + 1) w) as [L2|L2].
      * destruct (Z.ltb_spec (Z.of_nat w) (Z.of_nat (length l) + 1 + 1)) as [X|_]; [lia|].
        f_equal; [ring|lia].
      * destruct (Z.ltb_spec (Z.of_nat w) (Z.of_nat (length l) + 1 + 1)) as [_|X]; [|lia].
        assert (E : (length (l ++ [x]) = w)%nat) by (rewrite app_length; cbn; lia).
        rewrite (firstn_all2 (n := w) (l ++ [x])) by lia. rewrite (skipn_all2 (n := w) (l ++ [x])) by lia.
        rewrite ema_nil, total_app.
        f_equal; [|lia].
        replace (IZR (Z.of_nat (length l) + 1 + 1)) with (1 + INR w)
          by (rewrite INR_IZR_INZ, <- (plus_IZR 1); f_equal; lia).
        unfold Rdiv. ring.
    + destruct (Nat.ltb_spec (length l + 1) w) as [X|_]; [lia|].
      unfold agc_process. cbn [ag_counter ag_warm_up].
      destruct (Z.leb_spec (Z.of_nat w + 1) (Z.of_nat w)) as [X|_]; [lia|].
      unfold exact. cbn [ag_smoothed ag_coeff ag_exponent ag_floor].
      rewrite firstn_app, skipn_app. replace (w - length l)%nat with 0%nat by lia.
      cbn [firstn skipn]. rewrite app_nil_r, ema_snoc. reflexivity.
Qed.

Lemma exact_level c y floor w l :
  agc_level exact (agc_run exact (fresh c y floor (Z.of_nat w)) l) = estimate w c l.
Proof.
  rewrite exact_state. unfold agc_level, exact, estimate. destruct (Nat.ltb_spec (length l) w) as [L|L];
  cbn [ag_counter ag_warm_up ag_smoothed].
  - destruct (Z.leb_spec (Z.of_nat (length l) + 1) (Z.of_nat w)); [|lia].
    replace (IZR (Z.of_nat (length l) + 1)) with (1 + INR (length l))
      by (rewrite INR_IZR_INZ, <- (plus_IZR 1); f_equal; lia).
    reflexivity.
  - destruct (Z.leb_spec (Z.of_nat w + 1) (Z.of_nat w)); [lia|]. reflexivity.
Qed.

Lemma total_bounds a b l : Forall (fun x => a <= x <= b) l ->
  INR (length l) * a <= total l <= INR (length l) * b.
Proof.
  induction 1 as [|x l Hx _ IH]; [cbn; lra|]. cbn [length total fold_right]. fold (total l). rewrite S_INR. lra.
Qed.
Lemma ema_bounds c a b p0 l : 0 <= c <= 1 -> a <= p0 <= b -> Forall (fun x => a <= x <= b) l ->
  a <= ema c p0 l <= b.
Proof.
  intros Hc H0. induction l as [|x l IH] using rev_ind; intros F.
  - rewrite ema_nil. exact H0.
  - apply Forall_app in F. destruct F as (F1 & F2). inversion_clear F2 as [|? ? Hx _]. specialize (IH F1).
    rewrite ema_snoc. set (e := ema c p0 l) in *. clearbody e.
    replace (e + c * (x - e)) with ((1 - c) * e + c * x) by ring.
    assert (c * a <= c * x <= c * b) by (split; apply Rmult_le_compat_l; lra).
    assert ((1 - c) * a <= (1 - c) * e <= (1 - c) * b) by (split; apply Rmult_le_compat_l; lra).
    lra.
Qed.
Lemma avg_bounds a b l : a <= 1 <= b -> Forall (fun x => a <= x <= b) l ->
  a <= (1 + total l) / (1 + INR (length l)) <= b.
Proof.
  intros H F. apply total_bounds in F. pose proof (pos_INR (length l)) as P.
  split.
  - apply Rmult_le_reg_r with (1 + INR (length l)); [lra|]. unfold Rdiv. rewrite Rmult_assoc, Rinv_l by lra. lra.
  - apply Rmult_le_reg_r with (1 + INR (length l)); [lra|]. unfold Rdiv. rewrite Rmult_assoc, Rinv_l by lra. lra.
Qed.
Lemma Forall_firstn' {A} (P : A -> Prop) n l : Forall P l -> Forall P (firstn n l).
Proof. intros H. rewrite <- (firstn_skipn n l) in H. now apply Forall_app in H. Qed.
Lemma Forall_skipn' {A} (P : A -> Prop) n l : Forall P l -> Forall P (skipn n l).
Proof. intros H. rewrite <- (firstn_skipn n l) in H. now apply Forall_app in H. Qed.

Lemma estimate_bounds w c a b l : 0 <= c <= 1 -> a <= 1 <= b -> Forall (fun x => a <= x <= b) l ->
  a <= estimate w c l <= b.
Proof.
  intros Hc H F. unfold estimate. destruct (Nat.ltb_spec (length l) w) as [L|L]; [now apply avg_bounds|].
  apply ema_bounds; [exact Hc| |now apply Forall_skipn'].
  replace (INR w) with (INR (length (firstn w l))) by (rewrite firstn_length; f_equal; lia).
  apply avg_bounds; [exact H|now apply Forall_firstn'].
Qed.

Lemma estimate_const w c l p m : (w <= length l)%nat ->
  estimate w c (l ++ repeat p m) - p = (1 - c) ^ m * (estimate w c l - p).
Proof.
  intros H. induction m as [|m IH].
  - cbn. rewrite app_nil_r. ring.
  - replace (repeat p (S m)) with (repeat p m ++ [p]) by (rewrite <- repeat_cons; reflexivity).
    rewrite app_assoc. set (l' := l ++ repeat p m) in *.
    assert (H' : (w <= length l')%nat) by (unfold l'; rewrite app_length; lia).
    assert (S : estimate w c (l' ++ [p]) = estimate w c l' + c * (p - estimate w c l')).
    { unfold estimate. rewrite app_length. cbn [length].
      destruct (Nat.ltb_spec (length l' + 1) w) as [X|_]; [lia|]. destruct (Nat.ltb_spec (length l') w) as [X|_]; [lia|].
      rewrite firstn_app, skipn_app. replace (w - length l')%nat with 0%nat by lia.
      cbn [firstn skipn]. rewrite app_nil_r, ema_snoc. reflexivity. }
    rewrite S. cbn [pow]. transitivity ((1 - c) * (estimate w c l' - p)); [ring|]. rewrite IH. ring.
Qed.

Lemma weighted_mono c l l' : 0 <= c <= 1 -> Forall2 Rle l l' -> weighted c l <= weighted c l'.
Proof.
  intros Hc. induction 1 as [|x y l l' Hxy _ IH]; [cbn; lra|]. cbn.
  assert (c * x <= c * y) by (apply Rmult_le_compat_l; lra).
  assert ((1 - c) * weighted c l <= (1 - c) * weighted c l') by (apply Rmult_le_compat_l; lra). lra.
Qed.

(* --- floats --- *)
Notation fmt := (generic_format radix2 (FLT_exp (-149) 24)).

Lemma fmt_rnd x : fmt (rnd32 x).
Proof. apply generic_format_round; typeclasses eauto. Qed.
Lemma rnd_fmt x : fmt x -> rnd32 x = x.
Proof. intros H. apply round_generic; [typeclasses eauto|exact H]. Qed.
Lemma fmt_0 : fmt 0.
Proof. apply generic_format_0. Qed.
Lemma fmt_1 : fmt 1.
Proof. rewrite <- rnd32_1. apply fmt_rnd. Qed.
Lemma fmt_opp x : fmt x -> fmt (- x).
Proof. apply generic_format_opp. Qed.

Lemma decomp v : fmt v -> bpow radix2 (-126) <= v ->
  v = IZR (Ztrunc (v * bpow radix2 (24 - mag radix2 v))) * bpow radix2 (mag radix2 v - 24) /\ (-125 <= mag radix2 v)%Z.
Proof.
  intros F H. assert (MG : (-125 <= mag radix2 v)%Z).
  { apply (mag_ge_bpow radix2 v (-125)). rewrite Rabs_pos_eq; [exact H|].
    apply Rle_trans with (bpow radix2 (-126)); [apply bpow_ge_0|exact H]. }
  split; [|exact MG].
  assert (CE : cexp radix2 (FLT_exp (-149) 24) v = (mag radix2 v - 24)%Z) by (unfold cexp, FLT_exp; lia).
  pose proof (scaled_mantissa_generic _ _ v F) as S. unfold scaled_mantissa in S. rewrite CE in S.
  replace (- (mag radix2 v - 24))%Z with (24 - mag radix2 v)%Z in S by ring.
  rewrite <- S. rewrite Rmult_assoc, <- bpow_plus. replace (24 - mag radix2 v + (mag radix2 v - 24))%Z with 0%Z by ring.
  cbn [bpow]. ring.
Qed.

(* Normal positive floats and their bits. *)
Lemma bits_round_trip v : fmt v -> bpow radix2 (-126) <= v < bpow radix2 128 ->
  float_of_bits (bits_of_float v) = v /\ (2 ^ 23 <= bits_of_float v < 255 * 2 ^ 23)%Z.
Proof.
  intros F (H1 & H2). destruct (decomp v F H1) as (E & MG).
  assert (P : 0 < v) by (apply Rlt_le_trans with (bpow radix2 (-126)); [apply bpow_gt_0|exact H1]).
  assert (MH : (mag radix2 v <= 128)%Z).
  { apply mag_le_bpow; [lra|]. rewrite Rabs_pos_eq by lra. exact H2. }
  unfold bits_of_float. set (e := (mag radix2 v - 1)%Z).
  replace (23 - e)%Z with (24 - mag radix2 v)%Z by (unfold e; ring).
  set (M := Ztrunc (v * bpow radix2 (24 - mag radix2 v))) in *.
  assert (HM : (2 ^ 23 <= M < 2 ^ 24)%Z).
  { assert (B1 : bpow radix2 (mag radix2 v - 1) <= v).
    { pose proof (bpow_mag_le radix2 v ltac:(lra)) as BM. rewrite (Rabs_pos_eq v) in BM by lra. exact BM. }
    assert (B2 : v < bpow radix2 (mag radix2 v)).
    { pose proof (bpow_mag_gt radix2 v) as BM. rewrite (Rabs_pos_eq v) in BM by lra. exact BM. }
    pose proof (bpow_gt_0 radix2 (mag radix2 v - 24)) as P2.
    split.
    - apply le_IZR. apply Rmult_le_reg_r with (bpow radix2 (mag radix2 v - 24)); [exact P2|].
      change (IZR (2 ^ 23)) with (bpow radix2 23). rewrite <- bpow_plus.
      replace (23 + (mag radix2 v - 24))%Z with (mag radix2 v - 1)%Z by ring. rewrite <- E. exact B1.
    - apply lt_IZR. apply Rmult_lt_reg_r with (bpow radix2 (mag radix2 v - 24)); [exact P2|].
      change (IZR (2 ^ 24)) with (bpow radix2 24). rewrite <- bpow_plus.
      replace (24 + (mag radix2 v - 24))%Z with (mag radix2 v : Z)%Z by ring. rewrite <- E. exact B2. }
  clearbody M.
  assert (Em : (((e + 127) * 2 ^ 23 + (M - 2 ^ 23)) mod 2 ^ 23 = M - 2 ^ 23)%Z)
    by (rewrite Z.add_comm, Z.mod_add by lia; apply Z.mod_small; lia).
  assert (Ed : (((e + 127) * 2 ^ 23 + (M - 2 ^ 23)) / 2 ^ 23 = e + 127)%Z)
    by (rewrite Z.div_add_l by lia; rewrite Z.div_small by lia; lia).
  split.
  - unfold float_of_bits. rewrite Em, Ed. transitivity (IZR M * bpow radix2 (mag radix2 v - 24)); [|symmetry; exact E].
    f_equal; [f_equal; lia|f_equal; unfold e; ring].
  - unfold e. lia.
Qed.

Lemma float_of_bits_lt b b' : (0 <= b < b')%Z -> float_of_bits b < float_of_bits b'.
Proof.
  intros H. unfold float_of_bits.
  pose proof (Z.div_mod b (2 ^ 23) ltac:(lia)) as D. pose proof (Z.div_mod b' (2 ^ 23) ltac:(lia)) as D'.
  pose proof (Z.mod_pos_bound b (2 ^ 23) ltac:(lia)) as B. pose proof (Z.mod_pos_bound b' (2 ^ 23) ltac:(lia)) as B'.
  pose proof (Z.div_le_mono b b' (2 ^ 23) ltac:(lia) ltac:(lia)) as Q.
  set (m := (b mod 2 ^ 23)%Z) in *. set (m' := (b' mod 2 ^ 23)%Z) in *.
  set (q := (b / 2 ^ 23)%Z) in *. set (q' := (b' / 2 ^ 23)%Z) in *. clearbody m m' q q'.
  pose proof (bpow_gt_0 radix2 (q - 127 - 23)) as P. pose proof (bpow_gt_0 radix2 (q' - 127 - 23)) as P'.
  destruct (Z.eq_dec q q') as [<-|N].
  - apply Rmult_lt_compat_r; [exact P|]. apply IZR_lt. lia.
  - apply Rlt_le_trans with (IZR (2 ^ 24) * bpow radix2 (q - 127 - 23)).
    + apply Rmult_lt_compat_r; [exact P|]. apply IZR_lt. lia.
    + apply Rle_trans with (IZR (2 ^ 23) * bpow radix2 (q' - 127 - 23)).
      * change (IZR (2 ^ 24)) with (bpow radix2 24). change (IZR (2 ^ 23)) with (bpow radix2 23).
        rewrite <- !bpow_plus. apply bpow_le. lia.
      * apply Rmult_le_compat_r; [lra|]. apply IZR_le. lia.
Qed.

Lemma log2_range v : bpow radix2 (-126) <= v < bpow radix2 128 -> -126 <= log2 v <= 128.
Proof.
  intros (H1 & H2). pose proof ln2_pos as L. pose proof (bpow_gt_0 radix2 (-126)) as P. unfold log2.
  assert (E : ln v / ln 2 * ln 2 = ln v) by (field; lra).
  assert (A : IZR (-126) * ln 2 <= ln v).
  { rewrite <- ln_bpow. destruct (Req_dec (bpow radix2 (-126)) v) as [<-|N]; [lra|]. left. apply ln_increasing; lra. }
  assert (B : ln v <= IZR 128 * ln 2).
  { rewrite <- ln_bpow. left. apply ln_increasing; lra. }
  split; apply Rmult_le_reg_r with (ln 2); lra.
Qed.

Lemma pow_gain_err v y : fmt v -> bpow radix2 (-126) <= v < bpow radix2 128 -> - (1 / 2) <= y <= 0 ->
  rel_error_le (5 / 1000) (fast_pow (bits_of_float v) y) (power v y).
Proof.
  intros F H Hy. destruct (bits_round_trip v F H) as (E & Hb). pose proof (log2_range v H) as LR.
  assert (AY : Rabs y <= 1 / 2) by (apply Rabs_le; lra).
  assert (A : Rabs (y * log2 v) <= 123).
  { rewrite Rabs_mult. assert (Rabs (log2 v) <= 128) by (apply Rabs_le; lra).
    pose proof (Rabs_pos y). pose proof (Rabs_pos (log2 v)).
    apply Rle_trans with (1 / 2 * 128); [apply Rmult_le_compat; lra|lra]. }
  rewrite <- E in A at 1.
  destruct (fast_pow_log (bits_of_float v) y Hb ltac:(lra) A) as (P & G). rewrite E in G.
  split; [apply exp_pos|]. apply (log_to_rel _ _ (4916 / 1000000)); try lra; [apply exp_pos|].
  unfold power. rewrite ln_exp. lra.
Qed.

Lemma pow_gain_mono v v' y : fmt v -> fmt v' -> bpow radix2 (-126) <= v <= v' -> v' < bpow radix2 128 ->
  - (1 / 2) <= y <= 0 -> fast_pow (bits_of_float v') y <= fast_pow (bits_of_float v) y.
Proof.
  intros F F' H H' Hy.
  destruct (bits_round_trip v F ltac:(lra)) as (E & Hb). destruct (bits_round_trip v' F' ltac:(lra)) as (E' & Hb').
  assert (B : (bits_of_float v <= bits_of_float v')%Z).
  { destruct (Z.le_gt_cases (bits_of_float v) (bits_of_float v')) as [L|L]; [exact L|].
    pose proof (float_of_bits_lt (bits_of_float v') (bits_of_float v) ltac:(lia)). rewrite E, E' in *. lra. }
  pose proof (fast_log2_mono _ _ (conj (proj1 Hb) B) (proj2 Hb')) as LM.
  pose proof (log2_range v ltac:(lra)) as R1. pose proof (log2_range v' ltac:(lra)) as R2.
  pose proof (fast_log2_err _ Hb) as L1. pose proof (fast_log2_err _ Hb') as L2. rewrite E in L1. rewrite E' in L2.
  apply Rcomplements.Rabs_le_between in L1. apply Rcomplements.Rabs_le_between in L2.
  unfold fast_pow. set (f := fast_log2 (bits_of_float v)) in *. set (f' := fast_log2 (bits_of_float v')) in *.
  clearbody f f'.
  assert (G : forall g, -127 <= g <= 129 -> -126 <= rnd32 (g * y) <= 126).
  { intros g Hg. assert (A : Rabs (g * y) <= 65).
    { rewrite Rabs_mult. assert (Rabs g <= 130) by (apply Rabs_le; lra). assert (Rabs y <= 1 / 2) by (apply Rabs_le; lra).
      pose proof (Rabs_pos y). pose proof (Rabs_pos g). apply Rle_trans with (130 * (1 / 2)); [apply Rmult_le_compat; lra|lra]. }
    pose proof (rnd32_rel (g * y)) as RR. apply Rcomplements.Rabs_le_between in RR.
    pose proof A as A'. apply Rcomplements.Rabs_le_between in A'. lra. }
  pose proof (G f ltac:(lra)). pose proof (G f' ltac:(lra)).
  apply fast_exp2_mono; [|lra]. split; [lra|]. apply rnd32_mono.
  assert (0 <= (f' - f) * - y) by (apply Rmult_le_pos; lra). lra.
Qed.

(* Reachable states in float arithmetic. *)
Definition good (floor y c : R) (w : Z) (st : agc) : Prop :=
  ag_coeff st = c /\ ag_exponent st = y /\ ag_floor st = floor /\ ag_warm_up st = w /\
  fmt (ag_smoothed st) /\ 0 <= ag_smoothed st /\ (1 <= ag_counter st)%Z.

Lemma rnd_nonneg x : 0 <= x -> 0 <= rnd32 x.
Proof. intros H. rewrite <- rnd32_0. now apply rnd32_mono. Qed.

Lemma div_nonneg a b : 0 <= a -> 0 <= b -> 0 <= a / b.
Proof.
  intros Ha [Hb| <-]; unfold Rdiv.
  - apply Rmult_le_pos; [exact Ha|]. left. now apply Rinv_0_lt_compat.
  - rewrite Rinv_0. lra.
Qed.

Lemma good_process floor y c w st p : 0 <= c <= 1 -> 0 <= p ->
  good floor y c w st -> good floor y c w (agc_process rnd32 st p).
Proof.
  intros Hc Hp (E1 & E2 & E3 & E4 & F & N & K). unfold agc_process, agc_warm_up_process.
  assert (KP : 0 <= rnd32 (IZR (ag_counter st + 1))) by (apply rnd_nonneg, IZR_le; lia).
  assert (SP : 0 <= rnd32 (ag_smoothed st + p)) by (apply rnd_nonneg; lra).
  destruct (ag_counter st <=? ag_warm_up st)%Z; unfold good; cbn [ag_coeff ag_exponent ag_floor ag_warm_up ag_smoothed ag_counter].
  - repeat split; try assumption; [| |lia].
    + destruct (ag_warm_up st <? ag_counter st + 1)%Z; apply fmt_rnd.
    + destruct (ag_warm_up st <? ag_counter st + 1)%Z; [|exact SP]. apply rnd_nonneg. now apply div_nonneg.
  - repeat split; try assumption; [apply fmt_rnd|]. apply rnd_nonneg.
    assert (- ag_smoothed st <= rnd32 (ag_coeff st * rnd32 (p - ag_smoothed st))); [|lra].
    assert (FO : fmt (- ag_smoothed st)) by (apply fmt_opp; exact F).
    assert (A : - ag_smoothed st <= rnd32 (p - ag_smoothed st)).
    { rewrite <- (rnd_fmt _ FO). apply rnd32_mono. lra. }
    rewrite <- (rnd_fmt _ FO). apply rnd32_mono. rewrite E1.
    set (d := rnd32 (p - ag_smoothed st)) in *. clearbody d.
    assert (c * (- ag_smoothed st) <= c * d) by (apply Rmult_le_compat_l; lra).
    assert (0 <= (1 - c) * ag_smoothed st) by (apply Rmult_le_pos; lra). lra.
Qed.

Lemma good_run floor y c w st l : 0 <= c <= 1 -> Forall (fun p => 0 <= p) l ->
  good floor y c w st -> good floor y c w (agc_run rnd32 st l).
Proof.
  intros Hc F. revert st. induction F as [|p l Hp _ IH]; intros st G; [exact G|].
  cbn. apply IH. now apply good_process.
Qed.

Lemma good_level floor y c w st : good floor y c w st -> 0 <= agc_level rnd32 st.
Proof.
  intros (_ & _ & _ & _ & _ & N & K). unfold agc_level. destruct (ag_counter st <=? ag_warm_up st)%Z; [|exact N].
  apply rnd_nonneg. apply div_nonneg; [exact N|]. apply rnd_nonneg, IZR_le. lia.
Qed.

(* Init *)
Lemma init_inv rd fs tc s floor st : agc_init rd fs tc s floor = Ok (Some st) ->
  0 < fs /\ 0 < tc /\ 0 <= s <= 1 /\ 0 < floor /\
  exists w, cast_int (rd (rd (fs * tc) + 1 / 2)) = Ok w /\
  st = fresh (if Reqb (rd (tc * fs)) 0 then rd (1 - 0) else rd (1 - exp (rd (-1 / rd (tc * fs)))))
         (rd (- (1 / 2) * s)) floor w.
Proof.
  unfold agc_init.
  destruct (Rltb_spec 0 fs) as [H1|H1]; [|discriminate]. destruct (Rltb_spec 0 tc) as [H2|H2]; [|discriminate].
  destruct (Rleb_spec 0 s) as [H3|H3]; [|discriminate]. destruct (Rleb_spec s 1) as [H4|H4]; [|discriminate].
  destruct (Rltb_spec 0 floor) as [H5|H5]; [|discriminate]. cbn [negb orb andb].
  destruct (cast_int _) as [w| |] eqn:CI; cbn [obind]; [|discriminate|discriminate].
  intros E. injection E as <-. repeat split; try lra. exists w. split; [reflexivity|]. reflexivity.
Qed.

Lemma coeff32 p : 0 <= p -> 0 <= (if Reqb p 0 then rnd32 (1 - 0) else rnd32 (1 - exp (rnd32 (-1 / p)))) <= 1.
Proof.
  intros H. destruct (Reqb_spec p 0) as [E|E].
  - rewrite Rminus_0_r, rnd32_1. lra.
  - assert (A : rnd32 (-1 / p) <= 0).
    { rewrite <- rnd32_0. apply rnd32_mono. unfold Rdiv. assert (0 < / p) by (apply Rinv_0_lt_compat; lra). lra. }
    set (u := rnd32 (-1 / p)) in *. clearbody u. pose proof (exp_pos u) as P.
    assert (exp u <= 1).
    { rewrite <- exp_0. destruct (Req_dec u 0) as [->|N]; [lra|]. left. apply exp_increasing. lra. }
    split; [apply rnd_nonneg; lra|].
    apply Rle_trans with (rnd32 1); [apply rnd32_mono; lra|rewrite rnd32_1; lra].
Qed.

Lemma good_init fs tc s floor st : agc_init rnd32 fs tc s floor = Ok (Some st) ->
  exists c w, 0 <= c <= 1 /\ good floor (rnd32 (- (1 / 2) * s)) c w st.
Proof.
  intros H. apply init_inv in H. destruct H as (H1 & H2 & H3 & H4 & w & _ & ->).
  exists (if Reqb (rnd32 (tc * fs)) 0 then rnd32 (1 - 0) else rnd32 (1 - exp (rnd32 (-1 / rnd32 (tc * fs))))), w.
  split; [apply coeff32, rnd_nonneg, Rmult_le_pos; lra|].
  unfold good, fresh. cbn [ag_coeff ag_exponent ag_floor ag_warm_up ag_smoothed ag_counter].
  split; [reflexivity|]. split; [reflexivity|]. split; [reflexivity|]. split; [reflexivity|].
  split; [apply fmt_1|]. split; [lra|lia].
Qed.

Lemma exponent_range s : 0 <= s <= 1 -> - (1 / 2) <= rnd32 (- (1 / 2) * s) <= 0.
Proof.
  intros H. split.
  - assert (F : fmt (- (1 / 2))).
    { apply fmt_opp. replace (1 / 2) with (bpow radix2 (-1)) by (cbn; lra). apply generic_format_bpow. vm_compute. discriminate. }
    rewrite <- (rnd_fmt _ F) at 1. apply rnd32_mono. lra.
  - rewrite <- rnd32_0. apply rnd32_mono. lra.
Qed.

Lemma exponent_exact s : fmt s -> s = 0 \/ bpow radix2 (-125) <= s -> rnd32 (- (1 / 2) * s) = - (1 / 2) * s.
Proof.
  intros F [->|H]; [rewrite Rmult_0_r; apply rnd32_0|].
  apply rnd_fmt. replace (- (1 / 2) * s) with (- (s * / 2)) by field. apply fmt_opp.
  assert (MG : (-124 <= mag radix2 s)%Z).
  { apply (mag_ge_bpow radix2 s (-124)). rewrite Rabs_pos_eq; [exact H|].
    apply Rle_trans with (bpow radix2 (-125)); [apply bpow_ge_0|exact H]. }
  assert (H' : bpow radix2 (-126) <= s) by (apply Rle_trans with (bpow radix2 (-125)); [apply bpow_le; lia|exact H]).
  destruct (decomp s F H') as (E & _). set (M := Ztrunc _) in *. clearbody M.
  apply generic_format_F2R' with (f := Float radix2 M (mag radix2 s - 25)).
  - unfold F2R. cbn [Fnum Fexp]. transitivity (IZR M * bpow radix2 (mag radix2 s - 24) * / 2); [|f_equal; symmetry; exact E]. replace (mag radix2 s - 24)%Z with (1 + (mag radix2 s - 25))%Z at 1 by ring.
    rewrite bpow_plus. change (bpow radix2 1) with 2. field.
  - intros N. cbn [Fexp].
    assert (EM : mag radix2 (s * / 2) = (mag radix2 s - 1)%Z :> Z).
    { change (/ 2) with (bpow radix2 (-1)). rewrite mag_mult_bpow; [lia|].
      pose proof (bpow_gt_0 radix2 (-125)). lra. }
    unfold cexp. rewrite EM. unfold FLT_exp. lia.
Qed.
