(* Proofs: initialisation of InverseSpectrogram, Flush, and reconstruction over
   the reals. *)
From Coq Require Import Permutation.
From Verif Require Import Common CInt NumberUtilModel NumberUtilProps ListLemmas NthLemmas
  SpectrogramModel SpectrogramSpec SpectrogramProofs SpectrogramProofs2.
Local Open Scope nat_scope.

Section PackLayout.
Context {D : Type} (zero : D).

Lemma pack_layout N k sl : N = 2 ^ S k -> pack zero N sl = spectrum_layout zero N sl.
Proof.
  intros EN.
  assert (N / 2 = 2 ^ k) as EH.
  { rewrite EN. cbn [Nat.pow]. rewrite Nat.mul_comm. apply Nat.div_mul. lia. }
  assert (N = 2 * (N / 2)) as E2 by (rewrite EH, EN; reflexivity).
  assert (1 <= N / 2) as H1 by (rewrite EH; apply Nat.neq_0_lt_0, Nat.pow_nonzero; lia).
  unfold pack, spectrum_layout. set (h := N / 2) in *. clearbody h. clear EN EH. subst N.
  replace (seq 0 (2 * h)) with ([0; 1] ++ seq 2 (2 * (h - 1))).
  2:{ change [0; 1] with (seq 0 2). etransitivity; [symmetry; apply (seq_app 2 (2 * (h - 1)) 0)|]. f_equal. lia. }
  rewrite map_app. f_equal.
  generalize (h - 1) as n. 
  assert (forall n j, 1 <= j ->
    flat_map (fun j => [fst (nth j sl (zero, zero)); snd (nth j sl (zero, zero))]) (seq j n)
    = map (fun i => if i =? 1 then fst (nth h sl (zero, zero))
         else if Nat.even i then fst (nth (i / 2) sl (zero, zero))
         else snd (nth (i / 2) sl (zero, zero))) (seq (2 * j) (2 * n))) as HH.
  { induction n as [|n IH]; intros j Hj; [reflexivity|].
    replace (2 * S n) with (S (S (2 * n))) by lia. cbn [seq map flat_map app].
    rewrite IH by lia. replace (2 * S j) with (S (S (2 * j))) by lia.
    destruct (Nat.eqb_spec (2 * j) 1); [lia|]. destruct (Nat.eqb_spec (S (2 * j)) 1); [lia|].
    assert (Nat.even (2 * j) = true) as -> by (apply Nat.even_spec; exists j; lia).
    assert (Nat.even (S (2 * j)) = false) as ->.
    { rewrite Nat.even_succ. rewrite <- Nat.negb_even.
      assert (Nat.even (2 * j) = true) as -> by (apply Nat.even_spec; exists j; lia). reflexivity. }
    assert (2 * j / 2 = j) as -> by (rewrite Nat.mul_comm; apply Nat.div_mul; lia).
    assert (S (2 * j) / 2 = j) as ->.
    { symmetry. apply (Nat.div_unique _ _ _ 1); lia. }
    reflexivity. }
  intros n. apply (HH n 1). lia.
Qed.

End PackLayout.

Section Init.
Context {D : Type} (zero : D) (add : D -> D -> D).

Lemma init_window_ok (s0 : @inverse D) w step : 2 <= length w ->
  (Z.of_nat (length w) <= 2 ^ 30)%Z -> (1 <= step)%Z ->
  exists N k v, N = 2 ^ S k /\ length w <= N < 2 * length w /\
    fft_length_for (length w) = Ok N /\
    inverse_init_window zero s0 w step = Ok (v, true) /\
    winv zero add N (length w) (Z.to_nat step) true w v [].
Proof.
  intros H2 Hb Hs. destruct (fft_length_ok (length w) H2 Hb) as (N & k & E & EN & HN & Ep & HNb).
  exists N, k.
  exists (mkInverse N (length w) (Z.to_nat step) (length w - Z.to_nat step) true false true w
            (repeat zero (length w - Z.to_nat step))).
  split; [exact EN|]. split; [exact HN|]. split; [exact E|]. split.
  { unfold inverse_init_window. destruct (Nat.ltb_spec (length w) 2); [lia|].
    rewrite Ep. cbn [obind].
    unfold oguard. destruct (Z.ltb_spec (Z.of_nat N) (2 ^ 31)) as [_|Hge].
    2:{ exfalso. change (2 ^ 31)%Z with 2147483648%Z in Hge.
        change (2 ^ 30)%Z with 1073741824%Z in HNb. lia. }
    destruct (Z.ltb_spec step 1); [lia|]. rewrite Nat2Z.id. reflexivity. }
  split. { unfold same. cbn. intuition. }
  split; [constructor|]. split; [reflexivity|]. cbn [iv_working].
  unfold overlap_add, covering. cbn. 
  generalize (length w - Z.to_nat step) as n. intros n. generalize 0 as a.
  induction n as [|n IH]; intros a; [reflexivity|]. cbn [repeat seq map]. f_equal. apply IH.
Qed.

Lemma init_fft_ok (s0 : @inverse D) N step :
  (2 <= N)%Z -> (N <= INT_MAX)%Z -> (exists k, (0 <= k)%Z /\ N = (2 ^ k)%Z) -> (1 <= step)%Z ->
  exists k v, Z.to_nat N = 2 ^ S k /\
    inverse_init_fft zero s0 N step = (v, true) /\
    winv zero add (Z.to_nat N) (Z.to_nat N) (Z.to_nat step) false (iv_window s0) v [] /\
    v = mkInverse (Z.to_nat N) (Z.to_nat N) (Z.to_nat step) (Z.to_nat N - Z.to_nat step) true false
         false (iv_window s0) (repeat zero (Z.to_nat N - Z.to_nat step)).
Proof.
  intros H2 Hb (k & Hk & EN) Hs.
  assert (1 <= k)%Z as Hk1.
  { destruct (Z.eq_dec k 0) as [->|]; [|lia]. cbn in EN. lia. }
  exists (Z.to_nat (k - 1)). eexists. split.
  { rewrite EN. apply Nat2Z.inj. rewrite Z2Nat.id by (apply Z.pow_nonneg; lia).
    rewrite Nat2Z.inj_pow. change (Z.of_nat 2) with 2%Z. f_equal. lia. }
  split.
  { unfold inverse_init_fft. destruct (Z.ltb_spec N 2); [lia|].
    assert (is_power_of_two_or_zero N = true) as ->.
    { apply C05_is_power_of_two_or_zero; [unfold UINT_MAX, INT_MAX in *; lia|].
      right. exists k. now split. }
    cbn [negb]. destruct (Z.ltb_spec step 1); [lia|]. reflexivity. }
  split; [|reflexivity].
  split. { unfold same. cbn. intuition. }
  split; [constructor|]. split; [reflexivity|]. cbn [iv_working internal_init iv_frame iv_step].
  unfold overlap_add, covering. cbn. 
  generalize (Z.to_nat N - Z.to_nat step) as n. intros n. generalize 0 as a.
  induction n as [|n IH]; intros a; [reflexivity|]. cbn [repeat seq map]. f_equal. apply IH.
Qed.

Lemma flush_ok N F step ww wf s ys : winv zero add N F step ww wf s ys ->
  omap snd (inv_flush zero s false) =
  Ok (Some (if length ys =? 0 then []
            else map (fun j => overlap_add zero add (F - (F - step)) ys
                                 (length ys * (F - (F - step)) + j)) (seq 0 (F - step)))).
Proof.
  intros ((_ & _ & _ & _ & Ei & _) & _ & Ep & Ew). unfold inv_flush. cbn [negb oguard].
  rewrite Ei, Ep, Ew. destruct (length ys =? 0); reflexivity.
Qed.

End Init.

Section Win.
Context {D : Type} (zero one : D).

Lemma win_window w : forall s, @iv_with_window D s = true -> iv_window s = w ->
  forall k, k < length w -> window_value zero one s k = Ok (nth k w zero).
Proof.
  intros s E1 E2 k Hk. unfold window_value. rewrite E1, E2. cbn [negb].
  destruct (Nat.ltb_spec (length w) k); [lia|]. now rewrite (nth_error_nth' w zero Hk).
Qed.

Lemma win_fft w F : forall s, @iv_with_window D s = false -> iv_window s = w ->
  forall k, k < F -> window_value zero one s k = Ok one.
Proof. intros s E1 _ k _. unfold window_value. now rewrite E1. Qed.
End Win.

From Coq Require Import Reals Lra.
From Verif Require Import RealUtil.
Local Open Scope R_scope.

Definition rsum (l : list R) : R := fold_right Rplus 0 l.

Lemma fold_left_rsum l : forall a, fold_left Rplus l a = a + rsum l.
Proof.
  induction l as [|x l IH]; intros a; cbn; [lra|]. rewrite IH. fold (rsum l). lra.
Qed.

Lemma rsum_perm l l' : Permutation l l' -> rsum l = rsum l'.
Proof.
  unfold rsum. induction 1; cbn; lra.
Qed.

Lemma rsum_scale c l : rsum (map (Rmult c) l) = c * rsum l.
Proof. induction l; cbn; [lra|]. fold (rsum l). unfold rsum in *. rewrite IHl. lra. Qed.

Lemma concat_filter {A B} (c : A -> bool) (h : A -> B) l :
  concat (map (fun i => if c i then [h i] else []) l) = map h (filter c l).
Proof.
  induction l as [|a l IH]; [reflexivity|]. cbn [map concat filter]. rewrite IH.
  destruct (c a); reflexivity.
Qed.

Local Open Scope nat_scope.

(* Offsets o with o = t mod step, reached through the frames that cover t. *)
Lemma residue_perm step W m t : 1 <= step -> W - step <= t -> t < m * step ->
  Permutation
    (map (fun i => t - i * step)
      (filter (fun i => (i * step <=? t) && (t - i * step <? W)) (seq 0 m)))
    (filter (fun o => Nat.modulo o step =? Nat.modulo t step) (seq 0 W)).
Proof.
  intros Hs H1 H2. apply NoDup_Permutation.
  - assert (NoDup (filter (fun i => (i * step <=? t) && (t - i * step <? W)) (seq 0 m))) as Hn
      by (apply NoDup_filter, seq_NoDup).
    assert (forall i, In i (filter (fun i => (i * step <=? t) && (t - i * step <? W)) (seq 0 m))
      -> i * step <= t) as Hi.
    { intros i Hi. apply filter_In in Hi. destruct Hi as [_ Hi].
      apply andb_prop in Hi. destruct Hi as [Hi _]. now apply Nat.leb_le in Hi. }
    revert Hn Hi. generalize (filter (fun i => (i * step <=? t) && (t - i * step <? W)) (seq 0 m)) as l.
    induction l as [|a l IH]; intros Hn Hi; [constructor|].
    apply NoDup_cons_iff in Hn. destruct Hn as [Ha Hn]. cbn [map]. constructor.
    + intros HI. apply in_map_iff in HI. destruct HI as (b & Eb & Hb).
      apply Ha. replace a with b; [exact Hb|].
      assert (a * step <= t) by (apply Hi; now left).
      assert (b * step <= t) by (apply Hi; now right).
      assert (b * step = a * step) by lia. nia.
    + apply IH; [exact Hn|]. intros; apply Hi; now right.
  - apply NoDup_filter, seq_NoDup.
  - intros o. rewrite in_map_iff. split.
    + intros (i & <- & Hi). apply filter_In in Hi. destruct Hi as [Hi Hc].
      apply andb_prop in Hc. destruct Hc as [Hc1 Hc2].
      apply Nat.leb_le in Hc1. apply Nat.ltb_lt in Hc2.
      apply filter_In. split; [apply in_seq; lia|]. apply Nat.eqb_eq.
      replace t with ((t - i * step) + i * step) at 2 by lia.
      symmetry. apply Nat.mod_add. lia.
    + intros Ho. apply filter_In in Ho. destruct Ho as [Ho Hc].
      apply in_seq in Ho. apply Nat.eqb_eq in Hc.
      pose proof (Nat.div_mod o step ltac:(lia)) as Eo.
      pose proof (Nat.div_mod t step ltac:(lia)) as Et.
      assert (t / step < m) as Htm by (apply Nat.div_lt_upper_bound; lia).
      pose proof (Nat.mod_upper_bound t step ltac:(lia)) as Hr.
      assert (o / step <= t / step) as Hle.
      { destruct (Nat.le_gt_cases (o / step) (t / step)) as [|Hgt]; [assumption|]. exfalso.
        set (qo := o / step) in *. set (qt := t / step) in *. 
        assert (step * qo >= step * qt + step) by nia. lia. }
      set (qo := o / step) in *. set (qt := t / step) in *.
      exists (qt - qo). 
      assert ((qt - qo) * step = step * qt - step * qo) as E by nia.
      assert (step * qo <= step * qt) by (apply Nat.mul_le_mono_l; lia).
      split; [lia|]. apply filter_In. split; [apply in_seq; lia|].
      apply andb_true_intro. split; [apply Nat.leb_le; lia|apply Nat.ltb_lt; lia].
Qed.

Section Reconstruct.
Open Scope R_scope.
Variables (rdft irdft : list R -> list R) (w : list R) (step N k : nat).
Hypothesis EN : N = (2 ^ S k)%nat.
Hypothesis HW : (length w <= N)%nat.
Hypothesis Hst : (1 <= step <= length w)%nat.
Hypothesis Hl : forall u, length u = N -> length (rdft u) = N.
Hypothesis Hinv : forall u, length u = N -> irdft (rdft u) = map (Rmult (INR (N / 2))) u.
Variable g : list R.
Hypothesis Hg : generate_synthesis_window 0 Rplus Rmult Rdiv (fun x => Reqb x 0) w step = Ok g.
Notation W := (length w).

Definition slice_at (xs : list R) (i : nat) : list (R * R) :=
  map (spectrum_bin 0 N (frame_spectrum 0 Rmult rdft w N xs (i * step))) (seq 0 (1 + N / 2)).

Lemma half_pos : 0 < INR (N / 2).
Proof.
  assert (N / 2 = 2 ^ k)%nat as ->.
  { rewrite EN. cbn [Nat.pow]. rewrite Nat.mul_comm. apply Nat.div_mul. lia. }
  apply lt_0_INR, Nat.neq_0_lt_0, Nat.pow_nonzero. lia.
Qed.

Lemma g_length : length g = W.
Proof.
  revert Hg. unfold generate_synthesis_window, ocheck.
  destruct (step <=? W); [|discriminate].
  match goal with |- context [forallb ?f ?l] => destruct (forallb f l) end; [|discriminate].
  intros E. injection E as <-. now rewrite map_length, seq_length.
Qed.

Lemma g_nth o : (o < W)%nat -> 
  nth o g 0 = nth o w 0 / synth_denom 0 Rplus Rmult w step (o mod step) /\
  synth_denom 0 Rplus Rmult w step (o mod step) <> 0.
Proof.
  intros Ho. revert Hg. unfold generate_synthesis_window, ocheck.
  destruct (step <=? W); [|discriminate].
  match goal with |- context [forallb ?f ?l] => destruct (forallb f l) eqn:Ef end; [|discriminate].
  intros E. injection E as <-. split.
  - rewrite nth_map_seq by lia. reflexivity.
  - rewrite forallb_forall in Ef. specialize (Ef (o mod step)%nat).
    intros E0. rewrite E0 in Ef. unfold Reqb in Ef.
    assert (In (o mod step)%nat (seq 0 step)) as Hin.
    { apply in_seq. pose proof (Nat.mod_upper_bound o step). lia. }
    specialize (Ef Hin). destruct (Req_EM_T 0 0); [discriminate|congruence].
Qed.

Lemma frame_recon xs i kk : (kk < W)%nat ->
  nth kk (fr 0 Rmult Rdiv INR irdft N W (fun k => nth k g 0) (slice_at xs i)) 0
  = nth (i * step + kk) xs 0 * (nth kk w 0 * nth kk g 0).
Proof.
  intros Hk. unfold fr, synth_frame. rewrite nth_map_seq by lia. cbn [Nat.add].
  unfold slice_at. rewrite (pack_bins 0 N k) by (try exact EN; apply Hl; rewrite map_length, seq_length; reflexivity).
  unfold frame_spectrum. rewrite Hinv by (rewrite map_length, seq_length; reflexivity).
  rewrite map_map, nth_map_seq by lia. cbn [Nat.add].
  destruct (Nat.ltb_spec kk W); [|lia]. pose proof half_pos. field. lra.
Qed.

Lemma denom_rsum r : synth_denom 0 Rplus Rmult w step r =
  rsum (map (fun o => nth o w 0 * nth o w 0) (filter (fun o => Nat.modulo o step =? r) (seq 0 W))).
Proof.
  unfold synth_denom.
  generalize (filter (fun o => Nat.modulo o step =? r) (seq 0 W)) as l. intros l.
  assert (forall a, fold_left (fun acc o => acc + nth o w 0 * nth o w 0) l a
    = a + rsum (map (fun o => nth o w 0 * nth o w 0) l)) as H.
  { induction l as [|x l IH]; intros a; cbn; [lra|]. rewrite IH. unfold rsum. lra. }
  cbv zeta. rewrite H. lra.
Qed.

Lemma recon xs m t : (W - step <= t)%nat -> (t < m * step)%nat ->
  overlap_add 0 Rplus step
    (map (fun i => fr 0 Rmult Rdiv INR irdft N W (fun k => nth k g 0) (slice_at xs i)) (seq 0 m)) t
  = nth t xs 0.
Proof.
  intros H1 H2. unfold overlap_add. rewrite fold_left_rsum, Rplus_0_l.
  assert (SpectrogramSpec.covering step (map (fun i => fr 0 Rmult Rdiv INR irdft N W (fun k => nth k g 0)
       (slice_at xs i)) (seq 0 m)) t
    = map (fun o => nth t xs 0 * (nth o w 0 * nth o g 0))
        (map (fun i => (t - i * step)%nat)
          (filter (fun i => (i * step <=? t)%nat && (t - i * step <? W)%nat) (seq 0 m)))) as ->.
  { unfold SpectrogramSpec.covering. rewrite map_length, seq_length, map_map.
    rewrite <- concat_filter. f_equal. apply map_ext_in. intros i Hi. apply in_seq in Hi.
    rewrite nth_error_map, nth_error_seq. destruct (Nat.ltb_spec i m) as [_|]; [|lia].
    cbn [option_map Nat.add].
    destruct (Nat.leb_spec (i * step) t) as [Ht|Ht]; [|reflexivity]. cbn [andb].
    destruct (Nat.ltb_spec (t - i * step) W) as [Hw|Hw].
    - rewrite (nth_error_nth' _ 0) by (unfold fr, synth_frame; rewrite map_length, seq_length; lia).
      rewrite frame_recon by lia. replace (i * step + (t - i * step))%nat with t by lia. reflexivity.
    - rewrite (proj2 (nth_error_None _ _)); [reflexivity|].
      unfold fr, synth_frame. rewrite map_length, seq_length. lia. }
  rewrite (rsum_perm _ _ (Permutation_map _ (residue_perm step W m t ltac:(lia) H1 H2))).
  set (B := filter _ (seq 0 W)).
  set (d := synth_denom 0 Rplus Rmult w step (t mod step)).
  assert (forall o, In o B -> (o < W)%nat /\ (o mod step = t mod step)%nat) as HB.
  { intros o Ho. apply filter_In in Ho. destruct Ho as [Ho Hc]. apply in_seq in Ho.
    apply Nat.eqb_eq in Hc. split; [lia|exact Hc]. }
  assert (d <> 0) as Hd.
  { pose proof (Nat.mod_upper_bound t step ltac:(lia)) as Hr.
    destruct (g_nth (t mod step)%nat) as [_ Hne]; [lia|].
    rewrite Nat.mod_mod in Hne by lia. exact Hne. }
  transitivity (rsum (map (Rmult (nth t xs 0 / d)) (map (fun o => nth o w 0 * nth o w 0) B))).
  { rewrite map_map. f_equal. apply map_ext_in. intros o Ho. destruct (HB o Ho) as [Ho1 Ho2].
    destruct (g_nth o Ho1) as [-> _]. rewrite Ho2. fold d. field. exact Hd. }
  rewrite rsum_scale. unfold B. rewrite <- denom_rsum. fold d. field. exact Hd.
Qed.
End Reconstruct.
