From Verif Require Import Common CInt RealUtil ListLemmas NthLemmas MfccModel MfccSpec
  MfccProofs MfccProofs2.
From Coq Require Import Rtrigo1 R_Ifp.
Local Open Scope R_scope.

Lemma fits fft rate low up : 0 < rate -> (2 <= fft < INT_MAX)%Z -> 0 <= low -> low < up -> up <= rate / 2 ->
  3 / 2 + low / bin_hz fft rate < IZR INT_MAX /\ up / bin_hz fft rate < IZR INT_MAX.
Proof.
  intros Hr Hf Hl Hlu Hu. pose proof (hz_pos fft rate Hr (proj1 Hf)) as Hz.
  assert (forall a, a <= rate / 2 -> a / bin_hz fft rate <= IZR fft - 1) as Hd.
  { intros a Ha. apply (Rmult_le_reg_r (bin_hz fft rate)); [exact Hz|]. unfold Rdiv at 1.
    rewrite Rmult_assoc, Rinv_l by lra. rewrite Rmult_1_r. unfold bin_hz.
    destruct Hf as [Hf _]. apply IZR_le in Hf.
    replace ((IZR fft - 1) * (rate / (2 * (IZR fft - 1)))) with (rate / 2) by (field; lra). exact Ha. }
  assert (IZR fft <= IZR INT_MAX - 1) by (rewrite <- minus_IZR; apply IZR_le; lia).
  pose proof (Hd up ltac:(lra)). pose proof (Hd low ltac:(lra)).
  split; [|lra].
  assert (low / bin_hz fft rate < up / bin_hz fft rate).
  { unfold Rdiv. apply Rmult_lt_compat_r; [now apply Rinv_0_lt_compat|lra]. }
  destruct (Rle_dec (low / bin_hz fft rate) (IZR fft - 3 / 2)) as [Hle|Hgt]; [lra|].
  lra.
Qed.

Lemma vget_inv {A} (l : list A) c : vget l c = Undef \/ exists x, vget l c = Ok x.
Proof.
  unfold vget. destruct (0 <=? c)%Z; [|now left]. destruct (nth_error l (Z.to_nat c)); eauto.
Qed.
Lemma vset_inv {A} (l : list A) c y : vset l c y = Undef \/ exists x, vset l c y = Ok x.
Proof. unfold vset, oguard. destruct (_ && _)%bool; eauto. Qed.
Lemma vadd_inv l c y : vadd l c y = Undef \/ exists x, vadd l c y = Ok x.
Proof.
  unfold vadd. destruct (vget_inv l c) as [->|[x ->]]; cbn [obind]; [now left|]. apply vset_inv.
Qed.

Definition no_check {A} (o : outcome A) : Prop := o = Undef \/ exists x, o = Ok x.
Lemma no_check_bind {A B} (o : outcome A) (f : A -> outcome B) : no_check o ->
  (forall x, no_check (f x)) -> no_check (obind o f).
Proof. intros [->|[x ->]] H; cbn [obind]; [now left|apply H]. Qed.
Lemma no_check_if {A} (b : bool) (x y : outcome A) : no_check x -> no_check y -> no_check (if b then x else y).
Proof. now destruct b. Qed.
Lemma no_check_guard {A} b (x : outcome A) : no_check x -> no_check (oguard b x).
Proof. intros H. destruct b; cbn; [exact H|now left]. Qed.
Lemma no_check_ok {A} (x : A) : no_check (Ok x).
Proof. right. eauto. Qed.
Lemma no_check_fold {S A} (f : S -> A -> outcome S) : (forall s x, no_check (f s x)) ->
  forall l s, no_check (ofold f s l).
Proof.
  intros H. induction l as [|x l IH]; intros s; [apply no_check_ok|]. cbn [ofold].
  apply no_check_bind; [apply H|exact IH].
Qed.

Lemma inverse_bin_no_check s m out i : no_check (mel_inverse_bin s m out i).
Proof.
  unfold mel_inverse_bin. apply no_check_bind; [apply vget_inv|]. intros c.
  apply no_check_bind.
  { apply no_check_if; [|apply no_check_ok]. apply no_check_bind; [apply vget_inv|]. intros w.
    apply no_check_bind; [apply vget_inv|]. intros y. apply no_check_bind; [apply vget_inv|]. intros d.
    apply no_check_guard, vadd_inv. }
  intros o1. apply no_check_bind.
  { apply no_check_if; [|apply no_check_ok]. apply no_check_bind; [apply vget_inv|]. intros w.
    apply no_check_bind; [apply vget_inv|]. intros y. apply no_check_bind; [apply vget_inv|]. intros d.
    apply no_check_guard, vadd_inv. }
  intros o2. apply no_check_bind; [apply vget_inv|]. intros v. apply vset_inv.
Qed.

Lemma zrange_split a b c : (a <= b <= c)%Z -> zrange a c = zrange a (b - 1) ++ b :: zrange (b + 1) c.
Proof.
  intros H. unfold zrange.
  replace (Z.to_nat (c - a + 1)) with (Z.to_nat (b - 1 - a + 1) + S (Z.to_nat (c - (b + 1) + 1)))%nat by lia.
  rewrite seq_app, map_app. f_equal. cbn [Nat.add seq map]. f_equal; [lia|].
  assert (forall n s z, map (fun k => (a + Z.of_nat k)%Z) (seq (s + z) n) =
    map (fun k => (a + Z.of_nat s + Z.of_nat k)%Z) (seq z n)) as Hs.
  { induction n as [|n IH]; intros s z; [reflexivity|]. cbn [seq map]. f_equal; [lia|].
    replace (S (s + z)) with (s + S z)%nat by lia. apply IH. }
  replace (S (Z.to_nat (b - 1 - a + 1))) with (S (Z.to_nat (b - 1 - a + 1)) + 0)%nat by lia.
  rewrite Hs. apply map_ext. intros. lia.
Qed.

Section Above.
Variables (fft : Z) (rate : R) (num : Z) (low up : R).
Hypotheses (Hnum : (1 <= num)%Z) (Hrate : 0 < rate) (Hfft : (2 <= fft)%Z)
           (Hlow : 0 <= low) (Hup : low < up).

Lemma above_compute s x : good fft rate num low up s -> bin_used fft rate low up (Z.to_nat fft) = true ->
  (forall v, In v x -> 0 <= v) -> (me_end s < Z.of_nat (length x))%Z -> mel_compute s x = Undef.
Proof.
  intros Hg Hu Hx Hl.
  pose proof Hg as (start & end_ & E1 & E2 & Gi & Gn & Gf & Gs & Ge & Lw & Lm & Hwm & Ls & Hs).
  unfold mel_compute. rewrite Gi, Gn, Gs. rewrite Ge in *. cbn [negb].
  pose proof (proj1 (used_iff fft rate num low up Hrate Hfft Hlow Hup start end_ (Z.to_nat fft) E1 E2) Hu) as Hse.
  destruct (range_used fft rate num low up Hrate Hfft Hlow Hup start end_ E1 E2) as (H0s & H0e & Hru).
  destruct (Z.ltb_spec end_ 0); [lia|]. destruct (Z.leb_spec (Z.of_nat (length x)) end_); [lia|].
  cbn [orb]. unfold oguard. destruct (0 <=? num)%Z; [|reflexivity].
  rewrite (zrange_split start fft end_) by lia. rewrite ofold_app.
  destruct (compute_fold fft rate num low up Hnum Hrate Hfft Hlow Hup s x Hg Hx (zrange start (fft - 1))
     (repeat 0 (Z.to_nat num))) as (m & -> & _ & _).
  - apply repeat_length.
  - apply Forall_forall. intros i Hi. apply zrange_in in Hi. split; [lia|]. apply Hru. lia.
  - cbn [obind ofold]. unfold mel_compute_bin at 1. rewrite (vget_ok 0) by lia. cbn [obind]. unfold oguard.
    rewrite Rleb_true by (apply Hx, nth_In; lia). rewrite (vget_undef (me_weights s)) by lia. reflexivity.
Qed.

Lemma above_inverse s m : good fft rate num low up s -> bin_used fft rate low up (Z.to_nat fft) = true ->
  Z.of_nat (length m) = num -> mel_estimate_inverse s m = Undef.
Proof.
  intros Hg Hu Lm0.
  pose proof Hg as (start & end_ & E1 & E2 & Gi & Gn & Gf & Gs & Ge & Lw & Lm & Hwm & Ls & Hs).
  unfold mel_estimate_inverse. rewrite Gi, Gn, Gf, Gs, Ge, Lm0, Z.eqb_refl. cbn [negb].
  pose proof (proj1 (used_iff fft rate num low up Hrate Hfft Hlow Hup start end_ (Z.to_nat fft) E1 E2) Hu) as Hse.
  unfold oguard. destruct (0 <=? fft)%Z; [|reflexivity].
  rewrite (zrange_split start fft end_) by lia. rewrite ofold_app.
  destruct (no_check_fold _ (inverse_bin_no_check s m) (zrange start (fft - 1)) (repeat 0 (Z.to_nat fft))) as [->|[o ->]];
    [reflexivity|].
  cbn [obind ofold]. unfold mel_inverse_bin at 1. rewrite (vget_undef (me_mapper s)) by lia. reflexivity.
Qed.
End Above.

(* A configuration with a single bin, exactly at the upper limit. *)
Lemma hz3 : bin_hz 3 4 = 1.
Proof. unfold bin_hz. lra. Qed.
Lemma cfg_used i : bin_used 3 4 1 2 i = (i =? 2)%nat.
Proof.
  unfold bin_used. rewrite hz3. destruct i as [|[|[|i]]].
  - rewrite Rltb_false by (cbn; lra). reflexivity.
  - rewrite Rltb_false by (cbn; lra). reflexivity.
  - rewrite Rltb_true, Rleb_true by (cbn; lra). reflexivity.
  - rewrite (Rleb_false (INR (S (S (S i))) * 1)); [apply andb_false_r|].
    rewrite !S_INR. pose proof (pos_INR i). lra.
Qed.
Lemma cfg_pos : bpos 3 4 1 1 2 2 = 1.
Proof.
  unfold bpos, mel_width. rewrite hz3. replace (INR 2 * 1) with 2 by (cbn; lra).
  assert (mel_scale 1 < mel_scale 2) by (apply mel_scale_incr; lra). field. lra.
Qed.
Lemma cfg_chan : bchan 3 4 1 1 2 2 = 0%Z.
Proof.
  unfold bchan. rewrite cfg_pos. pose proof (ceil_bounds 1) as [A B].
  assert (ceil 1 < 2)%Z by (apply lt_IZR; lra). assert (1 <= ceil 1)%Z by (apply le_IZR; lra). lia.
Qed.
Lemma cfg_wt : bwt 3 4 1 1 2 2 = 0.
Proof. unfold bwt. rewrite cfg_pos, cfg_chan. lra. Qed.
Lemma cfg_total : mel_total 3 4 1 1 2 0 = 0.
Proof.
  unfold mel_total. apply rsum_zero. intros i _. unfold mel_weight. rewrite cfg_used.
  destruct (Nat.eqb_spec i 2) as [->|]; [|reflexivity].
  rewrite (triangle_split 3 4 1 1 2) by (lia || lra || (rewrite cfg_used; reflexivity)).
  rewrite cfg_chan, cfg_wt. cbn. lra.
Qed.

Lemma cfg_init : exists s, mel_initialize mel_new 3 4 1 1 2 = Ok (s, true) /\ good 3 4 1 1 2 s /\
  me_start s = 2%Z /\ me_end s = 2%Z.
Proof.
  destruct (fits 3 4 1 2) as [F1 F2]; try lra; [unfold INT_MAX; lia|].
  destruct (initialize_ok 3 4 1 1 2) with (s := mel_new) as (s & E & Hg); try lra; try lia.
  exists s. split; [exact E|]. split; [exact Hg|].
  destruct Hg as (start & end_ & E1 & E2 & _ & _ & _ & -> & -> & _).
  rewrite hz3 in *. apply cast_int_inv in E1; [|lra]. apply cast_int_inv in E2; [|lra].
  destruct E1 as [[A B] _]. destruct E2 as [[C D] _].
  split.
  - assert (start < 3)%Z by (apply lt_IZR; lra). assert (1 < start)%Z by (apply lt_IZR; lra). lia.
  - assert (end_ < 3)%Z by (apply lt_IZR; lra). assert (1 < end_)%Z by (apply lt_IZR; lra). lia.
Qed.

Lemma cfg_inverse s y : good 3 4 1 1 2 s -> me_start s = 2%Z -> me_end s = 2%Z ->
  mel_estimate_inverse s [y] = Undef.
Proof.
  intros (start & end_ & E1 & E2 & Gi & Gn & Gf & Gs & Ge & Lw & Lm & Hwm & Ls & Hs) S1 S2.
  unfold mel_estimate_inverse. rewrite Gi, Gn, Gf, S1, S2.
  change (zrange 2 2) with [2%Z]. cbn [negb length Z.of_nat Z.eqb Pos.of_succ_nat Pos.eqb oguard Z.leb Z.compare ofold].
  destruct (Hwm 2%nat ltac:(cbn; lia) (cfg_used 2)) as [Ew Em].
  unfold mel_inverse_bin. rewrite (vget_ok 0%Z (me_mapper s)) by lia. change (Z.to_nat 2) with 2%nat. rewrite Em, cfg_chan.
  cbn [obind]. rewrite Gn. change (0 + 1 <? 1)%Z with false. change (0 <=? 0)%Z with true. cbn iota. cbn [obind].
  rewrite (vget_ok 0 (me_weights s)) by lia. cbn [obind]. change (vget [y] 0) with (Ok y). cbn [obind].
  rewrite (vget_ok 0 (me_sums s)) by lia. cbn [obind]. change (Z.to_nat 0) with 0%nat.
  rewrite Hs by (cbn; lia). rewrite cfg_total. unfold oguard.
  rewrite (proj2 (Reqb_true_iff 0 0) eq_refl). reflexivity.
Qed.

Lemma cfg_reinit s a b c : good 3 4 1 1 2 s -> me_start s = 2%Z -> me_end s = 2%Z ->
  0 <= a -> 0 <= b -> 0 <= c ->
  exists s', mel_initialize s 3 4 0 1 2 = Ok (s', false) /\ mel_compute s' [a; b; c] = Undef.
Proof.
  intros (start & end_ & E1 & E2 & Gi & Gn & Gf & Gs & Ge & Lw & Lm & Hwm & Ls & Hs) S1 S2 Ha Hb Hc.
  eexists. split; [reflexivity|]. unfold mel_compute. cbn [me_init me_end me_num me_start].
  rewrite Gi, S1, S2. change (zrange 2 2) with [2%Z]. cbn [negb].
  change ((2 <? 0) || (Z.of_nat (length [a; b; c]) <=? 2))%Z with false. cbn iota.
  unfold oguard. change (0 <=? 0)%Z with true. cbn iota. cbn [ofold].
  unfold mel_compute_bin. change (vget [a; b; c] 2) with (Ok c). cbn [obind me_weights me_mapper me_num].
  unfold oguard. rewrite Rleb_true by exact Hc. destruct (Hwm 2%nat ltac:(cbn; lia) (cfg_used 2)) as [Ew Em].
  rewrite (vget_ok 0 (me_weights s)) by lia. rewrite (vget_ok 0%Z (me_mapper s)) by lia.
  change (Z.to_nat 2) with 2%nat. cbn [obind]. rewrite Em, cfg_chan. reflexivity.
Qed.

(* Cosine sums. *)
Lemma cos_sum n th : rsum (map (fun j => cos ((INR j + 1 / 2) * th)) (seq 0 n)) * (2 * sin (th / 2)) = sin (INR n * th).
Proof.
  induction n as [|n IH].
  - cbn. rewrite Rmult_0_l, Rmult_0_l, sin_0. reflexivity.
  - rewrite seq_S, map_app, rsum_app, Rmult_plus_distr_r, IH. cbn [map rsum fold_right Nat.add].
    rewrite S_INR, Rplus_0_r.
    replace ((INR n + 1) * th) with ((INR n + 1 / 2) * th + th / 2) by lra.
    replace (INR n * th) with ((INR n + 1 / 2) * th - th / 2) by lra.
    rewrite sin_plus, sin_minus. ring.
Qed.

Lemma sin_nat_PI m : sin (INR m * PI) = 0.
Proof.
  induction m as [|m IH]; [cbn; rewrite Rmult_0_l; apply sin_0|].
  rewrite S_INR. replace ((INR m + 1) * PI) with (INR m * PI + PI) by lra. rewrite neg_sin, IH. lra.
Qed.

Lemma cos_sum_zero n m : (0 < m < 2 * n)%nat ->
  rsum (map (fun j => cos ((INR j + 1 / 2) * (PI * INR m / INR n))) (seq 0 n)) = 0.
Proof.
  intros H. pose proof PI_RGT_0 as Hpi.
  assert (0 < INR n) as Hn by (apply lt_0_INR; lia).
  assert (0 < INR m) as Hm by (apply lt_0_INR; lia).
  assert (INR m < 2 * INR n) as Hmn by (replace 2 with (INR 2) by (cbn; lra); rewrite <- mult_INR; apply lt_INR; lia).
  pose proof (cos_sum n (PI * INR m / INR n)) as E.
  replace (INR n * (PI * INR m / INR n)) with (INR m * PI) in E by (field; lra).
  rewrite sin_nat_PI in E. apply Rmult_integral in E. destruct E as [E|E]; [exact E|]. exfalso.
  assert (0 < sin (PI * INR m / INR n / 2)); [|lra].
  assert (0 < INR m / (2 * INR n)) by (apply Rmult_lt_0_compat; [lra|apply Rinv_0_lt_compat; lra]).
  assert (INR m / (2 * INR n) < 1).
  { apply (Rmult_lt_reg_r (2 * INR n)); [lra|]. unfold Rdiv. rewrite Rmult_assoc, Rinv_l by lra. lra. }
  replace (PI * INR m / INR n / 2) with (PI * (INR m / (2 * INR n))) by (field; lra).
  apply sin_gt_0; [apply Rmult_lt_0_compat; lra|].
  rewrite <- (Rmult_1_r PI) at 2. apply Rmult_lt_compat_l; lra.
Qed.

Lemma rsum_plus (f g : nat -> R) l : rsum (map (fun x => f x + g x) l) = rsum (map f l) + rsum (map g l).
Proof. induction l; cbn; [lra|]. unfold rsum in IHl. rewrite IHl. lra. Qed.
Lemma rsum_mult c (f : nat -> R) l : rsum (map (fun x => c * f x) l) = c * rsum (map f l).
Proof. induction l; cbn; [lra|]. unfold rsum in IHl. rewrite IHl. lra. Qed.
Lemma rsum_const c (l : list nat) : rsum (map (fun _ => c) l) = INR (length l) * c.
Proof. induction l; [cbn; lra|]. cbn [map rsum fold_right length]. rewrite S_INR. unfold rsum in IHl. rewrite IHl. lra. Qed.

Definition basis (n i j : nat) : R := sqrt (2 / INR n) * cos (PI * INR i * (INR j + 1 / 2) / INR n).

Lemma basis_orth n i k : (1 <= n)%nat -> (i < n)%nat -> (k < n)%nat ->
  rsum (map (fun j => basis n i j * basis n k j) (seq 0 n)) =
    if (i =? k)%nat then (if (i =? 0)%nat then 2 else 1) else 0.
Proof.
  intros Hn Hi Hk.
  assert (0 < INR n) as Hn0 by (apply lt_0_INR; lia).
  assert (0 <= 2 / INR n) as H2 by (apply Rmult_le_pos; [lra|left; now apply Rinv_0_lt_compat]).
  assert (forall a b : nat, (a <= b)%nat -> rsum (map (fun j => basis n a j * basis n b j) (seq 0 n)) =
    / INR n * rsum (map (fun j => cos ((INR j + 1 / 2) * (PI * INR (b - a) / INR n))) (seq 0 n)) +
    / INR n * rsum (map (fun j => cos ((INR j + 1 / 2) * (PI * INR (b + a) / INR n))) (seq 0 n))) as Hg.
  { intros a b Hab. rewrite <- !rsum_mult, <- rsum_plus. apply rsum_ext. intros j _. unfold basis.
    set (A := PI * INR a * (INR j + 1 / 2) / INR n). set (B := PI * INR b * (INR j + 1 / 2) / INR n).
    replace ((INR j + 1 / 2) * (PI * INR (b - a) / INR n)) with (B - A)
      by (unfold A, B; rewrite minus_INR by exact Hab; field; lra).
    replace ((INR j + 1 / 2) * (PI * INR (b + a) / INR n)) with (B + A)
      by (unfold A, B; rewrite plus_INR; field; lra).
    rewrite cos_minus, cos_plus.
    replace (sqrt (2 / INR n) * cos A * (sqrt (2 / INR n) * cos B)) with
      (sqrt (2 / INR n) * sqrt (2 / INR n) * (cos A * cos B)) by ring.
    rewrite sqrt_sqrt by exact H2. field. lra. }
  assert (forall a b : nat, (a <= b)%nat -> (b < n)%nat -> rsum (map (fun j => basis n a j * basis n b j) (seq 0 n)) =
    if (a =? b)%nat then (if (a =? 0)%nat then 2 else 1) else 0) as Hm.
  { intros a b Hab Hb. rewrite Hg by exact Hab. destruct (Nat.eqb_spec a b) as [->|Hne].
    - replace (b - b)%nat with 0%nat by lia.
      rewrite (rsum_ext _ (fun _ => 1)).
      2:{ intros j _. replace ((INR j + 1 / 2) * (PI * INR 0 / INR n)) with 0 by (cbn; field; lra). apply cos_0. }
      rewrite rsum_const, seq_length, Rmult_1_r, Rinv_l by lra.
      destruct (Nat.eqb_spec b 0) as [->|Hb0].
      + rewrite (rsum_ext _ (fun _ => 1)).
        2:{ intros j _. replace ((INR j + 1 / 2) * (PI * INR (0 + 0) / INR n)) with 0 by (cbn; field; lra). apply cos_0. }
        rewrite rsum_const, seq_length, Rmult_1_r, Rinv_l by lra. lra.
      + rewrite cos_sum_zero by lia. lra.
    - rewrite !cos_sum_zero by lia. lra. }
  destruct (Nat.le_ge_cases i k) as [H|H]; [now apply Hm|].
  rewrite (rsum_ext _ (fun j => basis n k j * basis n i j)) by (intros; ring).
  rewrite Hm by assumption. rewrite (Nat.eqb_sym k i). destruct (Nat.eqb_spec i k) as [->|]; reflexivity.
Qed.
