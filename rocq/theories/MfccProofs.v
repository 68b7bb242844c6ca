From Verif Require Import Common CInt RealUtil ListLemmas NthLemmas MfccModel MfccSpec.
From Coq Require Import Rtrigo1 R_Ifp.
Local Open Scope R_scope.

(* Sums *)
Lemma rsum_app a b : rsum (a ++ b) = rsum a + rsum b.
Proof. unfold rsum. induction a; cbn; [lra|]. rewrite IHa. lra. Qed.
Lemma rsum_zero {A} (f : A -> R) l : (forall x, In x l -> f x = 0) -> rsum (map f l) = 0.
Proof.
  induction l as [|a l IH]; intros H; [reflexivity|]. cbn. rewrite (H a) by now left.
  fold (rsum (map f l)). rewrite IH; [lra|]. intros; apply H; now right.
Qed.
Lemma rsum_ext {A} (f g : A -> R) l : (forall x, In x l -> f x = g x) -> rsum (map f l) = rsum (map g l).
Proof. intros H. f_equal. now apply map_ext_in. Qed.
Lemma rsum_nonneg {A} (f : A -> R) l : (forall x, In x l -> 0 <= f x) -> 0 <= rsum (map f l).
Proof.
  induction l as [|a l IH]; intros H; cbn; [lra|]. fold (rsum (map f l)).
  assert (0 <= f a) by (apply H; now left).
  assert (0 <= rsum (map f l)) by (apply IH; intros; apply H; now right). lra.
Qed.
Lemma rsum_ge {A} (f : A -> R) l x : (forall x, In x l -> 0 <= f x) -> In x l -> f x <= rsum (map f l).
Proof.
  induction l as [|a l IH]; intros H Hin; [easy|]. cbn. fold (rsum (map f l)).
  assert (0 <= f a) by (apply H; now left).
  assert (0 <= rsum (map f l)) by (apply rsum_nonneg; intros; apply H; now right).
  destruct Hin as [->|Hin]; [lra|]. assert (f x <= rsum (map f l)) by (apply IH; [intros; apply H; now right|exact Hin]). lra.
Qed.

(* floor and ceiling *)
Lemma Int_part_unique x z : IZR z <= x < IZR z + 1 -> Int_part x = z.
Proof.
  intros H. unfold Int_part. assert (up x = z + 1)%Z; [|lia].
  symmetry. apply tech_up; rewrite plus_IZR; lra.
Qed.
Lemma Int_part_bounds x : IZR (Int_part x) <= x < IZR (Int_part x) + 1.
Proof. destruct (base_Int_part x). lra. Qed.
Lemma ceil_bounds x : IZR (ceil x) - 1 < x <= IZR (ceil x).
Proof. unfold ceil. rewrite opp_IZR. destruct (Int_part_bounds (- x)). lra. Qed.
Lemma cast_int_inv x z : 0 <= x -> cast_int x = Ok z -> IZR z <= x < IZR z + 1 /\ (0 <= z <= INT_MAX)%Z.
Proof.
  intros Hx. unfold cast_int. rewrite Rleb_true by exact Hx. unfold oguard.
  destruct (_ && _)%bool eqn:E; [|discriminate]. intros H. assert (z = Int_part x) as -> by congruence.
  pose proof (Int_part_bounds x) as B. split; [exact B|]. apply andb_prop in E. destruct E as [_ E].
  apply Z.leb_le in E. split; [|exact E].
  assert (-1 < Int_part x)%Z; [|lia]. apply lt_IZR. lra.
Qed.
Lemma cast_int_ok x : 0 <= x < IZR INT_MAX -> cast_int x = Ok (Int_part x).
Proof.
  intros H. unfold cast_int. rewrite Rleb_true by lra. pose proof (Int_part_bounds x) as B.
  assert (-1 < Int_part x)%Z by (apply lt_IZR; lra).
  assert (Int_part x <= INT_MAX)%Z by (apply le_IZR; lra).
  unfold oguard. rewrite (proj2 (andb_true_iff _ _)); [reflexivity|].
  split; apply Z.leb_le; [unfold INT_MIN; lia|assumption].
Qed.

(* vector access *)
Lemma vget_ok {A} (d : A) l c : (0 <= c < Z.of_nat (length l))%Z -> vget l c = Ok (nth (Z.to_nat c) l d).
Proof.
  intros H. unfold vget. destruct (Z.leb_spec 0 c); [|lia].
  rewrite (nth_error_nth' l d) by lia. reflexivity.
Qed.
Lemma vget_undef {A} (l : list A) c : ~ (0 <= c < Z.of_nat (length l))%Z -> vget l c = Undef.
Proof.
  intros H. unfold vget. destruct (Z.leb_spec 0 c); [|reflexivity].
  rewrite (proj2 (nth_error_None _ _)) by lia. reflexivity.
Qed.
Lemma vset_ok {A} (l : list A) c y : (0 <= c < Z.of_nat (length l))%Z ->
  vset l c y = Ok (splice (Z.to_nat c) [y] l).
Proof.
  intros H. unfold vset, oguard. rewrite (proj2 (andb_true_iff _ _)); [reflexivity|].
  split; [apply Z.leb_le|apply Z.ltb_lt]; lia.
Qed.
Lemma vadd_ok l c y : (0 <= c < Z.of_nat (length l))%Z ->
  exists l', vadd l c y = Ok l' /\ length l' = length l /\
    forall k, (k < length l)%nat -> nth k l' 0 = nth k l 0 + (if (Z.of_nat k =? c)%Z then y else 0).
Proof.
  intros H. unfold vadd. rewrite (vget_ok 0) by exact H. cbn [obind]. rewrite vset_ok by exact H.
  eexists. split; [reflexivity|].
  assert (length (splice (Z.to_nat c) [nth (Z.to_nat c) l 0 + y] l) = length l) as L
    by (apply length_splice; cbn; lia).
  split; [exact L|]. intros k Hk. destruct (Z.eqb_spec (Z.of_nat k) c) as [E|E].
  - replace (Z.to_nat c) with k by lia. now rewrite nth_splice_same by lia.
  - rewrite nth_splice_other by (cbn; lia). lra.
Qed.

Lemma ofold_app {S A} (f : S -> A -> outcome S) l1 : forall s l2,
  ofold f s (l1 ++ l2) = obind (ofold f s l1) (fun s' => ofold f s' l2).
Proof.
  induction l1 as [|a l1 IH]; intros s l2; [reflexivity|]. cbn [app ofold].
  destruct (f s a); cbn [obind]; [apply IH|reflexivity..].
Qed.

Lemma zrange_in a b i : In i (zrange a b) <-> (a <= i <= b)%Z.
Proof.
  unfold zrange. rewrite in_map_iff. split.
  - intros (k & <- & Hk). apply in_seq in Hk. lia.
  - intros H. exists (Z.to_nat (i - a)). split; [lia|]. apply in_seq. lia.
Qed.

(* Splitting a contribution between two neighbouring channels. *)
Lemma scatter m num c a b : length m = Z.to_nat num -> (-1 <= c < num)%Z ->
  exists m', obind (if (0 <=? c)%Z then vadd m c a else Ok m) (fun m1 =>
      if (c + 1 <? num)%Z then vadd m1 (c + 1) b else Ok m1) = Ok m' /\
    length m' = Z.to_nat num /\
    forall k, (k < Z.to_nat num)%nat -> nth k m' 0 = nth k m 0 +
      ((if (Z.of_nat k =? c)%Z then a else 0) + (if (Z.of_nat k =? c + 1)%Z then b else 0)).
Proof.
  intros L H.
  assert (exists m1, (if (0 <=? c)%Z then vadd m c a else Ok m) = Ok m1 /\ length m1 = Z.to_nat num /\
    forall k, (k < Z.to_nat num)%nat -> nth k m1 0 = nth k m 0 + (if (Z.of_nat k =? c)%Z then a else 0))
    as (m1 & -> & L1 & H1).
  { destruct (Z.leb_spec 0 c) as [Hc|Hc].
    - destruct (vadd_ok m c a) as (m1 & E & L1 & H1); [lia|]. exists m1. split; [exact E|].
      split; [lia|]. intros k Hk. apply H1. lia.
    - exists m. split; [reflexivity|]. split; [exact L|]. intros k Hk.
      destruct (Z.eqb_spec (Z.of_nat k) c); [lia|]. lra. }
  cbn [obind]. destruct (Z.ltb_spec (c + 1) num) as [Hc|Hc].
  - destruct (vadd_ok m1 (c + 1) b) as (m2 & E & L2 & H2); [lia|]. exists m2. split; [exact E|].
    split; [lia|]. intros k Hk. rewrite H2, H1 by lia. lra.
  - exists m1. split; [reflexivity|]. split; [exact L1|]. intros k Hk. rewrite H1 by lia.
    destruct (Z.eqb_spec (Z.of_nat k) (c + 1)); [lia|]. lra.
Qed.
Lemma scatter' m num c a b : length m = Z.to_nat num -> (-1 <= c < num)%Z ->
  exists m', obind (if (c + 1 <? num)%Z then vadd m (c + 1) b else Ok m) (fun m1 =>
      if (0 <=? c)%Z then vadd m1 c a else Ok m1) = Ok m' /\
    length m' = Z.to_nat num /\
    forall k, (k < Z.to_nat num)%nat -> nth k m' 0 = nth k m 0 +
      ((if (Z.of_nat k =? c)%Z then a else 0) + (if (Z.of_nat k =? c + 1)%Z then b else 0)).
Proof.
  intros L H.
  assert (exists m1, (if (c + 1 <? num)%Z then vadd m (c + 1) b else Ok m) = Ok m1 /\ length m1 = Z.to_nat num /\
    forall k, (k < Z.to_nat num)%nat -> nth k m1 0 = nth k m 0 + (if (Z.of_nat k =? c + 1)%Z then b else 0))
    as (m1 & -> & L1 & H1).
  { destruct (Z.ltb_spec (c + 1) num) as [Hc|Hc].
    - destruct (vadd_ok m (c + 1) b) as (m1 & E & L1 & H1); [lia|]. exists m1. split; [exact E|].
      split; [lia|]. intros k Hk. apply H1. lia.
    - exists m. split; [reflexivity|]. split; [exact L|]. intros k Hk.
      destruct (Z.eqb_spec (Z.of_nat k) (c + 1)); [lia|]. lra. }
  cbn [obind]. destruct (Z.leb_spec 0 c) as [Hc|Hc].
  - destruct (vadd_ok m1 c a) as (m2 & E & L2 & H2); [lia|]. exists m2. split; [exact E|].
    split; [lia|]. intros k Hk. rewrite H2, H1 by lia. lra.
  - exists m1. split; [reflexivity|]. split; [exact L1|]. intros k Hk. rewrite H1 by lia.
    destruct (Z.eqb_spec (Z.of_nat k) c); [lia|]. lra.
Qed.

Lemma mel_scale_incr f g : 0 <= f -> f < g -> mel_scale f < mel_scale g.
Proof.
  intros H1 H2. unfold mel_scale. apply Rmult_lt_compat_l; [lra|]. apply ln_increasing; lra.
Qed.
Lemma mel_scale_le f g : 0 <= f -> f <= g -> mel_scale f <= mel_scale g.
Proof. intros H1 [H2| ->]; [left; now apply mel_scale_incr|right; reflexivity]. Qed.

Section Mel.
Variables (fft : Z) (rate : R) (num : Z) (low up : R).
Hypotheses (Hnum : (1 <= num)%Z) (Hrate : 0 < rate) (Hfft : (2 <= fft)%Z)
           (Hlow : 0 <= low) (Hup : low < up).
Let hz := bin_hz fft rate.
Let width := mel_width num low up.

Lemma hz_pos : 0 < hz.
Proof.
  unfold hz, bin_hz. apply Rmult_lt_0_compat; [exact Hrate|]. apply Rinv_0_lt_compat.
  apply IZR_le in Hfft. lra.
Qed.
Lemma width_pos : 0 < width.
Proof.
  unfold width, mel_width. apply Rmult_lt_0_compat.
  - apply Rlt_Rminus. now apply mel_scale_incr.
  - apply Rinv_0_lt_compat. apply IZR_le in Hnum. lra.
Qed.

Definition bpos (i : nat) : R := (mel_scale (INR i * hz) - mel_scale low) / width - 1.
Definition bchan (i : nat) : Z := (ceil (bpos i) - 1)%Z.
Definition bwt (i : nat) : R := 1 - (bpos i - IZR (bchan i)).

Lemma used_iff start end_ i : cast_int (3 / 2 + low / hz) = Ok start -> cast_int (up / hz) = Ok end_ ->
  bin_used fft rate low up i = true <-> (start <= Z.of_nat i <= end_)%Z.
Proof.
  intros E1 E2. pose proof hz_pos as Hz.
  assert (0 <= low / hz) by (apply Rmult_le_pos; [lra|left; now apply Rinv_0_lt_compat]).
  assert (0 <= up / hz) by (apply Rmult_le_pos; [lra|left; now apply Rinv_0_lt_compat]).
  apply cast_int_inv in E1; [|lra]. apply cast_int_inv in E2; [|lra].
  destruct E1 as [E1 _]. destruct E2 as [E2 _].
  unfold bin_used. fold hz. rewrite andb_true_iff.
  assert (forall a, INR i * hz <= a <-> INR i <= a / hz) as Hd.
  { intros a. split; intros Ha.
    - apply (Rmult_le_reg_r hz); [exact Hz|]. unfold Rdiv. rewrite Rmult_assoc, Rinv_l by lra. lra.
    - apply (Rmult_le_compat_r hz) in Ha; [|lra]. unfold Rdiv in Ha. rewrite Rmult_assoc, Rinv_l in Ha by lra. lra. }
  rewrite INR_IZR_INZ in *. split.
  - intros [A B]. destruct (Rltb_spec (low / hz + 1 / 2) (IZR (Z.of_nat i))) as [A'|]; [|discriminate].
    destruct (Rleb_spec (IZR (Z.of_nat i) * hz) up) as [B'|]; [|discriminate].
    apply Hd in B'. split.
    + assert (start - 1 < Z.of_nat i)%Z; [|lia]. apply lt_IZR. rewrite minus_IZR. lra.
    + assert (Z.of_nat i < end_ + 1)%Z; [|lia]. apply lt_IZR. rewrite plus_IZR. lra.
  - intros [A B]. split.
    + apply Rltb_true. apply IZR_le in A. lra.
    + apply Rleb_true, Hd. apply IZR_le in B. lra.
Qed.

Lemma used_range i : bin_used fft rate low up i = true ->
  low < INR i * hz <= up.
Proof.
  pose proof hz_pos as Hz. unfold bin_used. fold hz. rewrite andb_true_iff. intros [A B].
  destruct (Rltb_spec (low / hz + 1 / 2) (INR i)) as [A'|]; [|discriminate].
  destruct (Rleb_spec (INR i * hz) up) as [B'|]; [|discriminate]. split; [|exact B'].
  apply (Rmult_lt_compat_r hz) in A'; [|exact Hz]. rewrite Rmult_plus_distr_r in A'.
  unfold Rdiv in A' at 1. rewrite Rmult_assoc, Rinv_l in A' by lra. lra.
Qed.

Lemma pos_range i : bin_used fft rate low up i = true -> -1 < bpos i <= IZR num.
Proof.
  intros Hu. pose proof width_pos as Hw. destruct (used_range i Hu) as [A B]. unfold bpos.
  assert (mel_scale low < mel_scale (INR i * hz)) by (apply mel_scale_incr; lra).
  assert (mel_scale (INR i * hz) <= mel_scale up) by (apply mel_scale_le; lra).
  assert (mel_scale up - mel_scale low = width * (IZR num + 1)) as Ew.
  { unfold width, mel_width. field. apply IZR_le in Hnum. lra. }
  split.
  - assert (0 < (mel_scale (INR i * hz) - mel_scale low) / width); [|lra].
    apply Rmult_lt_0_compat; [lra|now apply Rinv_0_lt_compat].
  - assert ((mel_scale (INR i * hz) - mel_scale low) / width <= IZR num + 1); [|lra].
    apply (Rmult_le_reg_r width); [exact Hw|]. unfold Rdiv. rewrite Rmult_assoc, Rinv_l by lra. lra.
Qed.

Lemma chan_range i : bin_used fft rate low up i = true ->
  (-1 <= bchan i < num)%Z /\ IZR (bchan i) < bpos i <= IZR (bchan i) + 1.
Proof.
  intros Hu. destruct (pos_range i Hu) as [A B]. pose proof (ceil_bounds (bpos i)) as [C D].
  unfold bchan. rewrite minus_IZR. split; [|lra].
  assert (-1 < ceil (bpos i))%Z by (apply lt_IZR; lra).
  assert (ceil (bpos i) < num + 1)%Z by (apply lt_IZR; rewrite plus_IZR; lra). lia.
Qed.

Lemma wt_range i : bin_used fft rate low up i = true -> 0 <= bwt i < 1.
Proof. intros Hu. destruct (chan_range i Hu) as [_ H]. unfold bwt. lra. Qed.

Lemma triangle_pos c i : triangle num low up c (INR i * hz) = Rmax 0 (1 - Rabs (bpos i - INR c)).
Proof.
  pose proof width_pos as Hw. unfold triangle. fold width. f_equal. f_equal.
  unfold bpos. set (m := mel_scale (INR i * hz)). set (l := mel_scale low).
  replace (m - (l + (INR c + 1) * width)) with (((m - l) / width - 1 - INR c) * width) by (field; lra).
  rewrite Rabs_mult, (Rabs_pos_eq width) by lra. field. lra.
Qed.

Lemma triangle_split c i : bin_used fft rate low up i = true ->
  triangle num low up c (INR i * hz) =
  (if (Z.of_nat c =? bchan i)%Z then bwt i else 0) + (if (Z.of_nat c =? bchan i + 1)%Z then 1 - bwt i else 0).
Proof.
  intros Hu. rewrite triangle_pos. destruct (chan_range i Hu) as [_ [A B]]. unfold bwt.
  rewrite INR_IZR_INZ. set (k := Z.of_nat c). set (b := bchan i) in *. set (p := bpos i) in *.
  destruct (Z.eqb_spec k b) as [->|H1].
  - destruct (Z.eqb_spec b (b + 1)); [lia|]. rewrite Rabs_pos_eq by lra. rewrite Rmax_right; lra.
  - destruct (Z.eqb_spec k (b + 1)) as [->|H2].
    + rewrite plus_IZR. rewrite Rabs_left1 by lra. rewrite Rmax_right; lra.
    + assert (k <= b - 1 \/ b + 2 <= k)%Z as [H|H] by lia; apply IZR_le in H.
      * rewrite minus_IZR in H. rewrite Rabs_pos_eq by lra. rewrite Rmax_left; lra.
      * rewrite plus_IZR in H. rewrite Rabs_left1 by lra. rewrite Rmax_left; lra.
Qed.

(* What Initialize stores. *)
Definition good (s : mel) : Prop :=
  exists start end_,
  cast_int (3 / 2 + low / hz) = Ok start /\ cast_int (up / hz) = Ok end_ /\
  me_init s = true /\ me_num s = num /\ me_fft s = fft /\ me_start s = start /\ me_end s = end_ /\
  length (me_weights s) = Z.to_nat fft /\ length (me_mapper s) = Z.to_nat fft /\
  (forall i, (i < Z.to_nat fft)%nat -> bin_used fft rate low up i = true ->
     nth i (me_weights s) 0 = bwt i /\ nth i (me_mapper s) 0%Z = bchan i) /\
  length (me_sums s) = Z.to_nat num /\
  (forall c, (c < Z.to_nat num)%nat -> nth c (me_sums s) 0 = mel_total fft rate num low up c).

Definition bin_entry (i : nat) : Z * R :=
  if bin_used fft rate low up i then (bchan i, bwt i) else ((-2)%Z, 0).

Lemma mel_fold start end_ : cast_int (3 / 2 + low / hz) = Ok start -> cast_int (up / hz) = Ok end_ ->
  forall n, exists sums,
  ofold (mel_bin num start end_ hz (mel_scale low) width) ([], [], repeat 0 (Z.to_nat num))
    (map Z.of_nat (seq 0 n))
  = Ok (map (fun i => fst (bin_entry i)) (seq 0 n), map (fun i => snd (bin_entry i)) (seq 0 n), sums) /\
  length sums = Z.to_nat num /\
  forall c, (c < Z.to_nat num)%nat -> nth c sums 0 =
    rsum (map (mel_weight fft rate num low up c) (seq 0 n)).
Proof.
  intros E1 E2. induction n as [|n IH].
  - exists (repeat 0 (Z.to_nat num)). split; [reflexivity|]. split; [apply repeat_length|].
    intros c Hc. cbn. apply nth_repeat.
  - destruct IH as (sums & IH & L & HS). rewrite seq_S, !map_app, ofold_app, IH. cbn [map ofold obind Nat.add].
    unfold mel_bin at 1.
    pose proof (used_iff start end_ n E1 E2) as Hui.
    destruct (bin_used fft rate low up n) eqn:Eu.
    + destruct (proj1 Hui eq_refl) as [A B].
      destruct (Z.ltb_spec (Z.of_nat n) start); [lia|]. destruct (Z.ltb_spec end_ (Z.of_nat n)); [lia|].
      cbn [orb]. rewrite <- INR_IZR_INZ. unfold freq_to_mel. fold (mel_scale (INR n * hz)).
      fold (bpos n). fold (bchan n). fold (bwt n). destruct (chan_range n Eu) as [Hc _].
      destruct (scatter' sums num (bchan n) (bwt n) (1 - bwt n) L Hc) as (s2 & E & L2 & H2).
      exists s2.
      assert (forall (X Y : outcome (list R)) (g : list R -> outcome (list R)) h,
        obind X (fun s1 => obind (g s1) h) = obind (obind X g) (fun s2 => obind (Ok s2) (fun r => h r) : outcome (list Z * list R * list R))) as Hassoc.
      { intros X Y g h. destruct X as [x| |]; cbn [obind]; [|reflexivity..]. destruct (g x); reflexivity. }
      rewrite Hassoc, E by exact (Ok []). cbn [obind].
      split; [|split; [exact L2|]].
      * unfold bin_entry. rewrite Eu. reflexivity.
      * intros c Hc'. rewrite H2 by exact Hc'. rewrite HS by exact Hc'. rewrite map_app, rsum_app.
        cbn [map rsum fold_right]. unfold mel_weight at 3. rewrite Eu. fold hz. rewrite triangle_split by exact Eu. 
        unfold rsum. cbn. lra.
    + assert (((Z.of_nat n <? start) || (end_ <? Z.of_nat n))%Z = true) as ->.
      { destruct (Z.ltb_spec (Z.of_nat n) start); [reflexivity|].
        destruct (Z.ltb_spec end_ (Z.of_nat n)); [reflexivity|]. assert (false = true) by (apply Hui; lia). discriminate. }
      exists sums. cbn [obind]. split; [|split; [exact L|]].
      * unfold bin_entry. rewrite Eu. reflexivity.
      * intros c Hc'. rewrite HS by exact Hc'. rewrite map_app, rsum_app.
        cbn [map]. unfold mel_weight at 3. rewrite Eu. unfold rsum. cbn. lra.
Qed.

Lemma zrange0 n : (0 <= n)%Z -> zrange 0 (n - 1) = map Z.of_nat (seq 0 (Z.to_nat n)).
Proof.
  intros Hn. unfold zrange. replace (Z.to_nat (n - 1 - 0 + 1)) with (Z.to_nat n) by lia.
  apply map_ext. intros. lia.
Qed.

Lemma initialize_good s : exists o, mel_initialize s fft rate num low up = o /\
  (o = Undef \/ exists s', o = Ok (s', true) /\ good s').
Proof.
  eexists. split; [reflexivity|]. unfold mel_initialize.
  destruct (Z.ltb_spec num 1); [lia|]. rewrite Rleb_false by exact Hrate.
  destruct (Z.ltb_spec fft 2); [lia|]. rewrite Rltb_false by exact Hlow. rewrite Rleb_false by exact Hup.
  fold (bin_hz fft rate). fold hz. unfold freq_to_mel. fold (mel_scale low) (mel_scale up).
  fold (mel_width num low up). fold width.
  destruct (cast_int (3 / 2 + low / hz)) as [start| |] eqn:E1; cbn [obind];
    [|unfold cast_int, oguard in E1; destruct (_ && _)%bool; discriminate|now left].
  destruct (cast_int (up / hz)) as [end_| |] eqn:E2; cbn [obind];
    [|unfold cast_int, oguard in E2; destruct (_ && _)%bool; discriminate|now left].
  rewrite zrange0 by lia.
  destruct (mel_fold start end_ E1 E2 (Z.to_nat fft)) as (sums & -> & L & HS). cbn [obind].
  right. eexists. split; [reflexivity|]. exists start, end_. cbn [me_init me_num me_fft me_start me_end me_weights me_mapper me_sums].
  split; [exact E1|]. split; [exact E2|]. split; [reflexivity|]. split; [reflexivity|]. split; [reflexivity|].
  split; [reflexivity|]. split; [reflexivity|]. rewrite !map_length, !seq_length.
  split; [reflexivity|]. split; [reflexivity|]. split; [|split; [exact L|exact HS]].
  intros i Hi Hu. rewrite !nth_map_seq by exact Hi. unfold bin_entry. cbn [Nat.add]. rewrite Hu. split; reflexivity.
Qed.

Lemma initialize_ok s : 3 / 2 + low / hz < IZR INT_MAX -> up / hz < IZR INT_MAX ->
  exists s', mel_initialize s fft rate num low up = Ok (s', true) /\ good s'.
Proof.
  intros B1 B2. pose proof hz_pos as Hz.
  destruct (initialize_good s) as (o & E & [->|(s' & -> & H)]); [exfalso|eauto].
  revert E. unfold mel_initialize.
  destruct (Z.ltb_spec num 1); [lia|]. rewrite Rleb_false by exact Hrate.
  destruct (Z.ltb_spec fft 2); [lia|]. rewrite Rltb_false by exact Hlow. rewrite Rleb_false by exact Hup.
  fold (bin_hz fft rate). fold hz. unfold freq_to_mel. fold (mel_scale low) (mel_scale up).
  fold (mel_width num low up). fold width.
  assert (0 <= low / hz) by (apply Rmult_le_pos; [lra|left; now apply Rinv_0_lt_compat]).
  assert (0 <= up / hz) by (apply Rmult_le_pos; [lra|left; now apply Rinv_0_lt_compat]).
  assert (cast_int (3 / 2 + low / hz) = Ok (Int_part (3 / 2 + low / hz))) as E1 by (apply cast_int_ok; lra).
  assert (cast_int (up / hz) = Ok (Int_part (up / hz))) as E2 by (apply cast_int_ok; lra).
  rewrite E1, E2. cbn [obind]. rewrite zrange0 by lia.
  destruct (mel_fold _ _ E1 E2 (Z.to_nat fft)) as (sums & -> & L & HS). cbn [obind]. discriminate.
Qed.

(* Sum over the used bins as a sum over all bins. *)
Lemma rsum_range start end_ (f : nat -> R) : cast_int (3 / 2 + low / hz) = Ok start ->
  cast_int (up / hz) = Ok end_ -> (end_ < fft)%Z ->
  rsum (map (fun z => f (Z.to_nat z)) (zrange start end_)) =
  rsum (map (fun i => if bin_used fft rate low up i then f i else 0) (seq 0 (Z.to_nat fft))).
Proof.
  intros E1 E2 He. pose proof hz_pos as Hz.
  assert (0 <= low / hz) by (apply Rmult_le_pos; [lra|left; now apply Rinv_0_lt_compat]).
  assert (0 <= up / hz) by (apply Rmult_le_pos; [lra|left; now apply Rinv_0_lt_compat]).
  pose proof (cast_int_inv (3 / 2 + low / hz) _ ltac:(lra) E1) as [_ Hs]. 
  pose proof (cast_int_inv (up / hz) _ ltac:(lra) E2) as [_ He2].
  assert (forall i, bin_used fft rate low up i = true <-> (start <= Z.of_nat i <= end_)%Z) as Hu
    by (intros; now apply used_iff).
  destruct (Z_lt_le_dec end_ start) as [Hlt|Hle].
  - unfold zrange. replace (Z.to_nat (end_ - start + 1)) with 0%nat by lia. cbn [seq map].
    rewrite rsum_zero; [reflexivity|]. intros i _. destruct (bin_used fft rate low up i) eqn:E; [|reflexivity].
    apply Hu in E. lia.
  - replace (seq 0 (Z.to_nat fft)) with (seq 0 (Z.to_nat start) ++
      (seq (Z.to_nat start) (Z.to_nat (end_ - start + 1)) ++ seq (Z.to_nat end_ + 1) (Z.to_nat fft - (Z.to_nat end_ + 1)))).
    2:{ replace (seq (Z.to_nat end_ + 1) (Z.to_nat fft - (Z.to_nat end_ + 1))) with
          (seq (Z.to_nat start + Z.to_nat (end_ - start + 1)) (Z.to_nat fft - (Z.to_nat end_ + 1)))
          by (f_equal; lia).
        rewrite <- seq_app. rewrite <- (seq_app (Z.to_nat start) _ 0). f_equal. lia. }
    rewrite !map_app, !rsum_app.
    rewrite (rsum_zero _ (seq 0 (Z.to_nat start))).
    2:{ intros i Hi. apply in_seq in Hi. destruct (bin_used fft rate low up i) eqn:E; [|reflexivity]. apply Hu in E. lia. }
    rewrite (rsum_zero _ (seq (Z.to_nat end_ + 1) _)).
    2:{ intros i Hi. apply in_seq in Hi. destruct (bin_used fft rate low up i) eqn:E; [|reflexivity]. apply Hu in E. lia. }
    rewrite Rplus_0_l, Rplus_0_r. unfold zrange. rewrite map_map.
    assert (forall n s, rsum (map (fun x => f (Z.to_nat (Z.of_nat s + Z.of_nat x))) (seq 0 n)) = rsum (map f (seq s n))) as Hsh.
    { intros n s. rewrite (map_ext _ (fun x => f (s + x)%nat)) by (intros; f_equal; lia). 
      rewrite <- (map_map (fun x => s + x)%nat f). f_equal. f_equal. clear.
      revert s. induction n as [|n IH]; intros s; [reflexivity|]. cbn [seq map]. f_equal; [lia|].
      rewrite <- seq_shift, map_map, <- (IH (S s)). apply map_ext. intros; lia. }
    rewrite (map_ext _ (fun x => f (Z.to_nat (Z.of_nat (Z.to_nat start) + Z.of_nat x))))
      by (intros; do 2 f_equal; lia).
    rewrite Hsh.
    apply rsum_ext. intros i Hi. apply in_seq in Hi. assert (bin_used fft rate low up i = true) as -> by (apply Hu; lia).
    reflexivity.
Qed.
End Mel.
