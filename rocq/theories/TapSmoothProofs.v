From Coq Require Import ZArith Reals Lra Lia List Bool Psatz.
From Verif Require Import Common CInt ListLemmas NthLemmas RealUtil TapSmoothModel TapSmoothSpec.
Import ListNotations.
Local Open Scope R_scope.

Lemma map_at {A B} {d1 : A} {d2 : B} (f : A -> B) (l : list A) k : (k < length l)%nat -> nth k (map f l) d2 = f (nth k l d1).
Proof. intros H. rewrite (nth_indep _ d2 (f d1)) by now rewrite map_length. apply map_nth. Qed.
Lemma zip_len f a b : length (zip_with f a b) = Nat.min (length a) (length b).
Proof. unfold zip_with. now rewrite map_length, combine_length. Qed.
Lemma zip_nth f a b k : (k < length a)%nat -> (k < length b)%nat -> nth k (zip_with f a b) 0 = f (nth k a 0) (nth k b 0).
Proof.
  unfold zip_with. revert b k. induction a as [|u a IH]; intros [|v b] [|k] A B; cbn in *; try lia; [reflexivity|]. apply IH; lia.
Qed.
Lemma splice_len {A} pos (xs l : list A) : (pos + length xs <= length l)%nat -> length (splice pos xs l) = length l.
Proof. apply length_splice. Qed.
Lemma splice_nth pos (xs l : list R) k : (pos + length xs <= length l)%nat ->
  nth k (splice pos xs l) 0 = if (pos <=? k)%nat && (k <? pos + length xs)%nat then nth (k - pos) xs 0 else nth k l 0.
Proof.
  intros H. unfold splice.
  destruct (Nat.leb_spec pos k) as [P|P]; cbn [andb].
  - rewrite app_nth2 by (rewrite firstn_length; lia). rewrite firstn_length, Nat.min_l by lia.
    destruct (Nat.ltb_spec k (pos + length xs)) as [Q|Q].
    + now rewrite app_nth1 by lia.
    + rewrite app_nth2 by lia. replace (nth k l 0) with (nth k (firstn (pos + length xs) l ++ skipn (pos + length xs) l) 0) by now rewrite firstn_skipn.
      rewrite app_nth2 by (rewrite firstn_length; lia). rewrite firstn_length. f_equal. lia.
  - rewrite app_nth1 by (rewrite firstn_length; lia).
    replace (nth k l 0) with (nth k (firstn pos l ++ skipn pos l) 0) by now rewrite firstn_skipn. rewrite app_nth1; [reflexivity|rewrite firstn_length; lia].
Qed.
Lemma slice_nth p m (l : list R) k : (p + m <= length l)%nat -> (k < m)%nat -> nth k (slice p m l) 0 = nth (p + k) l 0.
Proof.
  intros H K. unfold slice.
  assert (E : nth k (skipn p l) 0 = nth (p + k) l 0).
  { replace (nth (p + k) l 0) with (nth (p + k) (firstn p l ++ skipn p l) 0) by now rewrite firstn_skipn.
    rewrite app_nth2 by (rewrite firstn_length; lia). rewrite firstn_length. f_equal. lia. }
  rewrite <- E. replace (nth k (skipn p l) 0) with (nth k (firstn m (skipn p l) ++ skipn m (skipn p l)) 0) by now rewrite firstn_skipn.
  rewrite app_nth1; [reflexivity|]. rewrite firstn_length, skipn_length. lia.
Qed.
Lemma slice_length p m (l : list R) : (p + m <= length l)%nat -> length (slice p m l) = m.
Proof. intros H. unfold slice. rewrite firstn_length, skipn_length. lia. Qed.

Lemma smoothed_len mode s x : length (smoothed mode s x) = length x.
Proof. unfold smoothed. now rewrite map_length, seq_length. Qed.

(* the left and right neighbours *)
Definition left_of (mode : boundary) (x : list R) (k : nat) : R :=
  match k with
  | S j => nth j x 0
  | O => match mode with Circular => nth (length x - 1) x 0 | Reflect => nth 1 x 0 | ZeroPad => 0 end
  end.
Definition right_of (mode : boundary) (x : list R) (k : nat) : R :=
  if (S k =? length x)%nat then match mode with Circular => nth 0 x 0 | Reflect => nth (length x - 2) x 0 | ZeroPad => 0 end
  else nth (S k) x 0.
Lemma smoothed_nth mode s x k : (2 <= length x)%nat -> (k < length x)%nat ->
  nth k (smoothed mode s x) 0 = s * left_of mode x k + (1 - 2 * s) * nth k x 0 + s * right_of mode x k.
Proof.
  intros L K. unfold smoothed. set (g := fun k : nat => _). rewrite (nth_indep _ 0 (g 0%nat)) by (rewrite map_length, seq_length; exact K).
  rewrite map_nth, seq_nth by exact K. subst g. cbv beta zeta. cbn [Nat.add].
  assert (E1 : extended mode x (Z.of_nat k - 1) = left_of mode x k).
  { unfold extended, left_of. cbv zeta. destruct k as [|j].
    - cbn [Z.of_nat Z.sub Z.add Z.opp]. destruct (Z.leb_spec 0 (-1)); [lia|]. cbn [andb]. destruct mode; [|reflexivity|reflexivity].
      f_equal. replace (-1 mod Z.of_nat (length x))%Z with (Z.of_nat (length x) - 1)%Z; [lia|].
      apply Z.mod_unique with (-1)%Z; lia.
    - destruct (Z.leb_spec 0 (Z.of_nat (S j) - 1)); [|lia]. destruct (Z.ltb_spec (Z.of_nat (S j) - 1) (Z.of_nat (length x))); [|lia].
      cbn [andb]. f_equal. lia. }
  assert (E2 : extended mode x (Z.of_nat k) = nth k x 0).
  { unfold extended. cbv zeta. destruct (Z.leb_spec 0 (Z.of_nat k)); [|lia]. destruct (Z.ltb_spec (Z.of_nat k) (Z.of_nat (length x))); [|lia].
    cbn [andb]. f_equal. lia. }
  assert (E3 : extended mode x (Z.of_nat k + 1) = right_of mode x k).
  { unfold extended, right_of. cbv zeta. destruct (Z.leb_spec 0 (Z.of_nat k + 1)); [|lia]. destruct (Nat.eqb_spec (S k) (length x)) as [E|E].
    - destruct (Z.ltb_spec (Z.of_nat k + 1) (Z.of_nat (length x))); [lia|]. cbn [andb]. destruct mode; [| |reflexivity].
      + f_equal. replace (Z.of_nat k + 1)%Z with (Z.of_nat (length x)) by lia. now rewrite Z.mod_same by lia.
      + destruct (Z.ltb_spec (Z.of_nat k + 1) 0); [lia|]. f_equal. lia.
    - destruct (Z.ltb_spec (Z.of_nat k + 1) (Z.of_nat (length x))); [|lia]. cbn [andb]. f_equal. lia. }
  now rewrite E1, E2, E3.
Qed.

Definition valid (o : smoother) : Prop := (2 <= num_points o)%nat /\ length (temp o) = num_points o.
Lemma smooth_ok o mode s x : valid o -> length x = num_points o -> 0 < s <= 1 / 3 ->
  exists o', smooth o mode s x = Ok (o', smoothed mode s x) /\ valid o' /\ num_points o' = num_points o.
Proof.
  intros (V1 & V2) L (S1 & S2). unfold smooth. rewrite L, Nat.eqb_refl, Rltb_true, Rleb_true by assumption. cbn [negb].
  set (n := num_points o) in *. set (mid := zip_with Rplus _ _).
  assert (LM : length mid = (n - 2)%nat) by (unfold mid; rewrite zip_len, !slice_length by lia; lia).
  assert (L1 : length (splice 1 mid (temp o)) = n) by (rewrite splice_len; lia).
  assert (LT : forall a b, length (splice (n - 1) [a] (splice 0 [b] (splice 1 mid (temp o)))) = n) by (intros a b; rewrite !splice_len; rewrite ?splice_len; cbn [length]; lia).
  assert (NT : forall a b k, (k < n)%nat -> nth k (splice (n - 1) [a] (splice 0 [b] (splice 1 mid (temp o)))) 0 =
      if (k =? 0)%nat then b else if (S k =? n)%nat then a else nth (k - 1) x 0 + nth (S k) x 0).
  { intros a b k K. rewrite splice_nth by (rewrite splice_len; cbn [length]; lia). cbn [length].
    destruct (Nat.leb_spec (n - 1) k) as [A|A].
    - replace ((k <? n - 1 + 1)%nat) with true by (symmetry; apply Nat.ltb_lt; lia). cbn [andb].
      destruct (Nat.eqb_spec k 0); [lia|]. destruct (Nat.eqb_spec (S k) n); [|lia]. replace (k - (n - 1))%nat with 0%nat by lia. reflexivity.
    - cbn [andb]. rewrite splice_nth by (cbn [length]; lia). cbn [length]. destruct (Nat.eqb_spec k 0) as [->|K0].
      + reflexivity.
      + replace ((k <? 0 + 1)%nat) with false by (symmetry; apply Nat.ltb_ge; lia). rewrite andb_false_r.
        destruct (Nat.eqb_spec (S k) n); [lia|]. rewrite splice_nth by lia. rewrite LM.
        replace ((1 <=? k)%nat && (k <? 1 + (n - 2))%nat) with true by (symmetry; apply andb_true_iff; split; [apply Nat.leb_le|apply Nat.ltb_lt]; lia).
        unfold mid. rewrite zip_nth by (rewrite slice_length; lia). rewrite !slice_nth by lia. f_equal; f_equal; lia. }
  assert (H : exists t2, handle_endpoints n mode x (splice 1 mid (temp o)) = t2 /\ length t2 = n /\ forall k, (k < n)%nat -> nth k t2 0 = left_of mode x k + right_of mode x k).
  { eexists. split; [reflexivity|]. unfold handle_endpoints. cbv zeta. split; [destruct mode; apply LT|].
    intros k K. destruct mode; rewrite NT by exact K; unfold left_of, right_of; rewrite L;
      (destruct k as [|k]; change (S _ =? 0)%nat with false; change (0 =? 0)%nat with true; cbv iota;
      [destruct (Nat.eqb_spec 1 n); [lia|ring]|]).
    all: destruct (Nat.eqb_spec (S (S k)) n) as [E|E]; [replace (n - 2)%nat with k by lia; ring|replace (S k - 1)%nat with k by lia; reflexivity]. }
  destruct H as (t2 & E & LT2 & NT2). rewrite E. eexists. split; [f_equal; f_equal|].
  - apply (nth_ext _ _ 0 0).
    + rewrite smoothed_len, zip_len, map_length, zip_len, map_length. lia.
    + intros k K. rewrite zip_len, map_length, zip_len, map_length in K. rewrite smoothed_nth by lia.
      rewrite zip_nth by (rewrite ?map_length, ?zip_len, ?map_length; lia).
      rewrite (map_at (d1 := 0)) by (rewrite zip_len, map_length; lia). rewrite zip_nth by (rewrite ?map_length; lia).
      rewrite (map_at (d1 := 0)) by lia. rewrite NT2 by lia. ring.
  - split; [split; [exact V1|exact LT2]|reflexivity].
Qed.

(* ---- repeated smoothing ---- *)
Lemma in_range mode x a b k : (2 <= length x)%nat -> (k < length x)%nat -> (mode = ZeroPad -> a <= 0 <= b) ->
  (forall j, (j < length x)%nat -> a <= nth j x 0 <= b) -> a <= left_of mode x k <= b /\ a <= right_of mode x k <= b.
Proof.
  intros L K Z H. unfold left_of, right_of. split.
  - destruct k; [|apply H; lia]. destruct mode; [apply H; lia|apply H; lia|now apply Z].
  - destruct (Nat.eqb_spec (S k) (length x)); [|apply H; lia]. destruct mode; [apply H; lia|apply H; lia|now apply Z].
Qed.
Lemma stay mode s x a b : (2 <= length x)%nat -> 0 < s <= 1 / 3 -> (mode = ZeroPad -> a <= 0 <= b) ->
  (forall j, (j < length x)%nat -> a <= nth j x 0 <= b) -> forall j, (j < length x)%nat -> a <= nth j (smoothed mode s x) 0 <= b.
Proof.
  intros L S Z H j J. rewrite smoothed_nth by assumption. destruct (in_range mode x a b j L J Z H). specialize (H j J). nra.
Qed.
Lemma spread mode s s0 x a d j0 r : (2 <= length x)%nat -> 0 < s0 <= s -> s <= 1 / 3 -> 0 <= d -> (mode = ZeroPad -> a <= 0) ->
  (forall j, (j < length x)%nat -> a <= nth j x 0) ->
  (forall j, (j < length x)%nat -> (j <= j0 + r)%nat -> (j0 <= j + r)%nat -> a + d <= nth j x 0) -> (j0 < length x)%nat ->
  forall j, (j < length x)%nat -> (j <= j0 + S r)%nat -> (j0 <= j + S r)%nat -> a + s0 * d <= nth j (smoothed mode s x) 0.
Proof.
  intros L S0 S1 D Z H HH J0 j J A B. rewrite smoothed_nth by assumption.
  assert (RL : a <= left_of mode x j /\ a <= right_of mode x j).
  { unfold left_of, right_of. split.
    - destruct j; [|apply H; lia]. destruct mode; [apply H; lia|apply H; lia|now apply Z].
    - destruct (Nat.eqb_spec (S j) (length x)); [|apply H; lia]. destruct mode; [apply H; lia|apply H; lia|now apply Z]. }
  assert (Q : s0 * d <= s * d) by nra. specialize (H j J) as HJ.
  destruct (Nat.lt_trichotomy j j0) as [C|[C|C]].
  - assert (E : a + d <= right_of mode x j). { unfold right_of. destruct (Nat.eqb_spec (S j) (length x)); [lia|]. apply HH; lia. }
    nra.
  - subst j. specialize (HH j0 J0 ltac:(lia) ltac:(lia)). nra.
  - assert (E : a + d <= left_of mode x j). { unfold left_of. destruct j; [lia|]. apply HH; lia. }
    nra.
Qed.
Definition many (mode : boundary) (ss : list R) (x : list R) : list R := fold_left (fun y s => smoothed mode s y) ss x.
Lemma many_len mode ss : forall x, length (many mode ss x) = length x.
Proof. unfold many. induction ss as [|s ss IH]; intros x; cbn [fold_left]; [reflexivity|]. rewrite IH. apply smoothed_len. Qed.
Lemma many_app mode s1 s2 x : many mode (s1 ++ s2) x = many mode s2 (many mode s1 x).
Proof. unfold many. apply fold_left_app. Qed.
Definition coeffs_ok (s0 : R) (ss : list R) : Prop := Forall (fun s => s0 <= s <= 1 / 3) ss.
Lemma stay_many mode s0 ss : 0 < s0 -> coeffs_ok s0 ss -> forall x a b, (2 <= length x)%nat -> (mode = ZeroPad -> a <= 0 <= b) ->
  (forall j, (j < length x)%nat -> a <= nth j x 0 <= b) -> forall j, (j < length x)%nat -> a <= nth j (many mode ss x) 0 <= b.
Proof.
  intros S0 OK. induction OK as [|s ss S _ IH]; intros x a b L Z H j J; [now apply H|]. cbn [many fold_left]. fold (many mode ss).
  apply IH; rewrite ?smoothed_len; try assumption. apply stay; try assumption. lra.
Qed.
Lemma spread_many mode s0 ss : 0 < s0 -> coeffs_ok s0 ss -> forall x a b d j0 r, (2 <= length x)%nat -> 0 <= d -> (mode = ZeroPad -> a <= 0 <= b) ->
  (forall j, (j < length x)%nat -> a <= nth j x 0 <= b) ->
  (forall j, (j < length x)%nat -> (j <= j0 + r)%nat -> (j0 <= j + r)%nat -> a + d <= nth j x 0) -> (j0 < length x)%nat ->
  forall j, (j < length x)%nat -> (j <= j0 + (r + length ss))%nat -> (j0 <= j + (r + length ss))%nat -> a + s0 ^ length ss * d <= nth j (many mode ss x) 0.
Proof.
  intros S0 OK. induction OK as [|s ss S _ IH]; intros x a b d j0 r L D Z H HH J0 j J A B; cbn [length] in *.
  - cbn [many fold_left pow]. rewrite Rmult_1_l. apply HH; lia.
  - cbn [many fold_left]. fold (many mode ss). replace (s0 ^ Datatypes.S (length ss) * d) with (s0 ^ length ss * (s0 * d)) by (cbn [pow]; ring).
    apply (IH (smoothed mode s x) a b (s0 * d) j0 (Datatypes.S r)); rewrite ?smoothed_len; try assumption; try lia; try nra.
    + apply stay; try assumption. lra.
    + apply (spread mode s s0 x a d j0 r); try assumption; try lra; try (intros Q; apply Z in Q; lra). intros i I. apply H, I.
Qed.

Lemma maximum (x : list R) : x <> [] -> exists j, (j < length x)%nat /\ forall i, (i < length x)%nat -> nth i x 0 <= nth j x 0.
Proof.
  induction x as [|u x IH]; [congruence|]. intros _. destruct x as [|v x].
  - exists 0%nat. cbn. split; [lia|]. intros [|i] I; [lra|lia].
  - destruct IH as (j & J & H); [discriminate|]. destruct (Rle_dec u (nth j (v :: x) 0)) as [Q|Q].
    + exists (S j). split; [cbn in *; lia|]. intros [|i] I; [exact Q|]. apply H. cbn in *. lia.
    + exists 0%nat. split; [cbn; lia|]. intros [|i] I; [cbn; lra|]. assert (I' : (i < length (v :: x))%nat) by (cbn in *; lia).
      specialize (H i I'). change (nth (S i) (u :: v :: x) 0) with (nth i (v :: x) 0). change (nth 0 (u :: v :: x) 0) with u. lra.
Qed.
Lemma nth_neg (x : list R) j : nth j (map Ropp x) 0 = - nth j x 0.
Proof. replace 0 with (- 0) at 1 by ring. apply map_nth. Qed.
Lemma minimum (x : list R) : x <> [] -> exists j, (j < length x)%nat /\ forall i, (i < length x)%nat -> nth j x 0 <= nth i x 0.
Proof.
  intros H. destruct (maximum (map Ropp x)) as (j & J & M); [destruct x; [congruence|discriminate]|]. rewrite map_length in *. exists j. split; [exact J|].
  intros i I. specialize (M i I). rewrite !nth_neg in M. lra.
Qed.

(* one round of n smoothings *)
Definition within (x : list R) (a b : R) : Prop := forall j, (j < length x)%nat -> a <= nth j x 0 <= b.
Lemma round mode s0 ss x a b : mode <> ZeroPad -> 0 < s0 -> coeffs_ok s0 ss -> (2 <= length x)%nat -> length ss = length x -> a <= b ->
  within x a b -> exists a' b', a <= a' /\ b' <= b /\ a' <= b' /\ b' - a' <= (1 - s0 ^ length x) * (b - a) /\ within (many mode ss x) a' b'.
Proof.
  intros M S0 OK L LS AB W. destruct (maximum x) as (j & J & MX); [destruct x; [cbn in L; lia|discriminate]|].
  assert (S1 : s0 <= 1 / 3). { destruct ss as [|s ss]; [cbn in LS; lia|]. inversion OK; subst. lra. }
  assert (P : 0 < s0 ^ length x <= 1). { split; [now apply pow_lt|]. rewrite <- (pow1 (length x)). apply pow_incr. lra. }
  set (v := nth j x 0) in *. assert (V : a <= v <= b) by (apply W, J).
  exists (a + s0 ^ length x * (v - a)), v.
  assert (Q : 0 <= s0 ^ length x * (v - a) <= v - a) by nra.
  split; [lra|]. split; [lra|]. split; [lra|]. split; [nra|].
  intros i I. rewrite many_len in I. split.
  - rewrite <- LS. apply (spread_many mode s0 ss S0 OK x a b (v - a) j 0); try assumption; try lra; try lia; try (intros; congruence).
    intros i' I' A B. replace i' with j by lia. unfold v. lra.
  - apply (stay_many mode s0 ss S0 OK x a v L); [intros; congruence| |exact I]. intros i' I'. split; [apply W, I'|now apply MX].
Qed.
Lemma rounds mode s0 : mode <> ZeroPad -> 0 < s0 <= 1 / 3 -> forall m ss x a b, coeffs_ok s0 ss -> (2 <= length x)%nat -> length ss = (m * length x)%nat -> a <= b ->
  within x a b -> exists a' b', a <= a' /\ b' <= b /\ a' <= b' /\ b' - a' <= (1 - s0 ^ length x) ^ m * (b - a) /\ within (many mode ss x) a' b'.
Proof.
  intros M S0 m. induction m as [|m IH]; intros ss x a b OK L LS AB W.
  - exists a, b. destruct ss; [|discriminate]. cbn [pow many fold_left]. repeat split; try lra; apply W; assumption.
  - cbn [Nat.mul] in LS. rewrite <- (firstn_skipn (length x) ss) in OK |- *. apply Forall_app in OK as [O1 O2]. rewrite many_app.
    assert (F1 : length (firstn (length x) ss) = length x) by (rewrite firstn_length; lia).
    destruct (round mode s0 _ x a b M (proj1 S0) O1 L F1 AB W) as (a1 & b1 & A1 & B1 & AB1 & G1 & W1).
    destruct (IH (skipn (length x) ss) (many mode (firstn (length x) ss) x) a1 b1) as (a2 & b2 & A2 & B2 & AB2 & G2 & W2); rewrite ?many_len; try assumption.
    { rewrite skipn_length. lia. }
    rewrite many_len in G2. exists a2, b2. split; [lra|]. split; [lra|]. split; [exact AB2|]. split; [|exact W2].
    assert (P : 0 < s0 ^ length x <= 1). { split; [apply pow_lt; lra|]. rewrite <- (pow1 (length x)). apply pow_incr. lra. }
    assert (PP : 0 <= (1 - s0 ^ length x) ^ m) by (apply pow_le; lra). cbn [pow]. nra.
Qed.
