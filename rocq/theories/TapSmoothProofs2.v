From Coq Require Import ZArith Reals Lra Lia List Bool Psatz.
From Verif Require Import Common CInt ListLemmas NthLemmas RealUtil TapSmoothModel TapSmoothSpec TapSmoothProofs.
Import ListNotations.
Local Open Scope R_scope.

Fixpoint sumf (f : nat -> R) (n : nat) : R := match n with O => 0 | S m => sumf f m + f m end.
Lemma sumf_ext f g n : (forall k, (k < n)%nat -> f k = g k) -> sumf f n = sumf g n.
Proof. induction n as [|n IH]; intros H; cbn; [reflexivity|]. rewrite IH, H by (intros; try apply H; lia). reflexivity. Qed.
Lemma sumf_first f n : sumf f (S n) = f 0%nat + sumf (fun k => f (S k)) n.
Proof. induction n as [|n IH]; [cbn; ring|]. cbn [sumf] in *. rewrite IH. ring. Qed.
Lemma sumf_lin f g h a b c n : sumf (fun k => a * f k + b * g k + c * h k) n = a * sumf f n + b * sumf g n + c * sumf h n.
Proof. induction n as [|n IH]; cbn [sumf]; [ring|]. rewrite IH. ring. Qed.
Lemma total_sum x : total x = sumf (fun k => nth k x 0) (length x).
Proof. induction x as [|u x IH]; [reflexivity|]. cbn [total length]. rewrite sumf_first. cbn [nth]. now rewrite IH. Qed.
Lemma sumf_bounds f a b n : (forall k, (k < n)%nat -> a <= f k <= b) -> INR n * a <= sumf f n <= INR n * b.
Proof.
  induction n as [|n IH]; intros H; [cbn; lra|]. rewrite S_INR. cbn [sumf]. pose proof (H n ltac:(lia)). destruct IH; [intros; apply H; lia|]. lra.
Qed.

Lemma left_sum mode x n : length x = S (S n) -> sumf (left_of mode x) (S (S n)) = left_of mode x 0 + (total x - nth (S n) x 0).
Proof.
  intros L. rewrite sumf_first, total_sum, L. cbn [sumf]. f_equal.
  rewrite (sumf_ext (fun k => left_of mode x (S k)) (fun k => nth k x 0) n) by reflexivity. cbn [left_of]. ring.
Qed.
Lemma right_sum mode x n : length x = S (S n) -> sumf (right_of mode x) (S (S n)) = right_of mode x (S n) + (total x - nth 0 x 0).
Proof.
  intros L. cbn [sumf]. rewrite total_sum, L.
  replace (sumf (fun k => nth k x 0) (S (S n))) with (nth 0 x 0 + sumf (fun k => nth (S k) x 0) (S n)) by (now rewrite (sumf_first _ (S n))).
  cbn [sumf]. rewrite (sumf_ext (right_of mode x) (fun k => nth (S k) x 0) n); [|intros k K; unfold right_of; destruct (Nat.eqb_spec (S k) (length x)); [lia|reflexivity]].
  unfold right_of at 1. destruct (Nat.eqb_spec (S n) (length x)); [lia|]. ring.
Qed.
Lemma smoothed_total mode s x n : length x = S (S n) ->
  total (smoothed mode s x) = total x + s * (left_of mode x 0 + right_of mode x (S n) - nth 0 x 0 - nth (S n) x 0).
Proof.
  intros L. rewrite (total_sum (smoothed mode s x)), smoothed_len, L.
  rewrite (sumf_ext _ (fun k => s * left_of mode x k + (1 - 2 * s) * nth k x 0 + s * right_of mode x k)); [|intros k K; apply smoothed_nth; lia].
  rewrite sumf_lin, left_sum, right_sum by exact L. rewrite <- L, <- total_sum. ring.
Qed.
Lemma limit_kept mode s x : (2 <= length x)%nat -> limit_value mode (smoothed mode s x) = limit_value mode x.
Proof.
  intros L. destruct (length x) as [|[|n]] eqn:E; [lia|lia|]. unfold limit_value. rewrite smoothed_len, E. destruct mode; [| |reflexivity].
  - f_equal. rewrite (smoothed_total _ _ _ n E). unfold left_of, right_of. rewrite E, Nat.eqb_refl. replace (S (S n) - 1)%nat with (S n) by lia. ring.
  - f_equal. rewrite (smoothed_total _ _ _ n E). replace (S (S n) - 1)%nat with (S n) by lia. rewrite !smoothed_nth by lia.
    unfold right_of. rewrite E, Nat.eqb_refl. cbn [left_of]. replace (S (S n) - 2)%nat with n by lia.
    destruct (Nat.eqb_spec 1 (S (S n))); [lia|]. field.
Qed.
Lemma limit_many mode ss : forall x, (2 <= length x)%nat -> limit_value mode (many mode ss x) = limit_value mode x.
Proof.
  unfold many. induction ss as [|s ss IH]; intros x L; cbn [fold_left]; [reflexivity|]. rewrite IH by (rewrite smoothed_len; exact L). now apply limit_kept.
Qed.
Lemma limit_within mode x a b : mode <> ZeroPad -> (2 <= length x)%nat -> within x a b -> a <= limit_value mode x <= b.
Proof.
  intros M L W. unfold limit_value. destruct (length x) as [|[|n]] eqn:E; [lia|lia|]. pose proof (pos_INR n) as P. destruct mode; [| |congruence].
  - assert (Q : INR (S (S n)) * a <= total x <= INR (S (S n)) * b).
    { rewrite total_sum, E. apply sumf_bounds. intros k K. apply W. lia. }
    rewrite !S_INR in *. unfold Rdiv. split.
    + apply (Rmult_le_reg_r (INR n + 1 + 1)); [lra|]. rewrite Rmult_assoc, Rinv_l by lra. lra.
    + apply (Rmult_le_reg_r (INR n + 1 + 1)); [lra|]. rewrite Rmult_assoc, Rinv_l by lra. lra.
  - assert (Q : INR n * a <= sumf (fun k => nth (S k) x 0) n <= INR n * b).
    { apply sumf_bounds. intros k K. apply W. lia. }
    assert (T : total x = nth 0 x 0 + (sumf (fun k => nth (S k) x 0) n + nth (S n) x 0)) by (rewrite total_sum, E, sumf_first; reflexivity).
    rewrite T. replace (S (S n) - 1)%nat with (S n) by lia. rewrite !S_INR. pose proof (W 0%nat ltac:(lia)). pose proof (W (S n) ltac:(lia)).
    replace (INR n + 1 + 1 - 1) with (INR n + 1) by ring. unfold Rdiv. split.
    + apply (Rmult_le_reg_r (INR n + 1)); [lra|]. rewrite Rmult_assoc, Rinv_l by lra. lra.
    + apply (Rmult_le_reg_r (INR n + 1)); [lra|]. rewrite Rmult_assoc, Rinv_l by lra. lra.
Qed.

(* zero padding *)
Lemma smoothed_neg mode s x : (2 <= length x)%nat -> smoothed mode s (map Ropp x) = map Ropp (smoothed mode s x).
Proof.
  intros L. apply (nth_ext _ _ 0 0); [now rewrite map_length, !smoothed_len, map_length|]. intros k K. rewrite smoothed_len, map_length in K.
  rewrite nth_neg, !smoothed_nth by (rewrite ?map_length; assumption). unfold left_of, right_of. rewrite map_length.
  destruct (Nat.eqb_spec (S k) (length x)); destruct k as [|k]; destruct mode; rewrite ?nth_neg; ring.
Qed.
Lemma many_neg mode ss : forall x, (2 <= length x)%nat -> many mode ss (map Ropp x) = map Ropp (many mode ss x).
Proof.
  unfold many. induction ss as [|s ss IH]; intros x L; cbn [fold_left]; [reflexivity|]. rewrite smoothed_neg by exact L. apply IH. now rewrite smoothed_len.
Qed.
Lemma zero_half s0 ss x b : 0 < s0 -> coeffs_ok s0 ss -> (2 <= length x)%nat -> length ss = S (length x) -> 0 <= b -> within x (- b) b ->
  forall j, (j < length x)%nat -> - b + s0 ^ S (length x) * b <= nth j (many ZeroPad ss x) 0.
Proof.
  intros S0 OK L LS B W j J. destruct ss as [|s ss]; [discriminate|]. injection LS as LS. inversion OK as [|? ? S1 OK']; subst.
  cbn [many fold_left]. fold (many ZeroPad ss). replace (s0 ^ S (length x) * b) with (s0 ^ length ss * (s0 * b)) by (rewrite LS; cbn [pow]; ring).
  assert (LX : length (smoothed ZeroPad s x) = length x) by apply smoothed_len.
  apply (spread_many ZeroPad s0 ss S0 OK' (smoothed ZeroPad s x) (- b) b (s0 * b) 0 0); rewrite ?LX; try lia; try nra; try (intros; lra).
  - apply stay; try assumption; lra.
  - intros i I A A'. replace i with 0%nat by lia. rewrite smoothed_nth by lia. cbn [left_of].
    assert (- b <= right_of ZeroPad x 0). { unfold right_of. destruct (Nat.eqb_spec 1 (length x)); [lia|]. apply W. lia. }
    pose proof (W 0%nat ltac:(lia)). nra.
Qed.
Lemma zero_round s0 ss x b : 0 < s0 -> coeffs_ok s0 ss -> (2 <= length x)%nat -> length ss = S (length x) -> 0 <= b -> within x (- b) b ->
  within (many ZeroPad ss x) (- ((1 - s0 ^ S (length x)) * b)) ((1 - s0 ^ S (length x)) * b).
Proof.
  intros S0 OK L LS B W j J. rewrite many_len in J. split.
  - pose proof (zero_half s0 ss x b S0 OK L LS B W j J). lra.
  - assert (H : - b + s0 ^ S (length (map Ropp x)) * b <= nth j (many ZeroPad ss (map Ropp x)) 0).
    { apply zero_half; rewrite ?map_length; try assumption. intros i I. rewrite map_length in I. rewrite nth_neg. specialize (W i I). lra. }
    rewrite map_length, many_neg, nth_neg in H by exact L. lra.
Qed.
Lemma zero_rounds s0 : 0 < s0 <= 1 / 3 -> forall m ss x b, coeffs_ok s0 ss -> (2 <= length x)%nat -> length ss = (m * S (length x))%nat -> 0 <= b ->
  within x (- b) b -> within (many ZeroPad ss x) (- ((1 - s0 ^ S (length x)) ^ m * b)) ((1 - s0 ^ S (length x)) ^ m * b).
Proof.
  intros S0 m. induction m as [|m IH]; intros ss x b OK L LS B W.
  - destruct ss; [|discriminate]. cbn [pow many fold_left]. rewrite Rmult_1_l. exact W.
  - cbn [Nat.mul] in LS. rewrite <- (firstn_skipn (S (length x)) ss) in OK |- *. apply Forall_app in OK as [O1 O2]. rewrite many_app.
    assert (F1 : length (firstn (S (length x)) ss) = S (length x)) by (rewrite firstn_length; lia).
    pose proof (zero_round s0 _ x b (proj1 S0) O1 L F1 B W) as W1. pose proof (many_len ZeroPad (firstn (S (length x)) ss) x) as ML.
    assert (P : 0 < s0 ^ S (length x) <= 1). { split; [apply pow_lt; lra|]. rewrite <- (pow1 (S (length x))). apply pow_incr. lra. }
    set (q := 1 - s0 ^ S (length x)) in *.
    assert (W2 := IH (skipn (S (length x)) ss) (many ZeroPad (firstn (S (length x)) ss) x) (q * b) O2). rewrite ML in W2. fold q in W2.
    replace (q ^ S m * b) with (q ^ m * (q * b)) by (cbn [pow]; ring). apply W2; try assumption.
    + rewrite skipn_length. lia.
    + unfold q. nra.
Qed.

Lemma has_bound (x : list R) : exists b, 0 <= b /\ within x (- b) b.
Proof.
  induction x as [|u x (b & B & W)]; [exists 0; split; [lra|intros j J; cbn in J; lia]|]. exists (Rabs u + b). pose proof (Rabs_pos u). split; [lra|].
  intros [|j] J; cbn [nth].
  - pose proof (Rle_abs u). pose proof (Rle_abs (- u)). rewrite Rabs_Ropp in *. lra.
  - cbn in J. specialize (W j ltac:(lia)). lra.
Qed.
Lemma pow_small q b eps : 0 <= q < 1 -> 0 <= b -> 0 < eps -> exists m, q ^ m * b < eps.
Proof.
  intros Q B E. destruct (pow_lt_1_zero q ltac:(rewrite Rabs_pos_eq; lra) (eps / (b + 1)) ltac:(apply Rdiv_lt_0_compat; lra)) as (m & H).
  exists m. specialize (H m (le_n m)). rewrite Rabs_pos_eq in H by (apply pow_le; lra).
  assert (q ^ m * (b + 1) < eps). { apply (Rmult_lt_compat_r (b + 1)) in H; [|lra]. unfold Rdiv in H. rewrite Rmult_assoc, Rinv_l in H by lra. lra. }
  pose proof (pow_le q m (proj1 Q)). nra.
Qed.
Lemma converges_closed mode s0 x b eps : mode <> ZeroPad -> (2 <= length x)%nat -> 0 < s0 <= 1 / 3 -> 0 < s0 ^ length x < 1 -> 0 < eps -> 0 <= b -> within x (- b) b ->
  exists m, forall ss, (m <= length ss)%nat -> coeffs_ok s0 ss ->
  forall j, (j < length x)%nat -> Rabs (nth j (many mode ss x) 0 - limit_value mode x) < eps.
Proof.
  intros M L S0 PW E B W. destruct (pow_small (1 - s0 ^ length x) (2 * b) eps) as (m & HM); [lra|lra|exact E|].
  exists (m * length x)%nat. intros ss LS OK j J. rewrite <- (firstn_skipn (m * length x) ss) in OK |- *. apply Forall_app in OK as [O1 O2].
  rewrite many_app. set (y := many mode (firstn _ ss) x). assert (LY : length y = length x) by apply many_len.
  assert (F1 : length (firstn (m * length x) ss) = (m * length x)%nat) by (rewrite firstn_length; lia).
  destruct (rounds mode s0 M S0 m (firstn (m * length x) ss) x (- b) b O1 L F1 ltac:(lra) W) as (a' & b' & A1 & B1 & AB & G & WY). fold y in WY.
  assert (H : a' <= nth j (many mode (skipn (m * length x) ss) y) 0 <= b') by (apply (stay_many mode s0); try assumption; try lia; try lra; intros; congruence).
  assert (T : a' <= limit_value mode x <= b') by (rewrite <- (limit_many mode (firstn (m * length x) ss) x L); apply limit_within; [congruence|fold y; lia|exact WY]).
  apply Rabs_def1; lra.
Qed.
Lemma converges mode s0 x eps : (2 <= length x)%nat -> 0 < s0 -> 0 < eps -> exists m, forall ss, (m <= length ss)%nat -> coeffs_ok s0 ss ->
  forall j, (j < length x)%nat -> Rabs (nth j (many mode ss x) 0 - limit_value mode x) < eps.
Proof.
  intros L S0 E. destruct (Rle_dec s0 (1 / 3)) as [S1|S1].
  2:{ exists 1%nat. intros [|s ss] LS OK; [cbn in LS; lia|]. inversion OK; subst. lra. }
  destruct (has_bound x) as (b & B & W).
  assert (PW : forall n, 0 < s0 ^ S n < 1). { intros n. split; [apply pow_lt; lra|]. cbn [pow]. assert (s0 ^ n <= 1) by (rewrite <- (pow1 n); apply pow_incr; lra). pose proof (pow_lt s0 n S0). nra. }
  destruct mode.
  3:{ destruct (pow_small (1 - s0 ^ S (length x)) b eps) as (m & HM); [specialize (PW (length x)); lra|exact B|exact E|].
      exists (m * S (length x))%nat. intros ss LS OK j J. rewrite <- (firstn_skipn (m * S (length x)) ss) in OK |- *. apply Forall_app in OK as [O1 O2].
      rewrite many_app. set (y := many ZeroPad (firstn _ ss) x).
      assert (LY : length y = length x) by apply many_len.
      set (q := (1 - s0 ^ S (length x)) ^ m * b) in *.
      assert (WY : within y (- q) q) by (apply (zero_rounds s0); try assumption; try lra; rewrite firstn_length; lia).
      assert (Q0 : 0 <= q). { pose proof (WY 0%nat ltac:(lia)). lra. }
      assert (H : - q <= nth j (many ZeroPad (skipn (m * S (length x)) ss) y) 0 <= q).
      { apply (stay_many ZeroPad s0); try assumption; try lia. intros; lra. }
      cbn [limit_value]. apply Rabs_def1; lra. }
  all: apply (converges_closed _ s0 x b eps); try assumption; try discriminate; try lra; destruct (length x) as [|n]; [lia|apply PW].
Qed.
