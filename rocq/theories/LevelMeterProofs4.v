From Verif Require Import Common CInt ListLemmas Mealy NthLemmas RealUtil BiquadModel BiquadSpec BiquadProofs DesignModel CascadeModel CascadeSpec LoudnessSpec
  ResamplerModel EnvDetectModel EnvDetectProofs2 DecibelsModel PerceptualModel BackgroundModel BackgroundSpec BackgroundProofs LevelMeterModel LevelMeterSpec LevelMeterProofs LevelMeterProofs2 LevelMeterProofs3.
From Coq Require Import Lra Lia Reals Classical.
Local Open Scope R_scope.

(* ---------- the decibel scale ---------- *)
Lemma offset_pos : 0 < 1 / 10 ^ 12.
Proof. apply Rdiv_lt_0_compat; [lra|apply pow_lt; lra]. Qed.
Lemma ln_ten_pos : 0 < ln 10.
Proof. rewrite <- ln_1. apply ln_increasing; lra. Qed.
Lemma dbfs_le u v : 0 <= u -> u <= v -> dbfs u <= dbfs v.
Proof.
  intros Hu H. unfold dbfs. pose proof offset_pos. pose proof ln_ten_pos. apply Rmult_le_compat_l; [lra|]. unfold Rdiv. apply Rmult_le_compat_r; [left; apply Rinv_0_lt_compat; lra|].
  destruct H as [H| ->]; [left; apply ln_increasing; lra|lra].
Qed.
Lemma dbfs_lt u v : 0 <= u -> u < v -> dbfs u < dbfs v.
Proof.
  intros Hu H. unfold dbfs. pose proof offset_pos. pose proof ln_ten_pos. apply Rmult_lt_compat_l; [lra|]. unfold Rdiv. apply Rmult_lt_compat_r; [apply Rinv_0_lt_compat; lra|]. apply ln_increasing; lra.
Qed.
Lemma dbfs_inv u v : 0 <= v -> dbfs u <= dbfs v -> 0 <= u -> u <= v.
Proof. intros Hv H Hu. destruct (Rle_or_lt u v) as [L|L]; [exact L|]. pose proof (dbfs_lt v u Hv L). lra. Qed.
Lemma dbfs_zero : dbfs 0 = -240.
Proof.
  unfold dbfs. replace (0 + 1 / 10 ^ 12) with (/ 10 ^ 12) by lra. rewrite ln_Rinv by (apply pow_lt; lra). rewrite ln_pow by lra. pose proof ln_ten_pos. replace (INR 12) with 12 by (cbn; lra). field. lra.
Qed.
Lemma dbfs_shift u v e : 0 <= u -> 0 <= v -> v + 1 / 10 ^ 12 = (u + 1 / 10 ^ 12) * exp (ln 10 / 20 * e) -> dbfs v = dbfs u + e.
Proof. intros Hu Hv H. pose proof offset_pos. pose proof ln_ten_pos. unfold dbfs. rewrite H, ln_mult, ln_exp by (try apply exp_pos; lra). field. lra. Qed.

(* ---------- a contraction towards an interval ---------- *)
Lemma pull q a b B N0 e : 0 <= q < 1 -> 0 < e -> exists N, (N0 <= N)%nat /\ forall len (w : nat -> R), (forall i, (i < len)%nat -> 0 <= w i <= B) ->
  (forall i, (N0 <= i)%nat -> (S i < len)%nat -> exists r t, 0 <= r <= q /\ a <= t <= b /\ w (S i) = r * w i + (1 - r) * t) ->
  forall i, (N <= i)%nat -> (i < len)%nat -> a - e <= w i <= b + e.
Proof.
  intros Hq He. set (D := Rabs B + Rabs a + Rabs b + 1).
  assert (HD : 0 < D) by (unfold D; pose proof (Rabs_pos B); pose proof (Rabs_pos a); pose proof (Rabs_pos b); lra).
  destruct (pow_lt_1_zero q ltac:(rewrite Rabs_pos_eq; lra) (e / D) (Rdiv_lt_0_compat _ _ He HD)) as [J HJ].
  exists (N0 + J)%nat. split; [lia|]. intros len w HB HS.
  assert (K : forall j, (N0 + j < len)%nat -> a - q ^ j * D <= w (N0 + j)%nat <= b + q ^ j * D).
  { induction j as [|j IH]; intros Hj.
    - rewrite Nat.add_0_r in *. specialize (HB N0 Hj). cbn [pow]. unfold D. pose proof (Rle_abs B). pose proof (Rle_abs a). pose proof (Rle_abs (- b)) as Q. rewrite Rabs_Ropp in Q. pose proof (Rabs_pos b). pose proof (Rabs_pos a). lra.
    - specialize (IH ltac:(lia)). replace (N0 + S j)%nat with (S (N0 + j)) in * by lia. destruct (HS (N0 + j)%nat ltac:(lia) Hj) as (r & t & Hr & Ht & ->). cbn [pow].
      assert (P : 0 <= q ^ j * D) by (apply Rmult_le_pos; [apply pow_le; lra|lra]). set (Z := q ^ j * D) in *. replace (q * q ^ j * D) with (q * Z) by (unfold Z; ring). clearbody Z. set (x := w (N0 + j)%nat) in *. clearbody x. clear - IH Hr Ht P Hq.
      assert (r * Z <= q * Z) by (apply Rmult_le_compat_r; lra). assert (r * (a - Z) <= r * x) by (apply Rmult_le_compat_l; lra). assert (r * x <= r * (b + Z)) by (apply Rmult_le_compat_l; lra).
      assert ((1 - r) * a <= (1 - r) * t) by (apply Rmult_le_compat_l; lra). assert ((1 - r) * t <= (1 - r) * b) by (apply Rmult_le_compat_l; lra). lra. }
  intros i Hi Hl. specialize (K (i - N0)%nat). replace (N0 + (i - N0))%nat with i in K by lia. specialize (K Hl). specialize (HJ (i - N0)%nat ltac:(lia)).
  rewrite Rabs_pos_eq in HJ by (apply pow_le; lra). assert (q ^ (i - N0) * D <= e). { apply Rmult_le_reg_r with (/ D); [apply Rinv_0_lt_compat; lra|]. rewrite Rmult_assoc, Rinv_r, Rmult_1_r by lra. unfold Rdiv in HJ. lra. }
  lra.
Qed.
(* the one-pole filter by index *)
Lemma one_pole_length q x : forall x1 w1, length (one_pole q x1 w1 x) = length x.
Proof. induction x as [|u x IH]; intros; cbn [one_pole length]; [reflexivity|]. now rewrite IH. Qed.
Lemma one_pole_next q x : forall x1 w1 i, (S i < length x)%nat -> nth (S i) (one_pole q x1 w1 x) 0 = q * nth i (one_pole q x1 w1 x) 0 + (1 - q) * ((nth (S i) x 0 + nth i x 0) / 2).
Proof.
  induction x as [|u x IH]; intros x1 w1 i Hi; cbn [length] in Hi; [lia|]. cbn [one_pole]. set (a := q * w1 + (1 - q) / 2 * (u + x1)). destruct i as [|i].
  - destruct x as [|v x]; [cbn in Hi; lia|]. cbn [one_pole nth]. field.
  - cbn [nth]. apply (IH u a i). lia.
Qed.
Lemma nth_range {P : R -> Prop} (l : list R) i : Forall P l -> (i < length l)%nat -> P (nth i l 0).
Proof. intros H Hi. rewrite Forall_forall in H. apply H, nth_In, Hi. Qed.
Lemma pole_pull q a b B N0 e : 0 <= q < 1 -> 0 < e -> 0 <= B -> exists N, (N0 <= N)%nat /\ forall x, Forall (fun v => 0 <= v <= B) x -> (forall i, (N0 <= i)%nat -> (i < length x)%nat -> a <= nth i x 0 <= b) ->
  forall i, (N <= i)%nat -> (i < length x)%nat -> a - e <= nth i (one_pole q 0 0 x) 0 <= b + e.
Proof.
  intros Hq He HB. destruct (pull q a b B N0 e Hq He) as (N & HN & K). exists N. split; [exact HN|]. intros x HX HA i Hi Hl.
  apply (K (length x) (fun i => nth i (one_pole q 0 0 x) 0)); [| |exact Hi|exact Hl].
  - intros j Hj. apply (nth_range (P := fun v => 0 <= v <= B)); [apply one_pole_range; auto; lra|]. now rewrite one_pole_length.
  - intros j Hj Hl2. exists q, ((nth (S j) x 0 + nth j x 0) / 2). split; [lra|]. split; [|now apply one_pole_next]. pose proof (HA j Hj ltac:(lia)). pose proof (HA (S j) ltac:(lia) Hl2). lra.
Qed.
Lemma twice_poles q x y : rfilters (twice q) x y -> y = one_pole q 0 0 (one_pole q 0 0 x).
Proof.
  intros H. refine (difference_unique 0 1 Rplus Rmult Rminus Ropp Rdiv Rinv Rfield (twice q) _ x 0 0 0 0 _ _ H _); [cbn; lra|].
  apply (twice_compose q x 0 0 0 0 0 0 (one_pole q 0 0 x)); try lra; apply one_pole_ok.
Qed.
Lemma slow_pull q a b B N0 e : 0 <= q < 1 -> 0 < e -> 0 <= B -> exists N, (N0 <= N)%nat /\ forall x y, rfilters (twice q) x y -> Forall (fun v => 0 <= v <= B) x -> (forall i, (N0 <= i)%nat -> (i < length x)%nat -> a <= nth i x 0 <= b) ->
  forall i, (N <= i)%nat -> (i < length x)%nat -> a - e <= nth i y 0 <= b + e.
Proof.
  intros Hq He HB. destruct (pole_pull q a b B N0 (e / 2) Hq ltac:(lra) HB) as (N1 & HN1 & K1). destruct (pole_pull q (a - e / 2) (b + e / 2) B N1 (e / 2) Hq ltac:(lra) HB) as (N2 & HN2 & K2).
  exists N2. split; [lia|]. intros x y HF HX HA i Hi Hl. rewrite (twice_poles q x y HF).
  assert (Q : a - e / 2 - e / 2 <= nth i (one_pole q 0 0 (one_pole q 0 0 x)) 0 <= b + e / 2 + e / 2); [|lra]. apply K2; [apply one_pole_range; auto; lra| |exact Hi|now rewrite one_pole_length].
  intros j Hj Hl2. rewrite one_pole_length in Hl2. apply K1; assumption.
Qed.

(* ---------- the tracked level ---------- *)
Lemma law_pull a1 a2 sens T a b B N0 e : 0 < a2 <= 1 -> 0 < a1 <= 1 -> 0 < sens -> (0 <= T)%Z -> 0 < e -> sens * b < a -> a <= b -> 0 <= B ->
  exists N, forall len bk f sl, background_law a1 a2 sens T len bk f sl -> (forall i, (i < len)%nat -> 0 <= bk (S i) <= B) -> (forall i, (N0 <= i)%nat -> (i < len)%nat -> a <= f i <= b /\ a <= sl i) ->
  forall i, (N <= i)%nat -> (i < len)%nat -> a - e <= bk (S i) <= b + e.
Proof.
  intros H2 H1 Hs HT He Hsb Hab HB. set (q := Rmax (1 - a1) (1 - a2)).
  assert (Hq : 0 <= q < 1) by (unfold q; pose proof (Rmax_l (1 - a1) (1 - a2)); split; [lra|apply Rmax_lub_lt; lra]).
  set (N1 := (N0 + Z.to_nat T)%nat). destruct (pull q a b B N1 e Hq He) as (N & HN & K). exists N. intros len bk f sl [L0 L] HR HA i Hi Hl.
  apply (K len (fun i => bk (S i))); [exact HR| |exact Hi|exact Hl]. intros j Hj Hl2. destruct (L (S j) Hl2) as (C1 & C2 & C3). destruct (HA (S j) ltac:(lia) Hl2) as [F SS].
  assert (M : a <= Rmin (sl (S j)) (f (S j)) <= b). { unfold Rmin. destruct (Rle_dec _ _); lra. }
  assert (NR : ~ rejecting sens T bk f sl (S j)).
  { intros (k & K1 & _ & K3 & K4 & _). destruct (HA k ltac:(lia) ltac:(lia)) as [F' S']. unfold transient in K3. apply (Rmult_lt_compat_l sens) in K3; [|exact Hs].
    replace (sens * (1 / sens * sl k)) with (sl k) in K3 by (field; lra). assert (sens * f k <= sens * b) by (apply Rmult_le_compat_l; lra). lra. }
  destruct (classic (adapting bk f (S j))) as [A|A].
  - exists (1 - a1), (Rmin (sl (S j)) (f (S j))). split; [split; [lra|apply Rmax_l]|]. split; [exact M|]. rewrite (C1 A). unfold smoothed. ring.
  - exists (1 - a2), (Rmin (sl (S j)) (f (S j))). split; [split; [lra|apply Rmax_r]|]. split; [exact M|]. rewrite (C3 A NR). unfold smoothed. ring.
Qed.
Lemma coefficient_range t r k : 0 < t -> 0 < r -> 0 < k -> 0 < 1 - exp (- k / (t * r)) <= 1.
Proof.
  intros Ht Hr Hk. assert (P : 0 < k / (t * r)) by (apply Rdiv_lt_0_compat; [lra|apply Rmult_lt_0_compat; lra]). replace (- k / (t * r)) with (- (k / (t * r))) by (unfold Rdiv; ring).
  set (z := k / (t * r)) in *. clearbody z. pose proof (exp_pos (- z)). assert (exp (- z) < exp 0) by (apply exp_increasing; lra). rewrite exp_0 in *. lra.
Qed.
Lemma dbfs_slack a e : 0 < a -> 0 < e -> exists h, 0 < h /\ h <= a / 2 /\ forall v, 0 <= v -> (a - h <= v -> dbfs a - e <= dbfs v) /\ (v <= a + h -> dbfs v <= dbfs a + e).
Proof.
  intros Ha He. pose proof offset_pos as OP. pose proof ln_ten_pos as LP. set (o := 1 / 10 ^ 12) in *. set (k := ln 10 / 20 * e). assert (Hk : 0 < k) by (unfold k; apply Rmult_lt_0_compat; lra).
  assert (E1 : exp (- k) < 1) by (rewrite <- exp_0; apply exp_increasing; lra). assert (E2 : 1 < exp k) by (rewrite <- exp_0; apply exp_increasing; lra). pose proof (exp_pos (- k)) as E3.
  set (h := Rmin (a / 2) (Rmin ((a + o) * (1 - exp (- k))) ((a + o) * (exp k - 1)))). exists h.
  assert (P1 : 0 < (a + o) * (1 - exp (- k))) by (apply Rmult_lt_0_compat; lra). assert (P2 : 0 < (a + o) * (exp k - 1)) by (apply Rmult_lt_0_compat; lra).
  assert (H1 : h <= a / 2) by apply Rmin_l. assert (H2 : h <= (a + o) * (1 - exp (- k))) by (eapply Rle_trans; [apply Rmin_r|apply Rmin_l]). assert (H3 : h <= (a + o) * (exp k - 1)) by (eapply Rle_trans; [apply Rmin_r|apply Rmin_r]).
  split; [unfold h; repeat apply Rmin_glb_lt; lra|]. split; [exact H1|]. clearbody h. intros v Hv. split; intros Q.
  - assert (Q2 : (a + o) * exp (- k) <= v + o) by lra. assert (L : ln ((a + o) * exp (- k)) <= ln (v + o)). { destruct Q2 as [Q2|Q2]; [left; apply ln_increasing; [apply Rmult_lt_0_compat; lra|exact Q2]|rewrite Q2; lra]. }
    rewrite ln_mult, ln_exp in L by lra. unfold dbfs. fold o. apply Rmult_le_reg_r with (ln 10 / 20); [lra|]. replace ((20 * (ln (a + o) / ln 10) - e) * (ln 10 / 20)) with (ln (a + o) - k) by (unfold k; field; lra). replace (20 * (ln (v + o) / ln 10) * (ln 10 / 20)) with (ln (v + o)) by (field; lra). lra.
  - assert (Q2 : v + o <= (a + o) * exp k) by lra. assert (L : ln (v + o) <= ln ((a + o) * exp k)). { destruct Q2 as [Q2|Q2]; [left; apply ln_increasing; [lra|exact Q2]|rewrite Q2; lra]. }
    rewrite ln_mult, ln_exp in L by (try apply exp_pos; lra). unfold dbfs. fold o. apply Rmult_le_reg_r with (ln 10 / 20); [lra|]. replace ((20 * (ln (a + o) / ln 10) + e) * (ln 10 / 20)) with (ln (a + o) + k) by (unfold k; field; lra). replace (20 * (ln (v + o) / ln 10) * (ln 10 / 20)) with (ln (v + o)) by (field; lra). lra.
Qed.
