(* Sampled windows. *)
From Verif Require Import Common ListLemmas NthLemmas RealUtil BesselModel BesselProofs
  WindowModel WindowSpec WindowProofs.
From Coq Require Import Lia.
Local Open Scope R_scope.

Lemma rc_loop_length : forall n src dst v, (dst + n <= length v)%nat ->
  length (reverse_copy_loop n src dst v) = length v.
Proof.
  induction n as [|n IH]; intros src dst v H; cbn [reverse_copy_loop]; [reflexivity|].
  rewrite IH; rewrite length_splice; cbn [length]; lia.
Qed.

Lemma rc_loop_nth : forall n src dst v i,
  (dst + n <= src + 1)%nat -> (src + n <= length v)%nat ->
  nth i (reverse_copy_loop n src dst v) 0 =
  if ((dst <=? i) && (i <? dst + n))%nat%bool then nth (src + n - 1 - (i - dst)) v 0 else nth i v 0.
Proof.
  induction n as [|n IH]; intros src dst v i H1 H2; cbn [reverse_copy_loop].
  - destruct (Nat.leb_spec dst i); destruct (Nat.ltb_spec i (dst + 0)); cbn; try lia; reflexivity.
  - rewrite IH; [|lia|rewrite length_splice; cbn [length]; lia].
    destruct (Nat.eq_dec i dst) as [->|N].
    + destruct (Nat.leb_spec (S dst) dst); [lia|]. cbn [andb].
      rewrite nth_splice_same by lia.
      destruct (Nat.leb_spec dst dst); [|lia]. destruct (Nat.ltb_spec dst (dst + S n)); [|lia].
      cbn [andb]. f_equal. lia.
    + destruct (Nat.leb_spec (S dst) i); destruct (Nat.ltb_spec i (S dst + n));
      destruct (Nat.leb_spec dst i); destruct (Nat.ltb_spec i (dst + S n)); cbn [andb]; try lia.
      * rewrite nth_splice_other by lia. f_equal. lia.
      * rewrite nth_splice_other by lia. reflexivity.
      * rewrite nth_splice_other by lia. reflexivity.
Qed.

Lemma nth_tail_block (F : nat -> R) half m j : (j < m)%nat ->
  nth (half + j) (repeat 0 half ++ map F (seq 0 m)) 0 = F j.
Proof.
  intros H. rewrite app_nth2; rewrite repeat_length; [|lia].
  replace (half + j - half)%nat with j by lia. rewrite nth_map_seq by exact H. reflexivity.
Qed.

Lemma INR_half_even num : (num mod 2 = 0)%nat -> INR num = 2 * INR (num / 2).
Proof.
  intros H. pose proof (Nat.div_mod_eq num 2) as E. rewrite H in E.
  rewrite E at 1. rewrite Nat.add_0_r, mult_INR. cbn. ring.
Qed.
Lemma INR_half_odd num : (num mod 2 <> 0)%nat -> INR num = 2 * INR (num / 2) + 1.
Proof.
  intros H. pose proof (Nat.div_mod_eq num 2) as E.
  assert (num mod 2 = 1)%nat by (pose proof (Nat.mod_upper_bound num 2); lia).
  rewrite H0 in E. rewrite E at 1. rewrite plus_INR, mult_INR. cbn. ring.
Qed.

(* Position of sample i. *)
Definition sym_pos (w : window) (num i : nat) : R :=
  if zero_at_endpoints (wi_kind w) then grid (wi_radius w) (num + 2) (i + 1)
  else grid (wi_radius w) num i.

Lemma symmetric_ok w num : (2 <= num)%nat ->
  exists s, symmetric_samples w num = Ok s /\ length s = num /\
  forall i, (i < num)%nat -> nth i s 0 = eval_w w (sym_pos w num i).
Proof.
  intros Hn. unfold symmetric_samples.
  replace (2 <=? num)%nat with true by (symmetry; apply Nat.leb_le; exact Hn). cbn [ocheck].
  set (half := (num / 2)%nat).
  set (D := INR num + (if zero_at_endpoints (wi_kind w) then 1 else -1)).
  set (dx := 2 * wi_radius w / D).
  set (x0 := if (num mod 2 =? 0)%nat then dx / 2 else 0).
  set (F := fun n => eval_w w (x0 + dx * INR n)).
  set (v := repeat 0 half ++ map F (seq 0 (num - half))).
  assert (HB : (2 * half <= num <= 2 * half + 1)%nat).
  { pose proof (Nat.div_mod_eq num 2). pose proof (Nat.mod_upper_bound num 2). unfold half. lia. }
  assert (Lv : length v = num).
  { unfold v. rewrite app_length, repeat_length, map_length, seq_length. lia. }
  assert (HN : 2 <= INR num) by (change 2 with (INR 2); apply le_INR; exact Hn).
  assert (HD : 0 < D) by (unfold D; destruct (zero_at_endpoints _); lra).
  assert (Hpos : forall i, sym_pos w num i = dx * (INR i - (INR num - 1) / 2)).
  { intros i. unfold sym_pos, dx. fold D. unfold D in *. destruct (zero_at_endpoints _); unfold grid.
    - rewrite !plus_INR. change (INR 2) with 2. change (INR 1) with 1. field. lra.
    - field. lra. }
  assert (Hx0 : x0 = dx * (INR half - (INR num - 1) / 2)).
  { unfold x0. destruct (Nat.eqb_spec (num mod 2) 0) as [E|E].
    - rewrite (INR_half_even num E). fold half. field.
    - rewrite (INR_half_odd num E). fold half. field. }
  exists (reverse_copy half 0 v). split; [reflexivity|]. unfold reverse_copy. rewrite Lv.
  split; [rewrite rc_loop_length; lia|].
  intros i Hi. rewrite rc_loop_nth by (rewrite ?Lv; lia).
  destruct (Nat.ltb_spec i (0 + (num - half))) as [L|L].
  - replace (0 <=? i)%nat with true by (symmetry; apply Nat.leb_le; lia). cbn [andb].
    replace (half + (num - half) - 1 - (i - 0))%nat with (half + (num - 1 - i - half))%nat by lia.
    unfold v. rewrite nth_tail_block by lia. unfold F. unfold eval_w at 1.
    rewrite <- even. fold (eval_w w). rewrite Hpos. f_equal. rewrite Hx0.
    rewrite !minus_INR by lia. change (INR 1) with 1. field.
  - rewrite andb_false_r. replace i with (half + (i - half))%nat at 1 by lia.
    unfold v. rewrite nth_tail_block by lia. unfold F. rewrite Hpos. f_equal. rewrite Hx0.
    rewrite minus_INR by lia. field.
Qed.

Lemma INR_up_even num : (num mod 2 <> 1)%nat -> INR num = 2 * INR ((num + 1) / 2).
Proof.
  intros H. assert (E0 : (num mod 2 = 0)%nat) by (pose proof (Nat.mod_upper_bound num 2); lia).
  rewrite (INR_half_even num E0). do 2 f_equal. pose proof (Nat.div_mod_eq num 2) as E.
  rewrite E0 in E. rewrite Nat.add_0_r in E. apply (Nat.div_unique _ _ _ 1); lia.
Qed.
Lemma INR_up_odd num : (num mod 2 = 1)%nat -> INR num = 2 * INR ((num + 1) / 2) - 1.
Proof.
  intros H. rewrite (INR_half_odd num) by lia.
  assert (E1 : ((num + 1) / 2 = num / 2 + 1)%nat).
  { pose proof (Nat.div_mod_eq num 2) as E. rewrite H in E.
    symmetry. apply (Nat.div_unique _ _ _ 0); lia. }
  rewrite E1, plus_INR. change (INR 1) with 1. ring.
Qed.

Lemma periodic_ok w num : valid (wi_kind w) (wi_radius w) -> (2 <= num)%nat ->
  exists s, periodic_samples w num = Ok s /\ length s = num /\
  forall i, (i < num)%nat -> nth i s 0 = eval_w w (grid (wi_radius w) (num + 1) i).
Proof.
  intros V Hn. unfold periodic_samples.
  replace (2 <=? num)%nat with true by (symmetry; apply Nat.leb_le; exact Hn). cbn [ocheck].
  set (half := ((num + 1) / 2)%nat).
  set (dx := 2 * wi_radius w / INR num).
  set (x0 := if (num mod 2 =? 1)%nat then dx / 2 else 0).
  set (F := fun n => eval_w w (x0 + dx * INR n)).
  set (v := repeat 0 half ++ map F (seq 0 (num - half))).
  set (s0 := if zero_at_endpoints (wi_kind w) then 0 else eval_w w (wi_radius w)).
  assert (HB : (num <= 2 * half <= num + 1)%nat).
  { pose proof (Nat.div_mod_eq (num + 1) 2). pose proof (Nat.mod_upper_bound (num + 1) 2). unfold half. lia. }
  assert (Lv : length v = num).
  { unfold v. rewrite app_length, repeat_length, map_length, seq_length. lia. }
  assert (HN : 2 <= INR num) by (change 2 with (INR 2); apply le_INR; exact Hn).
  assert (Hpos : forall i, grid (wi_radius w) (num + 1) i = dx * (INR i - INR num / 2)).
  { intros i. unfold grid, dx. rewrite plus_INR. change (INR 1) with 1. field. lra. }
  assert (Hx0 : x0 = dx * (INR half - INR num / 2)).
  { unfold x0. destruct (Nat.eqb_spec (num mod 2) 1) as [E|E].
    - rewrite (INR_up_odd num E). fold half. field.
    - rewrite (INR_up_even num E). fold half. field. }
  exists (reverse_copy half 1 (splice 0 [s0] v)). split; [reflexivity|]. unfold reverse_copy.
  assert (L1 : length (splice 0 [s0] v) = num) by (rewrite length_splice; cbn [length]; lia).
  rewrite L1. split; [rewrite rc_loop_length; lia|].
  assert (Nh : forall j, (j < num - half)%nat -> nth (half + j) (splice 0 [s0] v) 0 = F j).
  { intros j Hj. rewrite nth_splice_other by lia. unfold v. apply nth_tail_block. exact Hj. }
  intros i Hi. rewrite rc_loop_nth by lia.
  destruct (Nat.eq_dec i 0) as [->|N0].
  - cbn [Nat.leb andb]. rewrite nth_splice_same by lia. rewrite Hpos.
    replace (dx * (INR 0 - INR num / 2)) with (- wi_radius w) by (unfold dx; cbn [INR]; field; lra).
    unfold eval_w. rewrite even. unfold s0. destruct (zero_at_endpoints _) eqn:Z; [|reflexivity].
    symmetry. apply eval_endpoint; [exact V|exact Z|apply Rle_abs].
  - destruct (Nat.ltb_spec i (1 + (num - half))) as [L|L].
    + replace (1 <=? i)%nat with true by (symmetry; apply Nat.leb_le; lia). cbn [andb].
      replace (half + (num - half) - 1 - (i - 1))%nat with (half + (num - half - i))%nat by lia.
      rewrite Nh by lia. unfold F. unfold eval_w at 1.
      rewrite <- even. fold (eval_w w). rewrite Hpos. f_equal. rewrite Hx0.
      rewrite !minus_INR by lia. field.
    + rewrite andb_false_r. replace i with (half + (i - half))%nat at 1 by lia.
      rewrite Nh by lia. unfold F. rewrite Hpos. f_equal. rewrite Hx0.
      rewrite minus_INR by lia. field.
Qed.

(* Positions stay within the support. *)
Lemma grid_range r num i : 0 < r -> (2 <= num)%nat -> (i < num)%nat -> Rabs (grid r num i) <= r.
Proof.
  intros Hr Hn Hi. unfold grid.
  assert (A : 1 <= INR num - 1).
  { assert (2 <= INR num) by (change 2 with (INR 2); apply le_INR; exact Hn). lra. }
  assert (B : INR i <= INR num - 1).
  { assert (INR (S i) <= INR num) by (apply le_INR; lia). rewrite S_INR in H. lra. }
  pose proof (pos_INR i).
  assert (C : 0 <= INR i / (INR num - 1) <= 1).
  { split; [apply ratio_nonneg; lra|apply ratio_le; lra]. }
  replace (2 * r * INR i / (INR num - 1)) with (r * (2 * (INR i / (INR num - 1)))) by (field; lra).
  apply Rabs_le. set (t := INR i / (INR num - 1)) in *. clearbody t.
  assert (0 <= r * t) by (apply Rmult_le_pos; lra).
  assert (r * t <= r * 1) by (apply Rmult_le_compat_l; lra). lra.
Qed.

Lemma sym_pos_range w num i : 0 < wi_radius w -> (2 <= num)%nat -> (i < num)%nat ->
  Rabs (sym_pos w num i) <= wi_radius w.
Proof. intros. unfold sym_pos. destruct (zero_at_endpoints _); apply grid_range; auto; lia. Qed.

Lemma sym_pos_mirror w num i : (2 <= num)%nat -> (i < num)%nat ->
  sym_pos w num (num - 1 - i) = - sym_pos w num i.
Proof.
  intros Hn Hi. unfold sym_pos, grid.
  assert (HN : 2 <= INR num) by (change 2 with (INR 2); apply le_INR; exact Hn).
  destruct (zero_at_endpoints _).
  - rewrite !plus_INR, !minus_INR by lia. change (INR 2) with 2. change (INR 1) with 1. field. lra.
  - rewrite !minus_INR by lia. change (INR 1) with 1. field. lra.
Qed.

Lemma sym_pos_center w num : (num mod 2 = 1)%nat -> (2 <= num)%nat -> sym_pos w num (num / 2) = 0.
Proof.
  intros H Hn. unfold sym_pos, grid.
  assert (HN : 2 <= INR num) by (change 2 with (INR 2); apply le_INR; exact Hn).
  assert (E : INR num = 2 * INR (num / 2) + 1) by (apply INR_half_odd; lia).
  destruct (zero_at_endpoints _).
  - rewrite !plus_INR. change (INR 2) with 2. change (INR 1) with 1. rewrite E in *. field. lra.
  - rewrite E in *. field. lra.
Qed.

(* Scaling: all windows but the Planck taper depend on x / radius only. *)
Lemma eval_scale k r1 r2 x y : 0 < r1 -> 0 < r2 -> ~ is_planck k -> x / r1 = y / r2 ->
  eval k r1 x = eval k r2 y.
Proof.
  intros H1 H2 NP E. destruct k; cbn [eval is_planck] in *; rewrite ?E; try reflexivity; [|tauto].
  assert (EA : Rabs x / r1 = Rabs y / r2) by (rewrite <- !ratio_abs by lra; rewrite E; reflexivity).
  replace (Rabs x) with ((Rabs y / r2) * r1) by (rewrite <- EA; field; lra).
  destruct (Rltb_spec (Rabs y) ((1 + kTol) * r2)) as [L|L].
  - rewrite Rltb_true; [reflexivity|]. apply Rmult_lt_compat_r; [lra|].
    apply Rmult_lt_reg_r with r2; [lra|]. unfold Rdiv. rewrite Rmult_assoc, Rinv_l; lra.
  - rewrite Rltb_false; [reflexivity|]. apply Rmult_le_compat_r; [lra|]. apply ratio_ge; lra.
Qed.

Lemma grid_scale r1 r2 num i : 0 < r1 -> 0 < r2 -> (2 <= num)%nat ->
  grid r1 num i / r1 = grid r2 num i / r2.
Proof.
  intros H1 H2 Hn. unfold grid.
  assert (HN : 2 <= INR num) by (change 2 with (INR 2); apply le_INR; exact Hn).
  field. repeat split; lra.
Qed.

Lemma samples_ext (s t : list R) n : length s = n -> length t = n ->
  (forall i, (i < n)%nat -> nth i s 0 = nth i t 0) -> s = t.
Proof. intros A B H. apply (nth_ext _ _ 0 0); [congruence|]. rewrite A. exact H. Qed.

Lemma symmetric_scale k r1 r2 m1 m2 num : 0 < r1 -> 0 < r2 -> ~ is_planck k ->
  symmetric_samples (mkWindow k r1 m1) num = symmetric_samples (mkWindow k r2 m2) num.
Proof.
  intros H1 H2 NP. destruct (le_lt_dec 2 num) as [Hn|Hn].
  - destruct (symmetric_ok (mkWindow k r1 m1) num Hn) as (s & -> & Ls & Ns).
    destruct (symmetric_ok (mkWindow k r2 m2) num Hn) as (t & -> & Lt & Nt).
    f_equal. apply (samples_ext s t num Ls Lt). intros i Hi. rewrite Ns, Nt by exact Hi.
    unfold eval_w, sym_pos; cbn [wi_kind wi_radius].
    apply eval_scale; try assumption. destruct (zero_at_endpoints k); apply grid_scale; auto; lia.
  - unfold symmetric_samples. destruct (Nat.leb_spec 2 num); [lia|reflexivity].
Qed.

Lemma periodic_scale k r1 r2 m1 m2 num : valid k r1 -> valid k r2 -> ~ is_planck k ->
  periodic_samples (mkWindow k r1 m1) num = periodic_samples (mkWindow k r2 m2) num.
Proof.
  intros H1 H2 NP. destruct (le_lt_dec 2 num) as [Hn|Hn].
  - destruct (periodic_ok (mkWindow k r1 m1) num H1 Hn) as (s & -> & Ls & Ns).
    destruct (periodic_ok (mkWindow k r2 m2) num H2 Hn) as (t & -> & Lt & Nt).
    f_equal. apply (samples_ext s t num Ls Lt). intros i Hi. rewrite Ns, Nt by exact Hi.
    unfold eval_w; cbn [wi_kind wi_radius].
    apply eval_scale; try assumption; [apply H1|apply H2|]. apply grid_scale; [apply H1|apply H2|lia].
  - unfold periodic_samples. destruct (Nat.leb_spec 2 num); [lia|reflexivity].
Qed.

(* Overlap of periodic windows. *)
Lemma grid_half r n i : 0 < r -> (1 <= n)%nat ->
  grid r (2 * n + 1) (i + n) = grid r (2 * n + 1) i + r.
Proof.
  intros Hr Hn. unfold grid. assert (1 <= INR n) by (change 1 with (INR 1); apply le_INR; lia).
  rewrite !plus_INR, mult_INR. change (INR 2) with 2. change (INR 1) with 1. field. lra.
Qed.

Lemma hann_pair r x : 0 < r -> - r <= x <= 0 -> eval Hann r x + eval Hann r (x + r) = 1.
Proof.
  intros Hr Hx.
  assert (V : valid Hann r) by (split; [exact Hr|exact I]).
  pose proof (eval_documented Hann r x V ltac:(apply Rabs_le; lra)) as A.
  pose proof (eval_documented Hann r (x + r) V ltac:(apply Rabs_le; lra)) as B.
  cbn [documented] in A, B. rewrite A, B.
  replace (PI * ((x + r) / r)) with (PI * (x / r) + PI) by (field; lra).
  rewrite neg_cos. lra.
Qed.

Lemma cosine_pair r x : 0 < r -> - r <= x <= 0 ->
  eval Cosine r x ^ 2 + eval Cosine r (x + r) ^ 2 = 1.
Proof.
  intros Hr Hx.
  assert (V : valid Cosine r) by (split; [exact Hr|exact I]).
  pose proof (eval_documented Cosine r x V ltac:(apply Rabs_le; lra)) as A.
  pose proof (eval_documented Cosine r (x + r) V ltac:(apply Rabs_le; lra)) as B.
  cbn [documented] in A, B. rewrite A, B.
  replace (PI / 2 * ((x + r) / r)) with (PI / 2 * (x / r) + PI / 2) by (field; lra).
  rewrite cos_plus, cos_PI2, sin_PI2.
  pose proof (sin2_cos2 (PI / 2 * (x / r))) as H. unfold Rsqr in H.
  set (c := cos _) in *. set (d := sin _) in *. clearbody c d.
  replace (c ^ 2 + (c * 0 - d * 1) ^ 2) with (d * d + c * c) by ring. exact H.
Qed.

Lemma cosine_sqrt_hann r x : 0 < r -> eval Cosine r x = sqrt (eval Hann r x).
Proof.
  intros Hr. cbn [eval]. destruct (Rltb_spec (Rabs (x / r)) 1) as [L|L].
  - set (y := Rabs (x / r)) in *. assert (0 <= y) by apply Rabs_pos.
    symmetry. apply sqrt_lem_1.
    + pose proof (COS_bound (PI * y)). lra.
    + apply cos_ge_0; pose proof PI_RGT_0.
      * assert (0 <= PI / 2 * y) by (apply Rmult_le_pos; lra). lra.
      * assert (PI / 2 * y <= PI / 2 * 1) by (apply Rmult_le_compat_l; lra). lra.
    + replace (PI * y) with (2 * (PI / 2 * y)) by field. rewrite cos_2a_cos. field.
  - rewrite sqrt_0. reflexivity.
Qed.
