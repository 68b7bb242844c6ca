(* Lemmas about window evaluation. *)
From Verif Require Import Common RealUtil BesselModel BesselProofs WindowModel WindowSpec.
From Coq Require Import Lia.
Local Open Scope R_scope.

Lemma kTol_pos : 0 < kTol.
Proof. unfold kTol. apply Rinv_0_lt_compat, pow_lt. lra. Qed.
Lemma kTol_small : kTol < 1 / 1000.
Proof. unfold kTol. lra. Qed.

Lemma make_ok k r w : make_window k r = Ok w ->
  valid k r /\ wi_kind w = k /\ wi_radius w = r /\ wi_memo w = [].
Proof.
  unfold make_window, valid. intros H. apply ocheck_ok in H as (H0 & H).
  destruct (Rltb_spec 0 r); [|discriminate].
  destruct k; cbn [ocheck] in H;
    repeat match type of H with
    | ocheck (Rleb ?a ?b) _ = _ => destruct (Rleb_spec a b); cbn [ocheck] in H; [|discriminate]
    end;
    match type of H with Ok ?v = Ok _ => assert (w = v) as -> by congruence end;
    cbn [wi_kind wi_radius wi_memo]; repeat split; auto; lra.
Qed.

Lemma make_iff k r : (exists w, make_window k r = Ok w) <-> valid k r.
Proof.
  split.
  - intros (w & H). apply make_ok in H. tauto.
  - unfold valid, make_window. intros (H0 & H). rewrite (Rltb_true 0 r H0). cbn [ocheck].
    destruct k; try (eexists; reflexivity).
    + rewrite Rleb_true by lra. eexists; reflexivity.
    + rewrite (Rleb_true 0) by lra. rewrite Rleb_true by lra. eexists; reflexivity.
    + rewrite (Rleb_true (-2)) by lra. rewrite (Rleb_true c2) by lra.
      rewrite (Rleb_true (- (1 + c2))) by lra. rewrite (Rleb_true c4) by lra.
      eexists; reflexivity.
Qed.

Lemma even k r x : eval k r (- x) = eval k r x.
Proof.
  assert (E : Rabs (- x / r) = Rabs (x / r)).
  { replace (- x / r) with (- (x / r)) by (unfold Rdiv; ring). apply Rabs_Ropp. }
  destruct k; cbn [eval]; rewrite ?E, ?Rabs_Ropp; try reflexivity.
  replace (- x / r * (- x / r)) with (x / r * (x / r)) by (unfold Rdiv; ring). reflexivity.
Qed.

Lemma ratio_abs r x : 0 < r -> Rabs (x / r) = Rabs x / r.
Proof.
  intros H. unfold Rdiv. rewrite Rabs_mult. rewrite (Rabs_right (/ r)); [reflexivity|].
  apply Rle_ge, Rlt_le, Rinv_0_lt_compat, H.
Qed.
Lemma ratio_le r x : 0 < r -> x <= r -> x / r <= 1.
Proof. intros. apply Rmult_le_reg_r with r; [lra|]. unfold Rdiv. rewrite Rmult_assoc, Rinv_l; lra. Qed.
Lemma ratio_lt r x : 0 < r -> x < r -> x / r < 1.
Proof. intros. apply Rmult_lt_reg_r with r; [lra|]. unfold Rdiv. rewrite Rmult_assoc, Rinv_l; lra. Qed.
Lemma ratio_ge r x c : 0 < r -> c * r <= x -> c <= x / r.
Proof. intros. apply Rmult_le_reg_r with r; [lra|]. unfold Rdiv. rewrite Rmult_assoc, Rinv_l; lra. Qed.
Lemma ratio_nonneg r x : 0 < r -> 0 <= x -> 0 <= x / r.
Proof. intros. apply Rmult_le_pos; [lra|]. apply Rlt_le, Rinv_0_lt_compat; lra. Qed.

(* The windows as functions of y = |x| / radius in [0, 1] (the Planck taper aside). *)
Definition shape (k : kind) (y : R) : R :=
  match k with
  | Rectangular => 1
  | Cosine => cos (PI / 2 * y)
  | Hamming => 54 / 100 + 46 / 100 * cos (PI * y)
  | Hann => 1 / 2 * (1 + cos (PI * y))
  | Kaiser b => bessel_i0 (b * sqrt (1 - y * y)) / bessel_i0 b
  | Nuttall => 3635819 / 10 ^ 7 + 4891775 / 10 ^ 7 * cos (PI * y)
               + 1365995 / 10 ^ 7 * cos (2 * (PI * y)) + 106411 / 10 ^ 7 * cos (3 * (PI * y))
  | PlanckTaper _ => 0
  | Quartic c2 c4 => 1 + y * y * (c2 + y * y * c4)
  end.
Definition is_planck (k : kind) := match k with PlanckTaper _ => True | _ => False end.

Lemma abs_sq x : Rabs x * Rabs x = x * x.
Proof. rewrite <- Rabs_mult. apply Rabs_right. apply Rle_ge. apply Rle_0_sqr. Qed.

Lemma eval_shape k r x : 0 < r -> Rabs x <= r -> ~ is_planck k ->
  eval k r x = shape k (Rabs (x / r)).
Proof.
  intros Hr Hx NP. assert (Hy : Rabs (x / r) <= 1) by (rewrite ratio_abs by lra; apply ratio_le; lra).
  assert (H0 : 0 <= Rabs (x / r)) by apply Rabs_pos.
  assert (T := kTol_pos).
  destruct k; cbn [eval shape is_planck] in *; [| | | | | |tauto|].
  - rewrite Rltb_true; [reflexivity|]. assert (0 < kTol * r) by (apply Rmult_lt_0_compat; lra). lra.
  - destruct (Rltb_spec (Rabs (x / r)) 1) as [L|L]; [reflexivity|].
    replace (Rabs (x / r)) with 1 by lra. rewrite Rmult_1_r, cos_PI2. reflexivity.
  - rewrite Rltb_true by lra. rewrite Rmin_right by lra. reflexivity.
  - destruct (Rltb_spec (Rabs (x / r)) 1) as [L|L]; [reflexivity|].
    replace (Rabs (x / r)) with 1 by lra. rewrite Rmult_1_r, cos_PI. lra.
  - rewrite Rltb_true by lra. rewrite Rmax_right; [reflexivity|].
    assert (Rabs (x / r) * Rabs (x / r) <= 1 * 1) by (apply Rmult_le_compat; lra). lra.
  - rewrite Rltb_true by lra. rewrite Rmin_right by lra. reflexivity.
  - rewrite abs_sq. rewrite Rltb_true; [reflexivity|]. rewrite <- abs_sq.
    assert (Rabs (x / r) * Rabs (x / r) <= 1 * 1) by (apply Rmult_le_compat; lra). lra.
Qed.

(* Nuttall's window as a polynomial in 1 + cos. *)
Definition nutt (s : R) : R :=
  3628 / 10 ^ 7 + 385494 / 10 ^ 7 * s + 1455058 / 10 ^ 7 * (s * s) + 425644 / 10 ^ 7 * (s * s * s).
Lemma nuttall_poly z :
  3635819 / 10 ^ 7 + 4891775 / 10 ^ 7 * cos z
    + 1365995 / 10 ^ 7 * cos (2 * z) + 106411 / 10 ^ 7 * cos (3 * z) = nutt (1 + cos z).
Proof.
  replace (3 * z) with (2 * z + z) by ring. rewrite cos_plus, cos_2a, sin_2a.
  assert (S2 : sin z * sin z = 1 - cos z * cos z).
  { pose proof (sin2_cos2 z) as H. unfold Rsqr in H. lra. }
  replace (2 * sin z * cos z * sin z) with (2 * cos z * (sin z * sin z)) by ring.
  rewrite S2. unfold nutt. lra.
Qed.

Lemma nutt_mono a b : 0 <= a -> a <= b -> nutt a <= nutt b.
Proof.
  intros Ha Hb. unfold nutt.
  assert (a * a <= b * b) by (apply Rmult_le_compat; lra).
  assert (0 <= a * a) by (apply Rmult_le_pos; lra).
  assert (a * a * a <= b * b * b) by (apply Rmult_le_compat; lra). lra.
Qed.

Lemma quartic_mono c2 c4 a b : -2 <= c2 <= 0 -> - (1 + c2) <= c4 <= - c2 / 2 ->
  0 <= a -> a <= b -> b <= 1 ->
  1 + b * (c2 + b * c4) <= 1 + a * (c2 + a * c4).
Proof.
  intros H2 H4 Ha Hb H1.
  assert (E : 1 + a * (c2 + a * c4) - (1 + b * (c2 + b * c4)) = (b - a) * (- c2 - c4 * (a + b))) by ring.
  assert (0 <= (b - a) * (- c2 - c4 * (a + b))); [|lra].
  apply Rmult_le_pos; [lra|].
  destruct (Rle_or_lt 0 c4) as [P|P].
  - assert (c4 * (a + b) <= c4 * 2) by (apply Rmult_le_compat_l; lra). lra.
  - assert (c4 * (a + b) <= 0); [|lra]. assert (0 <= (- c4) * (a + b)) by (apply Rmult_le_pos; lra). lra.
Qed.

Lemma cos_range01 y : 0 <= y <= 1 -> 0 <= 1 + cos (PI * y) <= 2.
Proof. intros. pose proof (COS_bound (PI * y)). lra. Qed.

Lemma shape_anti k r y1 y2 : valid k r -> series_range k -> ~ is_planck k ->
  0 <= y1 -> y1 <= y2 -> y2 <= 1 -> shape k y2 <= shape k y1.
Proof.
  intros (_ & V) SR NP H1 H2 H3. assert (PP := PI_RGT_0).
  assert (Cd : cos (PI * y2) <= cos (PI * y1)).
  { destruct (Req_dec y1 y2) as [->|N]; [lra|]. apply Rlt_le.
    apply cos_decreasing_1; try (apply Rmult_le_pos; lra).
    - assert (PI * y1 <= PI * 1) by (apply Rmult_le_compat_l; lra). lra.
    - assert (PI * y2 <= PI * 1) by (apply Rmult_le_compat_l; lra). lra.
    - apply Rmult_lt_compat_l; lra. }
  destruct k; cbn [shape is_planck valid series_range] in *; [lra| |lra|lra| | |tauto|].
  - destruct (Req_dec y1 y2) as [->|N]; [lra|]. apply Rlt_le.
    assert (PI / 2 * y1 <= PI / 2 * 1) by (apply Rmult_le_compat_l; lra).
    assert (PI / 2 * y2 <= PI / 2 * 1) by (apply Rmult_le_compat_l; lra).
    apply cos_decreasing_1; try (apply Rmult_le_pos; lra); try lra.
    apply Rmult_lt_compat_l; lra.
  - apply Rmult_le_compat_r; [apply Rlt_le, Rinv_0_lt_compat, i0_pos|].
    assert (y1 * y1 <= y2 * y2) by (apply Rmult_le_compat; lra).
    assert (y2 * y2 <= 1 * 1) by (apply Rmult_le_compat; lra).
    assert (0 <= y1 * y1) by (apply Rmult_le_pos; lra).
    assert (sqrt (1 - y1 * y1) <= 1).
    { pose proof (sqrt_le_1 (1 - y1 * y1) 1 ltac:(lra) ltac:(lra) ltac:(lra)) as Q.
      rewrite sqrt_1 in Q. exact Q. }
    apply i0_mono.
    + apply Rmult_le_pos; [lra|apply sqrt_pos].
    + apply Rmult_le_compat_l; [lra|]. apply sqrt_le_1; lra.
    + assert (beta * sqrt (1 - y1 * y1) <= beta * 1) by (apply Rmult_le_compat_l; lra). lra.
  - rewrite !nuttall_poly. apply nutt_mono; [|lra]. pose proof (COS_bound (PI * y2)). lra.
  - destruct V as (V2 & V4). apply quartic_mono; try assumption.
    + apply Rmult_le_pos; lra.
    + apply Rmult_le_compat; lra.
    + assert (y2 * y2 <= 1 * 1) by (apply Rmult_le_compat; lra). lra.
Qed.

Lemma shape_0 k r : valid k r -> ~ is_planck k -> shape k 0 = 1.
Proof.
  intros V NP. destruct k; cbn [shape is_planck] in *; rewrite ?Rmult_0_r, ?cos_0; try lra; try tauto.
  rewrite Rminus_0_r, sqrt_1, Rmult_1_r. apply Rinv_r. pose proof (i0_pos beta). lra.
Qed.

Lemma shape_nonneg k r y : valid k r -> ~ is_planck k -> 0 <= y <= 1 -> 0 <= shape k y.
Proof.
  intros V NP Hy. pose proof (COS_bound (PI * y)) as C.
  destruct k; cbn [shape is_planck] in *; try lra; [| | |].
  - apply cos_ge_0; pose proof PI_RGT_0.
    + assert (0 <= PI / 2 * y) by (apply Rmult_le_pos; lra). lra.
    + assert (PI / 2 * y <= PI / 2 * 1) by (apply Rmult_le_compat_l; lra). lra.
  - apply Rlt_le, Rmult_lt_0_compat; [apply i0_pos|apply Rinv_0_lt_compat, i0_pos].
  - rewrite nuttall_poly. apply Rle_trans with (nutt 0); [unfold nutt; lra|].
    apply nutt_mono; lra.
  - destruct V as (V0 & V2 & V4).
    apply Rle_trans with (1 + 1 * (c2 + 1 * c4)); [lra|].
    assert (y * y <= 1 * 1) by (apply Rmult_le_compat; lra).
    apply quartic_mono; try assumption; try lra. apply Rmult_le_pos; lra.
Qed.

(* The Planck taper. *)
Definition planck (y : R) : R :=
  if Rleb (1 - kTol) y then 1
  else if Rltb kTol y then 1 / (1 + exp (1 / y - 1 / (1 - y))) else 0.

Lemma planck_range y : 0 <= planck y <= 1.
Proof.
  unfold planck. destruct (Rleb _ _); [lra|]. destruct (Rltb _ _); [|lra].
  set (e := exp _). assert (0 < e) by apply exp_pos.
  assert (0 < / (1 + e)) by (apply Rinv_0_lt_compat; lra).
  assert (/ (1 + e) <= / 1) by (apply Rinv_le_contravar; lra). lra.
Qed.

Lemma planck_mono a b : a <= b -> planck a <= planck b.
Proof.
  intros H. pose proof (planck_range a) as Ra. pose proof (planck_range b) as Rb.
  assert (T := kTol_pos).
  destruct (Rle_or_lt (1 - kTol) b) as [B1|B1].
  { replace (planck b) with 1; [lra|]. unfold planck. rewrite Rleb_true by lra. reflexivity. }
  destruct (Rle_or_lt a kTol) as [A1|A1].
  { replace (planck a) with 0; [lra|]. unfold planck. rewrite Rleb_false by lra.
    rewrite Rltb_false by lra. reflexivity. }
  unfold planck. rewrite (Rleb_false _ a) by lra. rewrite (Rleb_false _ b) by lra.
  rewrite !Rltb_true by lra. apply Rmult_le_compat_l; [lra|].
  apply Rinv_le_contravar; [pose proof (exp_pos (1 / b - 1 / (1 - b))); lra|].
  apply Rplus_le_compat_l. destruct (Req_dec a b) as [->|N]; [lra|].
  apply Rlt_le, exp_increasing.
  assert (/ b < / a) by (apply Rinv_lt_contravar; [apply Rmult_lt_0_compat|]; lra).
  assert (/ (1 - a) < / (1 - b)) by (apply Rinv_lt_contravar; [apply Rmult_lt_0_compat|]; lra).
  unfold Rdiv. lra.
Qed.

Lemma eval_planck e r x : 0 < e -> eval (PlanckTaper e) r x = planck ((r - Rabs x) / e).
Proof.
  intros. cbn [eval]. destruct (Reqb_spec e 0); [lra|]. reflexivity.
Qed.
Lemma eval_planck0 r x : eval (PlanckTaper 0) r x = if Rltb 0 (r - Rabs x) then 1 else 0.
Proof. cbn [eval]. destruct (Reqb_spec 0 0); [reflexivity|lra]. Qed.

Lemma is_planck_dec k : {is_planck k} + {~ is_planck k}.
Proof. destruct k; cbn; tauto. Qed.

(* --- main facts --- *)

Lemma eval_center k r : valid k r -> eval k r 0 = 1.
Proof.
  intros V. pose proof (proj1 V) as Hr.
  destruct (is_planck_dec k) as [P|NP].
  - destruct k; cbn in P; try tauto. destruct V as (_ & He).
    destruct (Req_dec epsilon 0) as [->|N].
    + rewrite eval_planck0, Rabs_R0, Rltb_true by lra. reflexivity.
    + rewrite eval_planck by lra. rewrite Rabs_R0. unfold planck. rewrite Rleb_true; [reflexivity|].
      pose proof kTol_pos. apply Rle_trans with 1; [lra|]. apply ratio_ge; lra.
  - rewrite eval_shape; [|lra|rewrite Rabs_R0; lra|exact NP].
    unfold Rdiv. rewrite Rmult_0_l, Rabs_R0. apply (shape_0 k r V NP).
Qed.

Lemma eval_anti k r x1 x2 : valid k r -> series_range k ->
  Rabs x1 <= Rabs x2 -> Rabs x2 <= r -> eval k r x2 <= eval k r x1.
Proof.
  intros V SR H1 H2. pose proof (proj1 V) as Hr.
  destruct (is_planck_dec k) as [P|NP].
  - destruct k; cbn in P; try tauto. destruct V as (_ & He).
    destruct (Req_dec epsilon 0) as [->|N].
    + rewrite !eval_planck0. destruct (Rltb_spec 0 (r - Rabs x2)) as [L|L].
      * rewrite Rltb_true by lra. lra.
      * destruct (Rltb _ _); lra.
    + rewrite !eval_planck by lra. apply planck_mono. apply Rmult_le_compat_r; [|lra].
      apply Rlt_le, Rinv_0_lt_compat. lra.
  - rewrite !eval_shape by (try assumption; lra). rewrite !ratio_abs by lra.
    apply (shape_anti k r); try assumption.
    + apply ratio_nonneg; [lra|apply Rabs_pos].
    + apply Rmult_le_compat_r; [apply Rlt_le, Rinv_0_lt_compat; lra|lra].
    + apply ratio_le; lra.
Qed.

Lemma eval_nonneg k r x : valid k r -> Rabs x <= r -> 0 <= eval k r x.
Proof.
  intros V Hx. pose proof (proj1 V) as Hr.
  destruct (is_planck_dec k) as [P|NP].
  - destruct k; cbn in P; try tauto. destruct V as (_ & He).
    destruct (Req_dec epsilon 0) as [->|N].
    + rewrite eval_planck0. destruct (Rltb _ _); lra.
    + rewrite eval_planck by lra. apply planck_range.
  - rewrite eval_shape by (try assumption; lra). apply (shape_nonneg k r); try assumption.
    split; [apply Rabs_pos|]. rewrite ratio_abs by lra. apply ratio_le; lra.
Qed.

Lemma eval_le1 k r x : valid k r -> series_range k -> Rabs x <= r -> eval k r x <= 1.
Proof.
  intros V SR Hx. rewrite <- (eval_center k r V). apply eval_anti; auto.
  rewrite Rabs_R0. apply Rabs_pos.
Qed.

Lemma eval_support k r x : valid k r -> (1 + kTol) * r <= Rabs x -> eval k r x = 0.
Proof.
  intros V Hx. pose proof (proj1 V) as Hr. assert (T := kTol_pos).
  assert (Hy : 1 + kTol <= Rabs (x / r)) by (rewrite ratio_abs by lra; apply ratio_ge; lra).
  assert (Hxr : r <= Rabs x).
  { assert (0 < kTol * r) by (apply Rmult_lt_0_compat; lra). lra. }
  destruct k; cbn [eval].
  - rewrite Rltb_false by lra. reflexivity.
  - rewrite Rltb_false by lra. reflexivity.
  - rewrite Rltb_false by lra. reflexivity.
  - rewrite Rltb_false by lra. reflexivity.
  - rewrite Rltb_false by lra. reflexivity.
  - rewrite Rltb_false by lra. reflexivity.
  - destruct (Reqb_spec epsilon 0) as [E|N].
    + rewrite Rltb_false by lra. reflexivity.
    + destruct V as (_ & He).
      assert ((r - Rabs x) / epsilon <= 0).
      { assert (0 <= (Rabs x - r) / epsilon) by (apply ratio_nonneg; lra). unfold Rdiv in *. lra. }
      pose proof kTol_small. rewrite Rleb_false by lra. rewrite Rltb_false by lra. reflexivity.
  - rewrite Rltb_false; [reflexivity|]. rewrite <- abs_sq.
    apply Rle_trans with ((1 + kTol) * (1 + kTol)); [|apply Rmult_le_compat; lra].
    assert (0 < kTol * kTol) by (apply Rmult_lt_0_compat; lra). lra.
Qed.

Lemma eval_endpoint k r x : valid k r -> zero_at_endpoints k = true -> r <= Rabs x -> eval k r x = 0.
Proof.
  intros V Z Hx. pose proof (proj1 V) as Hr.
  assert (Hy : 1 <= Rabs (x / r)) by (rewrite ratio_abs by lra; apply ratio_ge; lra).
  destruct k; try discriminate; cbn [eval].
  - rewrite Rltb_false by lra. reflexivity.
  - rewrite Rltb_false by lra. reflexivity.
  - destruct (Reqb_spec epsilon 0) as [E|N].
    + rewrite Rltb_false by lra. reflexivity.
    + destruct V as (_ & He).
      assert ((r - Rabs x) / epsilon <= 0).
      { assert (0 <= (Rabs x - r) / epsilon) by (apply ratio_nonneg; lra). unfold Rdiv in *. lra. }
      pose proof kTol_small. pose proof kTol_pos.
      rewrite Rleb_false by lra. rewrite Rltb_false by lra. reflexivity.
Qed.

(* A window that is zero at its endpoints says so, when its parameters allow a
   general statement: rectangular, Hamming, Kaiser and Nuttall are positive there. *)
Lemma eval_endpoint_pos k r : valid k r -> zero_at_endpoints k = false ->
  (match k with Quartic c2 c4 => - (1 + c2) < c4 | _ => True end) -> 0 < eval k r r.
Proof.
  intros V Z Q. pose proof (proj1 V) as Hr. assert (NP : ~ is_planck k) by (destruct k; cbn in *; (discriminate || tauto)).
  rewrite eval_shape; [|lra|rewrite Rabs_right by lra; lra|exact NP].
  unfold Rdiv. rewrite Rinv_r by lra. rewrite Rabs_R1.
  destruct k; try discriminate; cbn [shape].
  - lra.
  - rewrite Rmult_1_r, cos_PI. lra.
  - apply Rmult_lt_0_compat; [apply i0_pos|apply Rinv_0_lt_compat, i0_pos].
  - rewrite nuttall_poly, Rmult_1_r, cos_PI. unfold nutt. lra.
  - lra.
Qed.

Lemma cos_abs_arg c x : cos (c * Rabs x) = cos (c * x).
Proof.
  unfold Rabs. destruct (Rcase_abs x); [|reflexivity].
  replace (c * - x) with (- (c * x)) by ring. apply cos_neg.
Qed.

Lemma eval_documented k r x : valid k r -> Rabs x <= r -> documented k r x (eval k r x).
Proof.
  intros V Hx. pose proof (proj1 V) as Hr.
  destruct (is_planck_dec k) as [P|NP].
  - destruct k; cbn in P; try tauto. cbn [documented]. destruct V as (_ & He). intros H1 H2.
    destruct (Req_dec epsilon 0) as [->|N].
    + rewrite eval_planck0, Rltb_true by lra. reflexivity.
    + rewrite eval_planck by lra. unfold planck. rewrite Rleb_true; [reflexivity|].
      pose proof kTol_pos. apply Rle_trans with 1; [lra|]. apply ratio_ge; lra.
  - rewrite eval_shape by assumption.
    destruct k; cbn [shape documented is_planck] in *; [reflexivity| | | | | |tauto|].
    + apply cos_abs_arg.
    + rewrite cos_abs_arg. reflexivity.
    + rewrite cos_abs_arg. lra.
    + rewrite abs_sq. pose proof (i0_pos beta).
      replace ((x / r) ^ 2) with (x / r * (x / r)) by ring.
      unfold Rdiv at 1. rewrite Rmult_assoc, Rinv_l by lra. ring.
    + replace (2 * (PI * Rabs (x / r))) with ((2 * PI) * Rabs (x / r)) by ring.
      replace (3 * (PI * Rabs (x / r))) with ((3 * PI) * Rabs (x / r)) by ring.
      rewrite !cos_abs_arg. rewrite !Rmult_assoc. reflexivity.
    + rewrite abs_sq. ring.
Qed.
