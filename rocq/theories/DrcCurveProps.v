(* C29: compressor, limiter and expander curves.  C30: the two-way compressor. *)
From Verif Require Import Common RealUtil DrcCurveModel DrcCurveSpec DrcCurveProofs.
From Coq Require Import Psatz.
Local Open Scope R_scope.

(* The branch-free code computes the curves given as "Equivalent code" in the header. *)
Theorem C29_documented_curves : forall x t r w, 0 <= w -> r <> 0 ->
  compressor x t r w = Ok (documented_compressor x t r w) /\
  limiter x t w = documented_limiter x t w /\
  expander x t r w = documented_expander x t r w.
Proof. intros x t r w HW HR. auto using compressor_doc, limiter_doc, expander_doc. Qed.
Print Assumptions C29_documented_curves.

(* The slope of each curve lies between the two slopes it joins, across the knee as well: the
   curves are continuous (Lipschitz) and increasing. *)
Theorem C29_slopes : forall x y t r w a b, 0 <= w -> 0 < r -> x <= y ->
  compressor x t r w = Ok a -> compressor y t r w = Ok b ->
  Rmin 1 (1 / r) * (y - x) <= b - a <= Rmax 1 (1 / r) * (y - x) /\
  0 <= limiter y t w - limiter x t w <= y - x /\
  Rmin 1 r * (y - x) <= expander y t r w - expander x t r w <= Rmax 1 r * (y - x).
Proof.
  intros x y t r w a b HW HR HXY EA EB. split; [eapply compressor_slope; eassumption|].
  split; [now apply limiter_slope|now apply expander_slope].
Qed.
Print Assumptions C29_slopes.

(* The limiter never exceeds its threshold, nor its input. *)
Theorem C29_limiter_bound : forall x t w, 0 <= w -> limiter x t w <= t /\ limiter x t w <= x.
Proof.
  intros x t w HW. split; [now apply limiter_le|]. unfold limiter.
  pose proof (relu_slope (Rmin x (t - w / 2)) x t w HW (Rmin_l _ _)) as [H _].
  rewrite (relu_low (Rmin x (t - w / 2))) in H; [lra|exact HW|]. pose proof (Rmin_r x (t - w / 2)). lra.
Qed.
Print Assumptions C29_limiter_bound.

(* With a ratio of at least one neither the compressor nor the expander amplifies, and outside
   the controlled side of the knee both leave the level alone. *)
Theorem C29_no_amplification : forall x t r w a, 0 <= w -> 1 <= r -> compressor x t r w = Ok a ->
  a <= x /\ expander x t r w <= x /\
  (x <= t - w / 2 -> a = x) /\ (t + w / 2 <= x -> expander x t r w = x).
Proof.
  intros x t r w a HW HR EA. unfold compressor in EA. destruct (Reqb_spec r 0); [lra|]. cbn [negb oguard] in EA. cbv zeta in EA. injection EA as <-.
  assert (N : smooth_relu x t w <= 0).
  { pose proof (relu_slope (Rmin x (t - w / 2)) x t w HW (Rmin_l _ _)) as [H _].
    rewrite (relu_low (Rmin x (t - w / 2))) in H; [lra|exact HW|]. pose proof (Rmin_r x (t - w / 2)). lra. }
  assert (M : x - t + smooth_relu x t w <= 0) by (pose proof (limiter_le x t w HW) as H; unfold limiter in H; lra).
  assert (S1 : 0 <= 1 - 1 / r).
  { unfold Rdiv. rewrite Rmult_1_l. assert (/ r <= 1); [|lra]. rewrite <- Rinv_1. apply Rinv_le_contravar; lra. }
  split; [|split; [|split]].
  - assert (smooth_relu x t w * (1 - 1 / r) <= 0 * (1 - 1 / r)) by (apply Rmult_le_compat_r; assumption). lra.
  - unfold expander. assert ((x - t + smooth_relu x t w) * (r - 1) <= 0 * (r - 1)) by (apply Rmult_le_compat_r; lra). lra.
  - intros H. rewrite relu_low by lra. lra.
  - intros H. unfold expander. rewrite relu_high by lra. ring.
Qed.
Print Assumptions C29_no_amplification.

(* in the middle of a 4 dB knee at -20 dB, with ratio 2 *)
Example C29_example : compressor (-20) (-20) 2 4 = Ok (-20 - 1 / 4) /\ limiter 0 (-3) 1 = -3 /\
  expander (-30) (-20) 3 4 = -50.
Proof.
  split; [|split].
  - rewrite compressor_doc by lra. f_equal. unfold documented_compressor.
    destruct (Rle_dec (-20 - -20) (- (4 / 2))); [lra|]. destruct (Rle_dec (4 / 2) (-20 - -20)); [lra|]. field.
  - rewrite limiter_doc by lra. unfold documented_limiter. destruct (Rle_dec (0 - -3) (- (1 / 2))); [lra|]. destruct (Rle_dec (1 / 2) (0 - -3)); lra.
  - rewrite expander_doc by lra. unfold documented_expander. destruct (Rle_dec (4 / 2) (-30 - -20)); [lra|]. destruct (Rle_dec (-30 - -20) (- (4 / 2))); lra.
Qed.

(* C30.  Without knees the composition of four curves is the documented five-region curve, for
   every accepted parameter set with a positive soft ratio. *)
Theorem C30_regions_partial : forall p x, verify_params p = true -> 0 < ratio (soft_region p) ->
  knee (expander_region p) = 0 -> knee (upwards_region p) = 0 -> knee (soft_region p) = 0 -> knee (hard_region p) = 0 ->
  two_way_compressor p x = Ok (five_regions
    (threshold (expander_region p)) (threshold (upwards_region p)) (threshold (soft_region p)) (threshold (hard_region p))
    (ratio (expander_region p)) (ratio (upwards_region p)) (ratio (soft_region p)) (ratio (hard_region p)) x).
Proof. exact two_way_regions. Qed.
Print Assumptions C30_regions_partial.

(* Missing in C30_regions_partial: non-positive soft ratios, which the validity check accepts
   although the header requires a soft ratio of at least one.  There the curve is not the
   documented one, or divides by zero. *)
Theorem C30_regions_refuted : exists p x y,
  verify_params p = true /\ knee (expander_region p) = 0 /\ knee (upwards_region p) = 0 /\
  knee (soft_region p) = 0 /\ knee (hard_region p) = 0 /\
  two_way_compressor p x = Ok y /\
  y <> five_regions
    (threshold (expander_region p)) (threshold (upwards_region p)) (threshold (soft_region p)) (threshold (hard_region p))
    (ratio (expander_region p)) (ratio (upwards_region p)) (ratio (soft_region p)) (ratio (hard_region p)) x.
Proof.
  set (rg := fun r t => {| ratio := r; threshold := t; knee := 0 |}).
  exists {| expander_region := rg 1 0; upwards_region := rg 1 0; soft_region := rg (-1) 0; hard_region := rg 1 10 |}, 5, (-15).
  assert (V : verify_params {| expander_region := rg 1 0; upwards_region := rg 1 0; soft_region := rg (-1) 0; hard_region := rg 1 10 |} = true).
  { unfold verify_params. cbn [expander_region upwards_region soft_region hard_region rg threshold ratio]. rewrite (Rltb_false 0 0), (Rltb_false 10 0), (Rltb_false 1 1), (Rltb_false 1 (-1)) by lra. reflexivity. }
  split; [exact V|]. cbn [expander_region upwards_region soft_region hard_region rg threshold ratio knee].
  do 4 (split; [reflexivity|]). split.
  - unfold two_way_compressor. rewrite V. cbn [ocheck expander_region upwards_region soft_region hard_region rg threshold ratio knee]. cbv zeta.
    rewrite !compressor_zero by lra. cbn [obind]. destruct (Rle_dec 5 0); [lra|]. destruct (Rle_dec 10 0); [lra|].
    unfold adjusted_ratio at 1. destruct (Reqb_spec (-1) 0); [lra|]. cbn [negb oguard obind]. rewrite compressor_zero by lra. cbn [obind].
    destruct (Rle_dec (0 + (5 - 0) / -1) (0 + (10 - 0) / -1)); [lra|].
    unfold adjusted_ratio at 1. destruct (Reqb_spec 1 0); [lra|]. cbn [negb oguard obind].
    unfold adjusted_ratio at 1. destruct (Reqb_spec (1 / 1) 0); [lra|]. cbn [negb oguard obind]. f_equal. unfold expander. field.
  - unfold five_regions. repeat match goal with |- context [Rle_dec ?a ?b] => destruct (Rle_dec a b); try lra end.
Qed.
Print Assumptions C30_regions_refuted.

(* a soft ratio of zero is accepted and divided by *)
Theorem C30_zero_ratio_refuted : exists p, verify_params p = true /\ forall x, two_way_compressor p x = Undef.
Proof.
  set (rg := fun r => {| ratio := r; threshold := 0; knee := 0 |}).
  exists {| expander_region := rg 1; upwards_region := rg 1; soft_region := rg 0; hard_region := rg 1 |}.
  assert (V : verify_params {| expander_region := rg 1; upwards_region := rg 1; soft_region := rg 0; hard_region := rg 1 |} = true).
  { unfold verify_params. cbn [expander_region upwards_region soft_region hard_region rg threshold ratio]. rewrite (Rltb_false 0 0), (Rltb_false 1 1), (Rltb_false 1 0) by lra. reflexivity. }
  split; [exact V|]. intros x. unfold two_way_compressor. rewrite V. cbn [ocheck soft_region rg ratio]. unfold compressor at 1.
  destruct (Reqb_spec 0 0); [reflexivity|lra].
Qed.
Print Assumptions C30_zero_ratio_refuted.

(* With any knee widths the curve is strictly increasing (levels keep their order). *)
Theorem C30_monotone : forall p x y a b, 0 < ratio (soft_region p) ->
  0 <= knee (expander_region p) -> 0 <= knee (upwards_region p) -> 0 <= knee (soft_region p) -> 0 <= knee (hard_region p) ->
  x < y -> two_way_compressor p x = Ok a -> two_way_compressor p y = Ok b -> a < b.
Proof. exact two_way_monotone. Qed.
Print Assumptions C30_monotone.

(* an ordinary setting: expander 2 below -60, upwards 2 below -40, soft 2 above -20, hard 4
   above -10; 0 dB becomes -20 + 10/2 + 10/4 *)
Example C30_example : exists p, verify_params p = true /\ two_way_compressor p 0 = Ok (-25 / 2) /\ two_way_compressor p (-70) = Ok (-70).
Proof.
  set (rg := fun r t => {| ratio := r; threshold := t; knee := 0 |}).
  exists {| expander_region := rg 2 (-60); upwards_region := rg 2 (-40); soft_region := rg 2 (-20); hard_region := rg 4 (-10) |}.
  assert (V : verify_params {| expander_region := rg 2 (-60); upwards_region := rg 2 (-40); soft_region := rg 2 (-20); hard_region := rg 4 (-10) |} = true).
  { unfold verify_params. cbn [expander_region upwards_region soft_region hard_region rg threshold ratio].
    rewrite (Rltb_false (-40) (-60)), (Rltb_false (-20) (-40)), (Rltb_false (-10) (-20)), (Rltb_false 2 1), (Rltb_false 4 2) by lra. reflexivity. }
  split; [exact V|]. split; (rewrite two_way_regions by (exact V || reflexivity || cbn; lra));
    cbn [expander_region upwards_region soft_region hard_region rg threshold ratio]; f_equal; unfold five_regions;
    repeat match goal with |- context [Rle_dec ?a ?b] => destruct (Rle_dec a b); try lra end.
Qed.
