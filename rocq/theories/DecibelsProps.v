(* C37: decibel conversions. *)
From Verif Require Import Common RealUtil DecibelsModel.
From Coq Require Import Psatz.
Local Open Scope R_scope.

Lemma ln10_pos : 0 < ln 10.
Proof. rewrite <- ln_1. apply ln_increasing; lra. Qed.
Lemma on_pos x v : 0 < x -> on_positive x v = Ok v.
Proof. intros H. unfold on_positive. now rewrite Rltb_true. Qed.
Lemma on_pos_inv x v y : on_positive x v = Ok y -> 0 < x /\ y = v.
Proof. unfold on_positive. destruct (Rltb_spec 0 x); cbn [oguard]; [|discriminate]. intros E. injection E as <-. auto. Qed.

(* 10 raised to a real power *)
Definition tenpow (e : R) : R := Rpower 10 e.

(* the scale: the decibel value d belongs to amplitude 10^(d/20) and to power 10^(d/10) *)
Theorem C37_scale : forall d, db_to_amplitude d = tenpow (d / 20) /\ db_to_power d = tenpow (d / 10).
Proof.
  intros d. unfold db_to_amplitude, db_to_power, tenpow, Rpower. split; f_equal; field.
Qed.
Print Assumptions C37_scale.

(* inverse in both directions, on every positive ratio and every decibel value *)
Theorem C37_inverse : forall x d, 0 < x ->
  (exists v, amplitude_to_db x = Ok v /\ db_to_amplitude v = x) /\
  (exists v, power_to_db x = Ok v /\ db_to_power v = x) /\
  amplitude_to_db (db_to_amplitude d) = Ok d /\ power_to_db (db_to_power d) = Ok d.
Proof.
  intros x d H. pose proof ln10_pos as L. unfold amplitude_to_db, power_to_db, db_to_amplitude, db_to_power, log10.
  rewrite !on_pos by (exact H || apply exp_pos). rewrite !ln_exp.
  split; [eexists; split; [reflexivity|]|]. { replace (ln 10 / 20 * (20 * (ln x / ln 10))) with (ln x) by (field; lra). now apply exp_ln. }
  split; [eexists; split; [reflexivity|]|]. { replace (ln 10 / 10 * (10 * (ln x / ln 10))) with (ln x) by (field; lra). now apply exp_ln. }
  split; f_equal; field; lra.
Qed.
Print Assumptions C37_inverse.

(* ratios that are not positive have no decibel value *)
Theorem C37_domain : forall x, ~ 0 < x -> amplitude_to_db x = Undef /\ power_to_db x = Undef.
Proof. intros x H. unfold amplitude_to_db, power_to_db, on_positive. destruct (Rltb_spec 0 x); [contradiction|]. split; reflexivity. Qed.
Print Assumptions C37_domain.

Theorem C37_monotone : forall x y u v d e,
  (amplitude_to_db x = Ok u -> amplitude_to_db y = Ok v -> (x < y <-> u < v)) /\
  (power_to_db x = Ok u -> power_to_db y = Ok v -> (x < y <-> u < v)) /\
  (d < e <-> db_to_amplitude d < db_to_amplitude e) /\ (d < e <-> db_to_power d < db_to_power e).
Proof.
  intros x y u v d e. pose proof ln10_pos as L. assert (IL : 0 < / ln 10) by now apply Rinv_0_lt_compat.
  assert (LN : forall a b, 0 < a -> 0 < b -> (a < b <-> ln a < ln b)) by (intros; split; [now apply ln_increasing|now apply ln_lt_inv]).
  unfold amplitude_to_db, power_to_db, db_to_amplitude, db_to_power, log10, Rdiv.
  split; [|split; [|split]].
  - intros E1 E2. apply on_pos_inv in E1 as [P1 ->]. apply on_pos_inv in E2 as [P2 ->]. rewrite (LN x y P1 P2). set (i := / ln 10) in *. split; nra.
  - intros E1 E2. apply on_pos_inv in E1 as [P1 ->]. apply on_pos_inv in E2 as [P2 ->]. rewrite (LN x y P1 P2). set (i := / ln 10) in *. split; nra.
  - split; intros H; [apply exp_increasing; nra|apply exp_lt_inv in H; nra].
  - split; intros H; [apply exp_increasing; nra|apply exp_lt_inv in H; nra].
Qed.
Print Assumptions C37_monotone.

(* products of ratios become sums of decibels; unity is 0 dB; power of an amplitude agrees *)
Theorem C37_products : forall x y u v d e,
  (amplitude_to_db x = Ok u -> amplitude_to_db y = Ok v -> amplitude_to_db (x * y) = Ok (u + v)) /\
  (power_to_db x = Ok u -> power_to_db y = Ok v -> power_to_db (x * y) = Ok (u + v)) /\
  db_to_amplitude (d + e) = db_to_amplitude d * db_to_amplitude e /\ db_to_power (d + e) = db_to_power d * db_to_power e /\
  amplitude_to_db 1 = Ok 0 /\ power_to_db 1 = Ok 0 /\
  (amplitude_to_db x = Ok u -> power_to_db (x * x) = Ok u) /\ db_to_power d = db_to_amplitude d * db_to_amplitude d.
Proof.
  intros x y u v d e. pose proof ln10_pos as L. unfold amplitude_to_db, power_to_db, db_to_amplitude, db_to_power, log10.
  split; [|split; [|split; [|split; [|split; [|split; [|split]]]]]].
  - intros E1 E2. apply on_pos_inv in E1 as [P1 ->]. apply on_pos_inv in E2 as [P2 ->]. rewrite on_pos by nra. rewrite ln_mult by assumption. f_equal. field. lra.
  - intros E1 E2. apply on_pos_inv in E1 as [P1 ->]. apply on_pos_inv in E2 as [P2 ->]. rewrite on_pos by nra. rewrite ln_mult by assumption. f_equal. field. lra.
  - rewrite <- exp_plus. f_equal. field.
  - rewrite <- exp_plus. f_equal. field.
  - rewrite on_pos by lra. rewrite ln_1. f_equal. field. lra.
  - rewrite on_pos by lra. rewrite ln_1. f_equal. field. lra.
  - intros E1. apply on_pos_inv in E1 as [P1 ->]. rewrite on_pos by nra. rewrite ln_mult by assumption. f_equal. field. lra.
  - rewrite <- exp_plus. f_equal. field.
Qed.
Print Assumptions C37_products.

(* the array versions are the scalar versions applied to every element *)
Theorem C37_arrays : forall xs ds,
  amplitude_to_db_array xs = map_outcome amplitude_to_db xs /\ power_to_db_array xs = map_outcome power_to_db xs /\
  db_to_amplitude_array ds = map db_to_amplitude ds /\ db_to_power_array ds = map db_to_power ds.
Proof.
  intros xs ds. pose proof ln10_pos as L.
  assert (M : forall f g, (forall x, f x = g x) -> map_outcome f xs = map_outcome g xs) by (intros f g H; induction xs as [|x r IH]; cbn; [reflexivity|now rewrite H, IH]).
  split; [|split; [|split; reflexivity]]; apply M; intros x; unfold amplitude_to_db, power_to_db, log10; f_equal; field; lra.
Qed.
Print Assumptions C37_arrays.

(* six decibels are not quite a factor of two; a factor 100 is exactly 40 dB *)
Example C37_example : amplitude_to_db 100 = Ok 40 /\ power_to_db 100 = Ok 20 /\ db_to_amplitude 20 = 10.
Proof.
  pose proof ln10_pos as L. unfold amplitude_to_db, power_to_db, db_to_amplitude, log10. rewrite !on_pos by lra.
  assert (E : ln 100 = 2 * ln 10) by (replace 100 with (10 * 10) by ring; rewrite ln_mult by lra; ring). rewrite E.
  repeat split; [f_equal; field; lra|f_equal; field; lra|]. replace (ln 10 / 20 * 20) with (ln 10) by field. apply exp_ln. lra.
Qed.
