(* C56, C57: the asymptotic branch of the Bessel functions and the transform of the Kaiser window. *)
From Verif Require Import Common RealUtil BesselModel BesselSpec BesselProofs WindowModel WindowSpec WindowProofs KaiserProofs.
From Coquelicot Require Import Coquelicot.
Local Open Scope R_scope.

(* I0 is defined everywhere. *)
Lemma i0_exists : exists I0 : R -> R, forall x, 0 <= x -> is_bessel_i 0 x (I0 x).
Proof.
  exists (fun x => Series (bessel_term 0 x)). intros x Hx.
  assert (E : ex_series (bessel_term 0 x)).
  { apply (ex_series_le (bessel_term 0 x) (even_exp (x * x))); [|apply ex_even_exp; nra]. intros k. unfold norm; cbn -[bessel_term]. unfold abs; cbn -[bessel_term].
    unfold bessel_term, even_exp. rewrite !Nat.add_0_r. pose proof (fact_pos k) as FK. pose proof (fact_pos (2 * k)) as F2.
    assert (FF : 0 < INR (fact k) * INR (fact k)) by nra. rewrite Rabs_pos_eq by (apply Rdiv_le_0_compat; [apply pow_le; lra|exact FF]).
    rewrite pow_mult. replace ((x / 2) ^ 2) with (x * x * / 4) by (cbn; field). rewrite Rpow_mult_distr, pow_inv. unfold Rdiv. rewrite Rmult_assoc. apply Rmult_le_compat_l; [apply pow_le; nra|].
    rewrite <- Rinv_mult. apply Rinv_le_contravar; [assumption|]. apply central. }
  intros eps He. assert (S1 := Series_correct _ E). apply is_series_Reals in S1. destruct (S1 eps He) as (N & HN). exists (S N). intros n Hn.
  destruct n as [|n]; [lia|]. rewrite <- (bessel_sum x n). apply HN. lia.
Qed.

Lemma scaled_integral (g : R -> R) r v : 0 < r -> is_RInt g (-1) 1 v -> is_RInt (fun x => g (x / r)) (- r) r (r * v).
Proof.
  intros Hr H. assert (H2 : is_RInt g (/ r * - r + 0) (/ r * r + 0) v). { replace (/ r * - r + 0) with (-1) by (field; lra). replace (/ r * r + 0) with 1 by (field; lra). exact H. }
  apply is_RInt_comp_lin in H2. apply (is_RInt_scal _ _ _ r) in H2.
  replace (r * v) with (scal r v) by reflexivity. revert H2. apply is_RInt_ext. intros x _. unfold scal; cbn. unfold mult; cbn. replace (/ r * x + 0) with (x / r) by (field; lra). inR. field. lra.
Qed.

(* EvalFourierTransform of the Kaiser window is the Fourier integral of I0(beta sqrt(1 - (x/r)^2))
   with the true Bessel function, divided by the window's normaliser, at every frequency where the
   argument of sinhc or sinc is zero or at least the 1e-8 tolerance.  For beta < 21 Eval differs
   from that function by at most 2 DBL_EPSILON, relatively. *)
Theorem C57_kaiser : forall beta r f w I0, make_window (Kaiser beta) r = Ok w ->
  (forall x, 0 <= x -> is_bessel_i 0 x (I0 x)) ->
  off_tolerance (sqrt (Rabs (beta * beta - (2 * PI * f * r) * (2 * PI * f * r)))) ->
  let exact x := I0 (beta * sqrt (1 - (x / r) * (x / r))) / bessel_i0 beta in
  fourier exact r f (snd (eval_ft w f)) /\
  (beta < 21 -> forall x, Rabs x <= r -> eval_w w x <= exact x <= (1 + 2 * / 2 ^ 52) * eval_w w x).
Proof.
  intros beta r f w I0 HM HI HT exact. unfold make_window in HM. destruct (Rltb_spec 0 r) as [Hr|]; [|discriminate]. cbn [ocheck] in HM. destruct (Rleb_spec 0 beta) as [Hb|]; [|discriminate]. injection HM as <-.
  pose proof (i0_pos beta) as P0. split.
  - unfold fourier. cbn [eval_ft wi_kind wi_radius snd]. set (om := 2 * PI * f * r) in *. set (diff := beta * beta - om * om) in *.
    set (v := if Rltb 0 diff then sinhc (sqrt diff) else sinc (sqrt (- diff))).
    assert (TL : 0 < / 10 ^ 8 < 1) by lra.
    assert (SV : is_series (fun n => (beta * beta - om * om) ^ n / INR (fact (2 * n + 1))) v).
    { fold diff. unfold v. destruct (Rltb_spec 0 diff) as [HD|HD].
      - rewrite Rabs_pos_eq in HT by lra. pose proof (sqrt_lt_R0 _ HD) as SP. destruct HT as [HT|HT]; [lra|]. rewrite Rabs_pos_eq in HT by lra.
        unfold sinhc. rewrite Rltb_false by (rewrite Rabs_pos_eq by lra; unfold sincTol; lra).
        assert (SH := sinh_series (sqrt diff) ltac:(lra)). rewrite sqrt_sqrt in SH by lra. exact SH.
      - rewrite Rabs_left1 in HT by lra. destruct (Req_dec diff 0) as [D0|D0].
        + rewrite D0. rewrite Ropp_0, sqrt_0. unfold sinc. rewrite Rabs_R0, Rltb_true by (unfold sincTol; lra). exact zero_series.
        + assert (SP : 0 < sqrt (- diff)) by (apply sqrt_lt_R0; lra). destruct HT as [HT|HT]; [lra|]. rewrite Rabs_pos_eq in HT by lra.
          unfold sinc. rewrite Rltb_false by (rewrite Rabs_pos_eq by lra; unfold sincTol; lra).
          assert (SH := sin_series (sqrt (- diff)) ltac:(lra)). rewrite sqrt_sqrt in SH by lra. rewrite Ropp_involutive in SH. exact SH. }
    assert (K := scaled_integral _ r _ Hr (kaiser_integral beta om I0 HI Hb v SV)).
    apply (is_RInt_scal _ _ _ (/ bessel_i0 beta)) in K.
    replace (r * (2 / bessel_i0 beta) * v) with (scal (/ bessel_i0 beta) (r * (2 * v))) by (unfold scal; cbn; unfold mult; cbn; field; lra).
    revert K. apply is_RInt_ext. intros x _. unfold scal; cbn. unfold mult; cbn. unfold exact, om. replace (2 * PI * f * r * (x / r)) with (2 * PI * f * x) by (field; lra). inR. unfold Rdiv. ring.
  - intros H21 x Hx. unfold eval_w, eval, exact; cbn [wi_kind wi_radius]. assert (HA : Rabs (x / r) <= 1). { unfold Rdiv. rewrite Rabs_mult, (Rabs_pos_eq (/ r)) by (left; apply Rinv_0_lt_compat; exact Hr). apply Rmult_le_reg_r with r; [exact Hr|]. rewrite Rmult_assoc, Rinv_l by lra. lra. }
    rewrite Rltb_true by (unfold kTol; lra). rewrite <- Rabs_mult, (Rabs_pos_eq (x / r * (x / r))) by nra.
    assert (HQ : 0 <= 1 - x / r * (x / r) <= 1) by (apply Rabs_le_between in HA; nra). rewrite Rmax_right by lra.
    set (y := beta * sqrt (1 - x / r * (x / r))). assert (HY : 0 <= y < 21).
    { unfold y. pose proof (sqrt_pos (1 - x / r * (x / r))). assert (sqrt (1 - x / r * (x / r)) <= 1) by (rewrite <- sqrt_1 at 2; apply sqrt_le_1_alt; lra). set (q := sqrt _) in *. clearbody q. split; [nra|]. apply Rle_lt_trans with (beta * 1); [apply Rmult_le_compat_l; lra|lra]. }
    assert (A := series_accuracy 0 y (I0 y) ltac:(lia) HY (HI y ltac:(lra))).
    assert (EB : bessel_i0 y = bessel_i_series 0 y) by (unfold bessel_i0; rewrite (Rabs_pos_eq y), Rltb_true by lra; reflexivity). rewrite <- EB in A. change (/ 2 ^ 52) with DBL_EPSILON in *.
    assert (IP : 0 < / bessel_i0 beta) by (apply Rinv_0_lt_compat; exact P0). unfold Rdiv. split; [apply Rmult_le_compat_r; lra|]. rewrite <- Rmult_assoc. apply Rmult_le_compat_r; [lra|]. apply A.
Qed.
Print Assumptions C57_kaiser.
(* beta = 3 at frequency 0, and at a frequency beyond the main lobe *)
Example C57_kaiser_example : exists w I0, make_window (Kaiser 3) 2 = Ok w /\ (forall x, 0 <= x -> is_bessel_i 0 x (I0 x)) /\
  off_tolerance (sqrt (Rabs (3 * 3 - (2 * PI * 0 * 2) * (2 * PI * 0 * 2)))) /\ off_tolerance (sqrt (Rabs (3 * 3 - (2 * PI * 1 * 2) * (2 * PI * 1 * 2)))).
Proof.
  destruct i0_exists as (I0 & HI). exists (mkWindow (Kaiser 3) 2 []), I0. split; [unfold make_window; rewrite Rltb_true, Rleb_true by lra; reflexivity|]. split; [exact HI|].
  pose proof PI2_3_2. split; right; rewrite Rabs_pos_eq by apply sqrt_pos.
  - replace (3 * 3 - 2 * PI * 0 * 2 * (2 * PI * 0 * 2)) with (3 * 3) by ring. rewrite Rabs_pos_eq, sqrt_square by lra. lra.
  - rewrite Rabs_left by nra. apply Rle_trans with (sqrt 1); [rewrite sqrt_1; lra|]. apply sqrt_le_1_alt. nra.
Qed.

(* ---- the asymptotic expansion ---- *)
(* (4n^2-1)(4n^2-9)...(4n^2-(2k-1)^2) / (k! 8^k) *)
Fixpoint hankel (n k : nat) : R :=
  match k with O => 1 | S k' => hankel n k' * (4 * INR n * INR n - (2 * INR k - 1) * (2 * INR k - 1)) / (INR k * 8) end.
(* e^x / sqrt(2 pi x) * sum_{k<K} (-1)^k hankel n k / x^k *)
Definition expansion (n : nat) (x : R) (K : nat) : R :=
  exp x / sqrt (2 * PI * x) * fold_right Rplus 0 (map (fun k => (-1) ^ k * hankel n k / x ^ k) (seq 0 K)).
Definition expansion_term (n : nat) (x : R) (k : nat) : R := exp x / sqrt (2 * PI * x) * ((-1) ^ k * hankel n k / x ^ k).

Lemma expansion_S n x K : expansion n x (S K) = expansion n x K + expansion_term n x K.
Proof.
  unfold expansion, expansion_term. rewrite seq_S, map_app, fold_right_app. cbn [map fold_right Nat.add]. rewrite Rplus_0_r.
  assert (E : forall l a, fold_right Rplus a l = fold_right Rplus 0 l + a) by (induction l as [|y l IH]; intros a; cbn [fold_right]; [ring|rewrite IH; ring]).
  rewrite E. ring.
Qed.
Lemma asymptotic_terms n x : x <> 0 -> forall fuel k, exists K, (k <= K <= k + fuel)%nat /\
  asymptotic_loop fuel k n x (expansion_term n x (k - 1)) (expansion n x k) = expansion n x K /\
  (K = (k + fuel)%nat \/ Rabs (expansion_term n x K) < DBL_EPSILON * expansion n x K) \/ (k = 0)%nat.
Proof.
  intros Hx. induction fuel as [|fuel IH]; intros k.
  - exists k. left. split; [lia|]. split; [reflexivity|left; lia].
  - destruct k as [|k]; [exists 0%nat; right; reflexivity|]. replace (S k - 1)%nat with k by lia. cbn [asymptotic_loop].
    assert (ET : expansion_term n x k * (((2 * INR (S k) - 1) * (2 * INR (S k) - 1) - 4 * INR (n * n)) / (8 * INR (S k) * x)) = expansion_term n x (S k)).
    { unfold expansion_term. cbn [hankel]. rewrite mult_INR. cbn [pow]. assert (INR (S k) <> 0) by (apply not_0_INR; lia). assert (x ^ k <> 0) by (apply pow_nonzero; exact Hx).
      set (c := INR (S k)) in *. set (e := exp x / sqrt (2 * PI * x)). field. split; [assumption|]. split; assumption. }
    rewrite ET. destruct (Rltb_spec (Rabs (expansion_term n x (S k))) (DBL_EPSILON * expansion n x (S k))) as [HS|HS].
    + exists (S k). left. split; [lia|]. split; [reflexivity|]. right. exact HS.
    + rewrite <- expansion_S. destruct (IH (S (S k))) as (K & [(HK & EK & HC) | HK]); [|lia]. replace (S (S k) - 1)%nat with (S k) in EK by lia.
      exists K. left. split; [lia|]. split; [exact EK|]. destruct HC as [HC|HC]; [left; lia|right; exact HC].
Qed.
(* From |x| = 21 on, BesselI0 and BesselI1 return a partial sum of the standard asymptotic expansion
   of I_n, with 40 terms or the number after which the next term is below DBL_EPSILON of the sum. *)
Theorem C56_asymptotic : forall x, 21 <= x ->
  exists K0 K1, (1 <= K0 <= 40)%nat /\ (1 <= K1 <= 40)%nat /\ bessel_i0 x = expansion 0 x K0 /\ bessel_i1 x = expansion 1 x K1 /\
  (K0 = 40%nat \/ Rabs (expansion_term 0 x K0) < / 2 ^ 52 * expansion 0 x K0) /\ (K1 = 40%nat \/ Rabs (expansion_term 1 x K1) < / 2 ^ 52 * expansion 1 x K1).
Proof.
  intros x Hx.
  assert (X : forall n, exists K, (1 <= K <= 40)%nat /\ bessel_i_asymptotic n x = expansion n x K /\ (K = 40%nat \/ Rabs (expansion_term n x K) < DBL_EPSILON * expansion n x K)).
  { intros n. destruct (asymptotic_terms n x ltac:(lra) 39 1) as (K & [(HK & EK & HC) | ]); [|discriminate]. exists K. split; [lia|]. split; [|exact HC]. rewrite <- EK. unfold bessel_i_asymptotic.
    assert (E0 : expansion_term n x (1 - 1) = exp x / sqrt (2 * PI * x)) by (unfold expansion_term; cbn [Nat.sub pow hankel]; field; apply Rgt_not_eq, sqrt_lt_R0; pose proof PI_RGT_0; nra).
    assert (E1 : expansion n x 1 = exp x / sqrt (2 * PI * x)) by (unfold expansion; cbn [seq map fold_right pow hankel]; field; apply Rgt_not_eq, sqrt_lt_R0; pose proof PI_RGT_0; nra).
    rewrite E0, E1. reflexivity. }
  destruct (X 0%nat) as (K0 & B0 & E0 & C0). destruct (X 1%nat) as (K1 & B1 & E1 & C1). exists K0, K1. split; [exact B0|]. split; [exact B1|].
  unfold bessel_i0, bessel_i1. rewrite (Rabs_pos_eq x) by lra. rewrite (Rltb_false x 21), (Rltb_false x 0) by lra. rewrite Rmult_1_l. auto.
Qed.
Print Assumptions C56_asymptotic.
Example C56_asymptotic_example : hankel 0 1 = - (1 / 8) /\ hankel 1 2 = - (15 / 128) /\ 21 <= 30.
Proof. cbn [hankel INR]. repeat split; lra. Qed.
