(* Lemmas about the Bessel function model. *)
From Verif Require Import Common RealUtil BesselModel BesselSpec.
From Coq Require Import Lia.
Local Open Scope R_scope.

Lemma eps_pos : 0 < DBL_EPSILON.
Proof. unfold DBL_EPSILON. apply Rinv_0_lt_compat, pow_lt. lra. Qed.

Lemma INR_kk k n : (1 <= k)%nat -> 0 < INR (k * (k + n)).
Proof. intros. apply lt_0_INR. nia. Qed.

Lemma series_loop_ge : forall fuel k n q t s, (1 <= k)%nat -> 0 <= q -> 0 <= t ->
  s <= series_loop fuel k n q t s.
Proof.
  induction fuel as [|fuel IH]; intros k n q t s Hk Hq Ht; cbn [series_loop]; [lra|].
  destruct (Rltb_spec (t * (q / INR (k * (k + n)))) (DBL_EPSILON * s)); [lra|].
  assert (0 <= t * (q / INR (k * (k + n)))).
  { apply Rmult_le_pos; [exact Ht|]. apply Rmult_le_pos; [exact Hq|].
    apply Rlt_le, Rinv_0_lt_compat, INR_kk, Hk. }
  specialize (IH (S k) n q (t * (q / INR (k * (k + n)))) (s + t * (q / INR (k * (k + n))))
                ltac:(lia) Hq H). lra.
Qed.

Lemma series_loop_mono : forall fuel k n q1 q2 t1 t2 s1 s2,
  (1 <= k)%nat -> 0 <= q1 -> q1 <= q2 -> 0 <= t1 -> t1 <= t2 -> 0 < s1 -> s1 <= s2 ->
  t1 * s2 <= t2 * s1 ->
  series_loop fuel k n q1 t1 s1 <= series_loop fuel k n q2 t2 s2.
Proof.
  induction fuel as [|fuel IH]; intros k n q1 q2 t1 t2 s1 s2 Hk Hq1 Hq Ht1 Ht Hs1 Hs Hr;
    cbn [series_loop]; [lra|].
  pose proof (INR_kk k n Hk) as HK. set (K := INR (k * (k + n))) in *. clearbody K.
  assert (HKi : 0 < / K) by (apply Rinv_0_lt_compat; exact HK).
  set (a1 := q1 / K). set (a2 := q2 / K).
  assert (Ha1 : 0 <= a1) by (apply Rmult_le_pos; lra).
  assert (Ha : a1 <= a2) by (apply Rmult_le_compat_r; lra).
  clearbody a1 a2. pose proof eps_pos as He. set (e := DBL_EPSILON) in *. clearbody e.
  assert (H1 : 0 <= t1 * a1) by (apply Rmult_le_pos; lra).
  assert (H2 : t1 * a1 <= t2 * a2) by (apply Rmult_le_compat; lra).
  assert (H3 : (t1 * a1) * s2 <= (t2 * a2) * s1).
  { replace ((t1 * a1) * s2) with ((t1 * s2) * a1) by ring.
    replace ((t2 * a2) * s1) with ((t2 * s1) * a2) by ring.
    apply Rmult_le_compat; try lra. apply Rmult_le_pos; lra. }
  destruct (Rltb_spec (t2 * a2) (e * s2)) as [L2|L2].
  - assert (L1 : t1 * a1 < e * s1).
    { apply Rmult_lt_reg_r with s2; [lra|].
      apply Rle_lt_trans with (1 := H3).
      replace (e * s1 * s2) with ((e * s2) * s1) by ring. apply Rmult_lt_compat_r; lra. }
    rewrite (Rltb_true _ _ L1). lra.
  - destruct (Rltb_spec (t1 * a1) (e * s1)) as [L1|L1].
    + apply Rle_trans with (s2 + t2 * a2); [lra|]. apply series_loop_ge; [lia|lra|lra].
    + apply IH; try lra; try lia.
Qed.

Lemma series0_ge1 x : 1 <= bessel_i_series 0 x.
Proof.
  unfold bessel_i_series. apply series_loop_ge; [lia| |lra].
  pose proof (Rle_0_sqr x). unfold Rsqr in *. lra.
Qed.

Lemma series_mono n x y : 0 < x -> x <= y -> bessel_i_series n x <= bessel_i_series n y.
Proof.
  intros Hx Hy. unfold bessel_i_series.
  assert (x * x <= y * y) by (apply Rmult_le_compat; lra).
  assert (0 <= x * x) by (apply Rmult_le_pos; lra).
  destruct n; apply series_loop_mono; try lra; lia.
Qed.

Lemma series_loop_zero : forall fuel k n s, 0 <= s -> series_loop fuel k n 0 s s = s.
Proof.
  intros [|fuel] k n s Hs; [reflexivity|]. cbn [series_loop].
  replace (s * (0 / INR (k * (k + n)))) with 0 by (unfold Rdiv; ring).
  destruct (Rltb_spec 0 (DBL_EPSILON * s)) as [L|L]; [reflexivity|].
  assert (s = 0).
  { pose proof eps_pos. destruct (Req_dec s 0); [assumption|].
    exfalso. apply L. apply Rmult_lt_0_compat; lra. }
  subst s. clear L Hs. rewrite Rplus_0_l.
  assert (G : forall fuel k n q, series_loop fuel k n q 0 0 = 0).
  { clear. induction fuel as [|fuel IH]; intros k n q; cbn [series_loop]; [reflexivity|].
    rewrite Rmult_0_l, Rmult_0_r, Rplus_0_l. rewrite IH. destruct (Rltb 0 0); reflexivity. }
  apply G.
Qed.

Lemma series_at_0 n : bessel_i_series n 0 = match n with O => 1 | _ => 0 end.
Proof.
  unfold bessel_i_series. replace (0 * 0 / 4) with 0 by lra.
  destruct n; rewrite series_loop_zero; lra.
Qed.

Lemma series_mono' n x y : 0 <= x -> x <= y -> bessel_i_series n x <= bessel_i_series n y.
Proof.
  intros Hx Hy. destruct (Req_dec x 0) as [->|N]; [|apply series_mono; lra].
  rewrite series_at_0. destruct n; [apply series0_ge1|].
  unfold bessel_i_series. apply Rle_trans with (y / 2); [lra|].
  apply series_loop_ge; [lia| |lra]. pose proof (Rle_0_sqr y). unfold Rsqr in *. lra.
Qed.

Lemma asymptotic0_pos : forall fuel k x t s, (1 <= k)%nat -> 0 < x -> 0 <= t -> 0 < s ->
  0 < asymptotic_loop fuel k 0 x t s.
Proof.
  induction fuel as [|fuel IH]; intros k x t s Hk Hx Ht Hs; cbn [asymptotic_loop]; [lra|].
  set (t' := t * _).
  assert (0 <= t').
  { unfold t'. apply Rmult_le_pos; [exact Ht|]. apply Rmult_le_pos.
    - replace (INR (0 * 0)) with 0 by reflexivity.
      pose proof (Rle_0_sqr (2 * INR k - 1)). unfold Rsqr in *. lra.
    - apply Rlt_le, Rinv_0_lt_compat. apply Rmult_lt_0_compat; [|lra].
      apply Rmult_lt_0_compat; [lra|apply lt_0_INR; lia]. }
  destruct (Rltb _ _); [lra|]. apply IH; [lia|lra|assumption|lra].
Qed.

Lemma i0_pos x : 0 < bessel_i0 x.
Proof.
  unfold bessel_i0. destruct (Rltb_spec (Rabs x) 21) as [L|L].
  - pose proof (series0_ge1 (Rabs x)). lra.
  - unfold bessel_i_asymptotic.
    assert (0 < exp (Rabs x) / sqrt (2 * PI * Rabs x)).
    { apply Rmult_lt_0_compat; [apply exp_pos|]. apply Rinv_0_lt_compat, sqrt_lt_R0.
      pose proof PI_RGT_0. apply Rmult_lt_0_compat; lra. }
    apply asymptotic0_pos; [lia|lra|lra|assumption].
Qed.

Lemma i0_mono x y : 0 <= x -> x <= y -> y < 21 -> bessel_i0 x <= bessel_i0 y.
Proof.
  intros Hx Hy H. unfold bessel_i0. rewrite (Rabs_right x) by lra. rewrite (Rabs_right y) by lra.
  rewrite !Rltb_true by lra. apply series_mono'; lra.
Qed.

Lemma i0_0 : bessel_i0 0 = 1.
Proof. unfold bessel_i0. rewrite Rabs_R0, Rltb_true by lra. apply series_at_0. Qed.


(* --- accuracy --- *)

Section Acc.
Context (n : nat) (x : R).
Hypothesis Hn : (n <= 1)%nat.
Hypothesis Hx : 0 < x.
Hypothesis Hx21 : x < 21.

Notation T := (bessel_term n x).
Notation PS := (bessel_partial n x).

Let r (j : nat) : R := x * x / 4 / INR (j * (j + n)).

Lemma term_step k : T (S k) = T k * r (S k).
Proof.
  clear Hx Hx21. unfold bessel_term, r.
  replace (2 * S k + n)%nat with (S (S (2 * k + n))) by lia.
  replace (S k + n)%nat with (S (k + n)) by lia.
  change (fact (S k)) with (S k * fact k)%nat.
  change (fact (S (k + n))) with (S (k + n) * fact (k + n))%nat.
  rewrite !mult_INR. cbn [pow].
  assert (A := INR_fact_neq_0 k). assert (B := INR_fact_neq_0 (k + n)).
  assert (C : INR (S k) <> 0) by (apply not_0_INR; lia).
  assert (D : INR (S (k + n)) <> 0) by (apply not_0_INR; lia).
  generalize dependent (INR (S k)). generalize dependent (INR (S (k + n))).
  intros u Hu v Hv. field. tauto.
Qed.

Lemma term_pos k : 0 < T k.
Proof.
  unfold bessel_term. apply Rmult_lt_0_compat; [apply pow_lt; lra|].
  apply Rinv_0_lt_compat, Rmult_lt_0_compat; apply INR_fact_lt_0.
Qed.

Lemma r_pos j : (1 <= j)%nat -> 0 < r j.
Proof.
  intros. unfold r. apply Rmult_lt_0_compat; [|apply Rinv_0_lt_compat, INR_kk; exact H].
  assert (0 < x * x) by (apply Rmult_lt_0_compat; lra). lra.
Qed.

Lemma r_anti i j : (1 <= i)%nat -> (i <= j)%nat -> r j <= r i.
Proof.
  intros Hi Hj. unfold r. assert (0 < x * x) by (apply Rmult_lt_0_compat; lra).
  apply Rmult_le_compat_l; [lra|]. apply Rinv_le_contravar; [apply INR_kk; exact Hi|].
  apply le_INR. nia.
Qed.

Lemma r_bound j : (1 <= j)%nat -> r j <= 441 / 4 / (INR j * INR j).
Proof.
  intros Hj. unfold r.
  assert (0 < x * x) by (apply Rmult_lt_0_compat; lra).
  assert (x * x <= 21 * 21) by (apply Rmult_le_compat; lra).
  assert (0 < INR j * INR j) by (apply Rmult_lt_0_compat; apply lt_0_INR; lia).
  unfold Rdiv at 1 3. apply Rmult_le_compat; [lra|apply Rlt_le, Rinv_0_lt_compat, INR_kk, Hj|lra|].
  apply Rinv_le_contravar; [assumption|]. rewrite <- mult_INR. apply le_INR. nia.
Qed.

Lemma ps_mono a b : (a <= b)%nat -> PS a <= PS b.
Proof.
  induction 1; [lra|]. cbn [bessel_partial]. pose proof (term_pos m). lra.
Qed.

Lemma tail K m : r (S K) <= 1 / 2 -> PS (K + m) <= PS K + 2 * T K - 2 * T (K + m).
Proof.
  intros H. induction m as [|m IH].
  - rewrite Nat.add_0_r. lra.
  - rewrite Nat.add_succ_r. cbn [bessel_partial]. rewrite term_step.
    assert (r (S (K + m)) <= 1 / 2).
    { apply Rle_trans with (2 := H). apply r_anti; lia. }
    pose proof (term_pos (K + m)).
    assert (T (K + m) * r (S (K + m)) <= T (K + m) * (1 / 2)) by (apply Rmult_le_compat_l; lra).
    lra.
Qed.

Lemma head_growth k : 1 / 2 < r (S k) -> forall j, (j <= k)%nat ->
  PS j <= (2 ^ (S j) - 2) * T j.
Proof.
  intros H. induction j as [|j IH]; intros Hj.
  - cbn [bessel_partial]. cbn. lra.
  - specialize (IH ltac:(lia)). cbn [bessel_partial].
    rewrite term_step. assert (1 / 2 < r (S j)).
    { apply Rlt_le_trans with (1 := H). apply r_anti; lia. }
    pose proof (term_pos j) as Tp.
    assert (E1 : 1 <= 2 ^ S j) by (apply pow_R1_Rle; lra).
    change (2 ^ S (S j)) with (2 * 2 ^ S j). set (p := 2 ^ S j) in *. clearbody p.
    apply Rle_trans with ((p - 2) * T j + T j); [lra|].
    replace ((p - 2) * T j + T j) with ((2 * p - 2) * (T j * (1 / 2))) by field.
    apply Rmult_le_compat_l; [lra|]. apply Rmult_le_compat_l; lra.
Qed.

Lemma term_geom j0 c m : 0 <= c -> (forall j, (j0 < j)%nat -> r j <= c) ->
  T (j0 + m) <= T j0 * c ^ m.
Proof.
  intros Hc H. induction m as [|m IH].
  - rewrite Nat.add_0_r. cbn. lra.
  - rewrite Nat.add_succ_r, term_step. cbn [pow].
    replace (T j0 * (c * c ^ m)) with ((T j0 * c ^ m) * c) by ring.
    apply Rmult_le_compat; [apply Rlt_le, term_pos|apply Rlt_le, r_pos; lia|exact IH|].
    apply H. lia.
Qed.

Lemma r_le_const j0 a : (1 <= j0)%nat -> 441 / 4 / (INR j0 * INR j0) <= a ->
  forall j, (j0 <= j)%nat -> r j <= a.
Proof.
  intros H1 H2 j Hj. apply Rle_trans with (r j0); [apply r_anti; lia|].
  apply Rle_trans with (2 := H2). apply r_bound. lia.
Qed.

Lemma last_term : T 40 <= DBL_EPSILON * PS 40.
Proof.
  assert (A0 : forall m, T (29 + m) <= T 29 * (1 / 8) ^ m).
  { intros m. apply (term_geom 29 (1 / 8) m); [lra|]. intros j Hj.
    apply (r_le_const 30); [lia| |lia]. simpl; lra. }
  assert (B0 : forall m, T (19 + m) <= T 19 * (7 / 25) ^ m).
  { intros m. apply (term_geom 19 (7 / 25) m); [lra|]. intros j Hj.
    apply (r_le_const 20); [lia| |lia]. simpl; lra. }
  assert (C0 : forall m, T (14 + m) <= T 14 * (1 / 2) ^ m).
  { intros m. apply (term_geom 14 (1 / 2) m); [lra|]. intros j Hj.
    apply (r_le_const 15); [lia| |lia]. simpl; lra. }
  assert (D0 : forall k, 0 <= PS k).
  { intros k. apply (ps_mono 0 k). lia. }
  assert (D1 : forall k, PS (S k) = PS k + T k) by reflexivity.
  assert (D2 := fun a b => ps_mono a b). assert (P := term_pos).
  clear - A0 B0 C0 D0 D1 D2 P.
  generalize dependent (bessel_partial n x). generalize dependent (bessel_term n x).
  intros T A0 B0 C0 P PS D0 D1 D2.
  specialize (A0 11%nat). specialize (B0 10%nat). specialize (C0 5%nat).
  cbn [Nat.add] in A0, B0, C0.
  assert (D : T 14%nat <= PS 40%nat).
  { apply Rle_trans with (PS 15%nat); [|apply D2; lia].
    rewrite (D1 14%nat). specialize (D0 14%nat). lra. }
  pose proof (P 14%nat) as P14.
  apply Rle_trans with (T 14%nat * ((1 / 2) ^ 5 * (7 / 25) ^ 10 * (1 / 8) ^ 11)).
  - replace (T 14%nat * ((1 / 2) ^ 5 * (7 / 25) ^ 10 * (1 / 8) ^ 11))
      with (((T 14%nat * (1 / 2) ^ 5) * (7 / 25) ^ 10) * (1 / 8) ^ 11) by ring.
    apply Rle_trans with (1 := A0). apply Rmult_le_compat_r; [apply pow_le; lra|].
    apply Rle_trans with (1 := B0). apply Rmult_le_compat_r; [apply pow_le; lra|exact C0].
  - rewrite (Rmult_comm DBL_EPSILON). apply Rmult_le_compat; [lra| |exact D|].
    + apply Rmult_le_pos; [apply Rmult_le_pos|]; apply pow_le; lra.
    + unfold DBL_EPSILON. lra.
Qed.

Lemma loop_result : forall fuel k, (k + fuel = 40)%nat -> (1 <= k)%nat ->
  exists K, (1 <= K)%nat /\
  series_loop fuel k n (x * x / 4) (T (k - 1)) (PS k) = PS K /\
  ((K <= 39)%nat /\ T K < DBL_EPSILON * PS K \/ K = 40%nat).
Proof.
  induction fuel as [|fuel IH]; intros k Hk H1; cbn [series_loop].
  - exists k. split; [exact H1|]. split; [reflexivity|right; lia].
  - assert (E : T (k - 1) * (x * x / 4 / INR (k * (k + n))) = T k).
    { pose proof (term_step (k - 1)) as E. replace (S (k - 1)) with k in E by lia. symmetry. exact E. }
    rewrite E. destruct (Rltb_spec (T k) (DBL_EPSILON * PS k)) as [L|L].
    + exists k. split; [exact H1|]. split; [reflexivity|left; split; [lia|exact L]].
    + destruct (IH (S k) ltac:(lia) ltac:(lia)) as (K & HK).
      exists K. replace (S k - 1)%nat with k in HK by lia. exact HK.
Qed.

Lemma series_init :
  bessel_i_series n x = series_loop 39 1 n (x * x / 4) (T 0) (PS 1).
Proof.
  unfold bessel_i_series. clear Hx Hx21.
  assert (E0 : T 0 = match n with O => 1 | _ => x / 2 end).
  { unfold bessel_term. destruct n as [|[|m]]; [| |lia]; cbn; field. }
  assert (E1 : PS 1 = match n with O => 1 | _ => x / 2 end).
  { change (PS 1) with (0 + T 0). rewrite E0. lra. }
  rewrite E0, E1. reflexivity.
Qed.

Lemma accuracy N : (40 <= N)%nat ->
  bessel_i_series n x <= PS N <= (1 + 2 * DBL_EPSILON) * bessel_i_series n x.
Proof.
  intros HN. rewrite series_init.
  destruct (loop_result 39 1 eq_refl (le_n _)) as (K & HK1 & E & HK).
  change (1 - 1)%nat with 0%nat in E. rewrite E.
  assert (KN : (K <= N)%nat) by (destruct HK as [[? _]| ->]; lia).
  split; [apply ps_mono; exact KN|].
  assert (R12 : r (S K) <= 1 / 2).
  { destruct HK as [[HK L]| ->].
    - destruct (Rle_or_lt (r (S K)) (1 / 2)) as [H|H]; [exact H|exfalso].
      pose proof (head_growth K H K (le_n _)) as G. pose proof (term_pos K) as P.
      assert (Q : 2 ^ S K <= 2 ^ 52) by (apply Rle_pow; [lra|lia]).
      assert (G2 : PS K < 2 ^ 52 * T K).
      { apply Rle_lt_trans with (1 := G). apply Rmult_lt_compat_r; [exact P|lra]. }
      assert (G3 : DBL_EPSILON * PS K < T K); [|lra].
      unfold DBL_EPSILON. apply Rmult_lt_reg_l with (2 ^ 52); [apply pow_lt; lra|].
      rewrite <- Rmult_assoc, Rinv_r, Rmult_1_l; [exact G2|apply pow_nonzero; lra].
    - apply (r_le_const 41); [lia| |lia]. simpl; lra. }
  assert (TK : T K <= DBL_EPSILON * PS K).
  { destruct HK as [[_ L]| ->]; [lra|exact last_term]. }
  pose proof (tail K (N - K) R12) as HT. replace (K + (N - K))%nat with N in HT by lia.
  pose proof (term_pos N). lra.
Qed.

End Acc.

Lemma cv_le (u : nat -> R) l c N : Un_cv u l -> (forall k, (N <= k)%nat -> u k <= c) -> l <= c.
Proof.
  intros H B. apply Rnot_lt_le. intros L. destruct (H (l - c) ltac:(lra)) as (M & HM).
  specialize (HM (Nat.max N M) ltac:(lia)). specialize (B (Nat.max N M) ltac:(lia)).
  unfold R_dist in HM. apply Rabs_def2 in HM. lra.
Qed.
Lemma cv_ge (u : nat -> R) l c N : Un_cv u l -> (forall k, (N <= k)%nat -> c <= u k) -> c <= l.
Proof.
  intros H B. apply Rnot_lt_le. intros L. destruct (H (c - l) ltac:(lra)) as (M & HM).
  specialize (HM (Nat.max N M) ltac:(lia)). specialize (B (Nat.max N M) ltac:(lia)).
  unfold R_dist in HM. apply Rabs_def2 in HM. lra.
Qed.

Lemma series_accuracy n x l : (n <= 1)%nat -> 0 <= x < 21 ->
  Un_cv (bessel_partial n x) l ->
  bessel_i_series n x <= l <= (1 + 2 * DBL_EPSILON) * bessel_i_series n x.
Proof.
  intros Hn Hx Hl. destruct (Req_dec x 0) as [->|N0].
  - assert (E : forall k, (1 <= k)%nat -> bessel_partial n 0 k = match n with O => 1 | _ => 0 end).
    { clear. induction 1.
      - cbn. unfold bessel_term. destruct n; cbn; [field|]. unfold Rdiv.
        rewrite !Rmult_0_l. lra.
      - cbn [bessel_partial]. rewrite IHle. unfold bessel_term. destruct m as [|m]; [lia|].
        replace (0 / 2) with 0 by lra. rewrite pow_ne_zero by lia. unfold Rdiv. lra. }
    rewrite series_at_0.
    assert (l = match n with O => 1 | _ => 0 end).
    { apply Rle_antisym.
      - apply (cv_le _ _ _ 1 Hl). intros k Hk. rewrite E by exact Hk. lra.
      - apply (cv_ge _ _ _ 1 Hl). intros k Hk. rewrite E by exact Hk. lra. }
    subst l. pose proof eps_pos. destruct n; lra.
  - split.
    + apply (cv_ge _ _ _ 40 Hl). intros k Hk. apply (accuracy n x Hn ltac:(lra) ltac:(lra) k Hk).
    + apply (cv_le _ _ _ 40 Hl). intros k Hk. apply (accuracy n x Hn ltac:(lra) ltac:(lra) k Hk).
Qed.

Lemma bessel_exists n x : (n <= 1)%nat -> 0 <= x < 21 -> exists l, is_bessel_i n x l.
Proof.
  intros Hn Hx. destruct (Req_dec x 0) as [->|N0].
  - exists (bessel_partial n 0 1). intros e He. exists 1%nat. intros k Hk. unfold R_dist.
    assert (E : bessel_partial n 0 k = bessel_partial n 0 1).
    { induction Hk as [|m Hm IH]; [reflexivity|]. change (bessel_partial n 0 (S m)) with
        (bessel_partial n 0 m + bessel_term n 0 m). rewrite IH. unfold bessel_term.
      destruct m as [|m]; [lia|]. replace (0 / 2) with 0 by lra.
      rewrite pow_ne_zero by lia. unfold Rdiv. lra. }
    rewrite E, Rminus_diag_eq by reflexivity. rewrite Rabs_R0. exact He.
  - destruct (growing_cv (bessel_partial n x)) as (l & Hl).
    + intros k. apply ps_mono; [lra|lia].
    + exists ((1 + 2 * DBL_EPSILON) * bessel_i_series n x). intros y (k & ->).
      apply Rle_trans with (bessel_partial n x (Nat.max k 40)).
      * apply ps_mono; [lra|lia].
      * apply (accuracy n x Hn ltac:(lra) ltac:(lra)). lia.
    + exists l. exact Hl.
Qed.

Lemma i0_even x : bessel_i0 (- x) = bessel_i0 x.
Proof. unfold bessel_i0. rewrite Rabs_Ropp. reflexivity. Qed.

Lemma i1_0 : bessel_i1 0 = 0.
Proof.
  unfold bessel_i1. rewrite Rabs_R0, (Rltb_true 0 21) by lra. rewrite series_at_0. ring.
Qed.

Lemma i1_odd x : bessel_i1 (- x) = - bessel_i1 x.
Proof.
  destruct (Req_dec x 0) as [->|N].
  - rewrite Ropp_0, i1_0. lra.
  - unfold bessel_i1. rewrite Rabs_Ropp.
    destruct (Rle_or_lt 0 x) as [P|P].
    + rewrite (Rltb_true (- x) 0) by lra. rewrite (Rltb_false x 0) by lra.
      destruct (Rltb _ _); ring.
    + rewrite (Rltb_false (- x) 0) by lra. rewrite (Rltb_true x 0) by lra.
      destruct (Rltb _ _); ring.
Qed.
