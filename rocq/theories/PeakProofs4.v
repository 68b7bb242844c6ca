(* Poles and decay time. *)
From Coq Require Import ZArith Reals Lra Lia List Bool Psatz.
From Coquelicot Require Import Coquelicot.
From Verif Require Import Common CInt RealUtil BiquadModel DesignSpec CascadeModel PeakModel PeakSpec.
Local Notation C := Complex.C.
Import ListNotations.
Local Open Scope R_scope.

Lemma RtoC_nz x : x <> 0 -> RtoC x <> RtoC 0.
Proof. intros H E. apply H. now apply RtoC_inj. Qed.

Lemma sqrt_of_real_sq d : (sqrt_of_real d * sqrt_of_real d = RtoC d)%C.
Proof.
  unfold sqrt_of_real. destruct (Rleb_spec 0 d) as [H|H].
  - apply injective_projections; cbn; [rewrite sqrt_sqrt by exact H|]; ring.
  - apply injective_projections; cbn; [|ring].
    transitivity (- (sqrt (- d) * sqrt (- d))); [ring|]. rewrite sqrt_sqrt by lra. ring.
Qed.

Lemma poles_of_sum_product c p q : a0 c <> 0 -> (p + q = RtoC (- a1 c / a0 c))%C -> (p * q = RtoC (a2 c / a0 c))%C -> poles c p q.
Proof.
  intros N S P z. unfold denominator.
  transitivity (RtoC (a0 c) * (z * z - (p + q) * z + p * q))%C; [|ring].
  rewrite S, P. rewrite !RtoC_div by exact N. rewrite RtoC_opp. field. now apply RtoC_nz.
Qed.

Lemma get_poles_cases c : a0 c <> 0 ->
  let d := a1 c ^ 2 - 4 * a0 c * a2 c in
  let e := - a1 c / (2 * a0 c) in
  (Rabs d <= dbl_epsilon * Rmax (2 * a1 c * a1 c) (Rabs (4 * a0 c * a2 c)) /\ get_poles c = Ok (RtoC e, RtoC e)) \/
  (~ Rabs d <= dbl_epsilon * Rmax (2 * a1 c * a1 c) (Rabs (4 * a0 c * a2 c)) /\
   exists p q, get_poles c = Ok (p, q) /\ (p + q = RtoC (- a1 c / a0 c))%C /\ (p * q = RtoC (a2 c / a0 c))%C).
Proof.
  intros N d e. unfold get_poles. destruct (Reqb_spec (a0 c) 0) as [Z|_]; [contradiction|]. cbn [negb oguard].
  replace (a1 c * a1 c - 4 * a0 c * a2 c) with d by (unfold d; ring).
  destruct (Rleb_spec (Rabs d) (dbl_epsilon * Rmax (2 * a1 c * a1 c) (Rabs (4 * a0 c * a2 c)))) as [L|L].
  - left. split; [exact L|reflexivity].
  - right. split; [exact L|].
    assert (D0 : d <> 0).
    { intros X. apply L. rewrite X, Rabs_R0. unfold dbl_epsilon. apply Rmult_le_pos; [lra|].
      eapply Rle_trans; [|apply Rmax_r]. apply Rabs_pos. }
    set (s := if Rltb (a1 c) 0 then (- sqrt_of_real d)%C else sqrt_of_real d).
    assert (SS : (s * s = RtoC d)%C).
    { rewrite <- sqrt_of_real_sq. unfold s. destruct (Rltb _ _); ring. }
    set (q := (RtoC (- (1 / 2)) * (RtoC (a1 c) + s))%C).
    assert (Q0 : q <> RtoC 0).
    { intros Q. assert (Q1 := f_equal fst Q). assert (Q2 := f_equal snd Q). unfold q, s, sqrt_of_real in Q1, Q2.
      destruct (Rleb_spec 0 d) as [P|P].
      - assert (0 < sqrt d) by (apply sqrt_lt_R0; lra). destruct (Rltb_spec (a1 c) 0); cbn in Q1; lra.
      - assert (0 < sqrt (- d)) by (apply sqrt_lt_R0; lra). destruct (Rltb_spec (a1 c) 0); cbn in Q2; lra. }
    assert (QQ : (q * q + RtoC (a1 c) * q + RtoC (a0 c) * RtoC (a2 c) = RtoC 0)%C).
    { assert (E : (q * q + RtoC (a1 c) * q = RtoC (1 / 4) * (s * s) - RtoC (1 / 4) * RtoC (a1 c) * RtoC (a1 c))%C).
      { unfold q. generalize s. intros s'. apply injective_projections; cbn; field. }
      rewrite E, SS. unfold d. apply injective_projections; cbn; field. }
    cbv zeta. destruct (Reqb_spec (fst q) 0) as [E1|E1]; [destruct (Reqb_spec (snd q) 0) as [E2|E2]|]; cbn [andb negb oguard].
    { exfalso. apply Q0. apply injective_projections; assumption. }
    all: exists (q / RtoC (a0 c))%C, (RtoC (a2 c) / q)%C; split; [reflexivity|].
    all: assert (NC : RtoC (a0 c) <> RtoC 0) by now apply RtoC_nz.
    all: rewrite !RtoC_div, ?RtoC_opp by exact N; split; [|field; auto].
    all: transitivity ((q * q + RtoC (a1 c) * q + RtoC (a0 c) * RtoC (a2 c)) / (RtoC (a0 c) * q) - RtoC (a1 c) / RtoC (a0 c))%C; [field; auto|].
    all: rewrite QQ; field; auto.
Qed.

Lemma get_poles_exact c : a0 c <> 0 -> clear_poles c -> exists p q, get_poles c = Ok (p, q) /\ poles c p q.
Proof.
  intros N CP. destruct (get_poles_cases c N) as [[L E]|[_ (p & q & E & S & P)]].
  - assert (D0 : a1 c ^ 2 - 4 * a0 c * a2 c = 0).
    { destruct CP as [H|[H1 H2]]; [exact H|exfalso]. set (d := a1 c ^ 2 - 4 * a0 c * a2 c) in *.
      assert (M : Rmax (2 * a1 c * a1 c) (Rabs (4 * a0 c * a2 c)) < 4503599627370496 * Rabs d).
      { apply Rmax_lub_lt; [replace (2 * a1 c * a1 c) with (2 * a1 c ^ 2) by ring; exact H1|].
        replace (4 * a0 c * a2 c) with (4 * (a0 c * a2 c)) by ring. rewrite Rabs_mult, (Rabs_pos_eq 4) by lra. exact H2. }
      unfold dbl_epsilon in L. set (m := Rmax _ _) in *. clearbody m. lra. }
    eexists _, _. split; [exact E|]. apply poles_of_sum_product; [exact N| |].
    + rewrite <- RtoC_plus. f_equal. field. exact N.
    + rewrite <- RtoC_mult. f_equal. replace (a2 c) with (a1 c ^ 2 / (4 * a0 c)).
      * field. exact N.
      * replace (a1 c ^ 2) with (4 * a0 c * a2 c) by lra. field. exact N.
  - exists p, q. split; [exact E|]. now apply poles_of_sum_product.
Qed.

Lemma get_poles_near c : a0 c <> 0 -> exists p q, get_poles c = Ok (p, q) /\
  (p + q = RtoC (- a1 c / a0 c))%C /\
  Cmod (p * q - RtoC (a2 c / a0 c))%C <= dbl_epsilon * Rmax ((a1 c / a0 c) ^ 2 / 2) (Rabs (a2 c / a0 c)).
Proof.
  intros N. destruct (get_poles_cases c N) as [[L E]|[_ (p & q & E & S & P)]].
  - eexists _, _. split; [exact E|]. split; [rewrite <- RtoC_plus; f_equal; field; exact N|].
    rewrite <- RtoC_mult, <- RtoC_minus, Cmod_R. set (d := a1 c ^ 2 - 4 * a0 c * a2 c) in *.
    assert (A2 : 0 < a0 c * a0 c) by nra.
    replace (- a1 c / (2 * a0 c) * (- a1 c / (2 * a0 c)) - a2 c / a0 c) with (d * / (4 * (a0 c * a0 c))) by (unfold d; field; exact N).
    rewrite Rabs_mult, (Rabs_pos_eq (/ (4 * (a0 c * a0 c)))) by (left; apply Rinv_0_lt_compat; lra).
    apply Rle_trans with (dbl_epsilon * Rmax (2 * a1 c * a1 c) (Rabs (4 * a0 c * a2 c)) * / (4 * (a0 c * a0 c))).
    { apply Rmult_le_compat_r; [left; apply Rinv_0_lt_compat; lra|exact L]. }
    right. rewrite Rmult_assoc. f_equal. rewrite Rmult_comm, <- RmaxRmult by (left; apply Rinv_0_lt_compat; lra). f_equal.
    + field. exact N.
    + rewrite <- (Rabs_pos_eq (/ (4 * (a0 c * a0 c)))) at 1 by (left; apply Rinv_0_lt_compat; lra).
      rewrite <- Rabs_mult. f_equal. field. exact N.
  - exists p, q. split; [exact E|]. split; [exact S|]. rewrite P.
    replace (RtoC (a2 c / a0 c) - RtoC (a2 c / a0 c))%C with (RtoC 0) by ring. rewrite Cmod_0.
    unfold dbl_epsilon. apply Rmult_le_pos; [lra|]. eapply Rle_trans; [|apply Rmax_r]. apply Rabs_pos.
Qed.

(* ---- stability ---- *)
Lemma poles_stable c p q : a0 c <> 0 -> poles c p q -> (stable c <-> Rmax (Cmod p) (Cmod q) < 1).
Proof.
  intros N P. split.
  - intros [_ S]. apply Rmax_lub_lt; apply S; rewrite P; ring.
  - intros M. split; [exact N|]. intros z Z. rewrite P in Z.
    assert (D : (z - p = RtoC 0)%C \/ (z - q = RtoC 0)%C).
    { destruct (Ceq_dec (z - p)%C (RtoC 0)) as [A|A]; [auto|]. right.
      destruct (Ceq_dec (z - q)%C (RtoC 0)) as [B|B]; [auto|]. exfalso.
      revert Z. apply Cmult_neq_0; [apply Cmult_neq_0; [now apply RtoC_nz|exact A]|exact B]. }
    pose proof (Rmax_l (Cmod p) (Cmod q)). pose proof (Rmax_r (Cmod p) (Cmod q)).
    destruct D as [D|D].
    + replace z with p; [lra|]. transitivity (z - (z - p))%C; [ring|]. rewrite D. ring.
    + replace z with q; [lra|]. transitivity (z - (z - q))%C; [ring|]. rewrite D. ring.
Qed.

(* ---- impulse response ---- *)
Lemma poles_vieta c p q : a0 c <> 0 -> poles c p q ->
  (RtoC (a1 c) = - RtoC (a0 c) * (p + q))%C /\ (RtoC (a2 c) = RtoC (a0 c) * (p * q))%C.
Proof.
  intros N P. pose proof (P (RtoC 0)) as Z0. pose proof (P (RtoC 1)) as Z1. unfold denominator in Z0, Z1.
  assert (E2 : (RtoC (a2 c) = RtoC (a0 c) * (p * q))%C).
  { transitivity (RtoC (a0 c) * RtoC 0 * RtoC 0 + RtoC (a1 c) * RtoC 0 + RtoC (a2 c))%C; [ring|]. rewrite Z0. ring. }
  split; [|exact E2].
  transitivity (RtoC (a0 c) * RtoC 1 * RtoC 1 + RtoC (a1 c) * RtoC 1 + RtoC (a2 c) - RtoC (a0 c) - RtoC (a2 c))%C; [ring|].
  rewrite Z1, E2. ring.
Qed.

Lemma impulse_pair c n : impulse c (S n) = (impulse_response c (S n), impulse_response c n).
Proof. unfold impulse_response. cbn [impulse]. destruct (impulse c n). reflexivity. Qed.

Lemma impulse_0 c : impulse_response c 0 = b0 c / a0 c.
Proof. reflexivity. Qed.
Lemma impulse_1 c : impulse_response c 1 = (b1 c - a1 c * impulse_response c 0) / a0 c.
Proof. unfold impulse_response. cbn. f_equal. ring. Qed.
Lemma impulse_2 c : impulse_response c 2 = (b2 c - a1 c * impulse_response c 1 - a2 c * impulse_response c 0) / a0 c.
Proof. reflexivity. Qed.
Lemma impulse_3 c n : impulse_response c (S (S (S n))) = (- a1 c * impulse_response c (S (S n)) - a2 c * impulse_response c (S n)) / a0 c.
Proof.
  unfold impulse_response at 1. change (impulse c (S (S (S n)))) with
    (let '(h1, h2) := impulse c (S (S n)) in ((0 - a1 c * h1 - a2 c * h2) / a0 c, h1)).
  rewrite impulse_pair. cbn [fst]. f_equal. ring.
Qed.

Section Decay.
Context (c : coeffs R) (p q : C).
Hypothesis N : a0 c <> 0.
Hypothesis P : poles c p q.
Notation h n := (RtoC (impulse_response c n)).

Fixpoint cpw (z : C) (n : nat) : C := match n with O => RtoC 1 | S m => (z * cpw z m)%C end.
Lemma cpw_mod z n : Cmod (cpw z n) = Cmod z ^ n.
Proof. induction n; cbn; [apply Cmod_1|]. now rewrite Cmod_mult, IHn. Qed.

(* removing the pole q leaves a geometric sequence *)
Lemma impulse_step n : (h (S (S n)) = q * h (S n) + cpw p n * (numerator c p / RtoC (a0 c)))%C.
Proof.
  destruct (poles_vieta c p q N P) as [V1 V2]. assert (NC : RtoC (a0 c) <> RtoC 0) by now apply RtoC_nz.
  induction n as [|n IH].
  - rewrite impulse_2, impulse_1, impulse_0.
    rewrite !RtoC_div, !RtoC_minus, !RtoC_mult, !RtoC_div, !RtoC_minus, !RtoC_mult, !RtoC_div by exact N.
    rewrite V1, V2. unfold numerator. cbn [cpw]. field. exact NC.
  - rewrite impulse_3. rewrite RtoC_div by exact N. rewrite RtoC_minus, !RtoC_mult, RtoC_opp, V1, V2.
    transitivity (q * h (S (S n)) + p * (h (S (S n)) - q * h (S n)))%C; [field; exact NC|].
    rewrite IH at 2. cbn [cpw]. ring.
Qed.

Lemma impulse_bound m : 0 < m -> Cmod p <= m -> Cmod q <= m ->
  exists K, 0 <= K /\ forall n, Rabs (impulse_response c n) <= K * (INR n + 1) * m ^ n.
Proof.
  intros M Hp Hq. set (g := Cmod (numerator c p / RtoC (a0 c))%C). assert (G0 : 0 <= g) by apply Cmod_ge_0.
  set (K := Rabs (impulse_response c 0) + Rabs (impulse_response c 1) / m + g / m ^ 2).
  assert (K1 : 0 <= Rabs (impulse_response c 1) / m) by (apply Rmult_le_pos; [apply Rabs_pos|left; now apply Rinv_0_lt_compat]).
  assert (K2 : 0 <= g / m ^ 2) by (apply Rmult_le_pos; [exact G0|left; apply Rinv_0_lt_compat, pow_lt; exact M]).
  pose proof (Rabs_pos (impulse_response c 0)) as K0.
  exists K. split; [unfold K; lra|].
  assert (A : forall n, Rabs (impulse_response c n) <= K * (INR n + 1) * m ^ n /\
                        Rabs (impulse_response c (S n)) <= K * (INR (S n) + 1) * m ^ S n).
  { induction n as [|n [_ IH]].
    - split; [cbn [INR pow]; unfold K; lra|].
      assert (Rabs (impulse_response c 1) = Rabs (impulse_response c 1) / m * m) by (field; lra).
      cbn [INR pow]. rewrite Rmult_1_r. apply Rle_trans with (K * m); [|].
      + rewrite H. apply Rmult_le_compat_r; [lra|]. unfold K. lra.
      + assert (0 <= K * m) by (apply Rmult_le_pos; [unfold K; lra|lra]). lra.
    - split; [exact IH|]. rewrite <- Cmod_R, impulse_step.
      eapply Rle_trans; [apply Cmod_triangle|]. rewrite !Cmod_mult, cpw_mod, Cmod_R. fold g.
      apply Rle_trans with (m * (K * (INR (S n) + 1) * m ^ S n) + m ^ n * g).
      { apply Rplus_le_compat.
        - apply Rmult_le_compat; auto using Cmod_ge_0, Rabs_pos.
        - apply Rmult_le_compat_r; [exact G0|]. apply pow_incr. split; [apply Cmod_ge_0|exact Hp]. }
      assert (GM : m ^ n * g = g / m ^ 2 * m ^ S (S n)) by (cbn; field; lra).
      rewrite GM. rewrite (S_INR (S n)).
      assert (KK : g / m ^ 2 * m ^ S (S n) <= K * m ^ S (S n)).
      { apply Rmult_le_compat_r; [left; now apply pow_lt|]. unfold K. lra. }
      cbn [pow] in *. lra. }
  intros n. apply A.
Qed.

(* the decay is not faster, unless a zero cancels the pole *)
Lemma impulse_sharp m : 0 < m -> Cmod p = m -> Cmod q <= m -> numerator c p <> RtoC 0 ->
  ~ is_lim_seq (fun n => impulse_response c n / m ^ n) 0.
Proof.
  intros M Hp Hq NZ L.
  set (g := Cmod (numerator c p / RtoC (a0 c))%C).
  assert (GP : 0 < g).
  { apply Cmod_gt_0. intros E. apply NZ. transitivity (numerator c p / RtoC (a0 c) * RtoC (a0 c))%C.
    - field. now apply RtoC_nz.
    - rewrite E. ring. }
  assert (B : forall n, g / m ^ 2 <= Rabs (impulse_response c (S (S n)) / m ^ S (S n)) + Rabs (impulse_response c (S n) / m ^ S n)).
  { intros n. assert (MN : 0 < m ^ n) by now apply pow_lt.
    assert (E : (cpw p n * (numerator c p / RtoC (a0 c)) = h (S (S n)) - q * h (S n))%C) by (rewrite impulse_step; ring).
    assert (E' : m ^ n * g <= Rabs (impulse_response c (S (S n))) + m * Rabs (impulse_response c (S n))).
    { apply (f_equal Cmod) in E. rewrite Cmod_mult, cpw_mod, Hp in E. fold g in E. rewrite E.
      unfold Cminus. eapply Rle_trans; [apply Cmod_triangle|]. rewrite Cmod_opp, Cmod_mult, !Cmod_R.
      apply Rplus_le_compat_l. apply Rmult_le_compat_r; [apply Rabs_pos|exact Hq]. }
    rewrite !Rabs_div by (apply pow_nonzero; lra).
    rewrite !(Rabs_pos_eq (m ^ _)) by (left; now apply pow_lt).
    set (x := Rabs (impulse_response c (S (S n)))) in *. set (y := Rabs (impulse_response c (S n))) in *.
    replace (g / m ^ 2) with ((m ^ n * g) * / (m ^ 2 * m ^ n)) by (field; split; lra).
    replace (x / m ^ S (S n) + y / m ^ S n) with ((x + m * y) * / (m ^ 2 * m ^ n)) by (cbn; field; split; lra).
    apply Rmult_le_compat_r; [|exact E']. left. apply Rinv_0_lt_compat. apply Rmult_lt_0_compat; [now apply pow_lt|exact MN]. }
  assert (L1 : is_lim_seq (fun n => Rabs (impulse_response c (S (S n)) / m ^ S (S n)) + Rabs (impulse_response c (S n) / m ^ S n)) 0).
  { replace (Finite 0) with (Finite (0 + 0)) by (f_equal; lra). apply is_lim_seq_plus'.
    - apply -> is_lim_seq_abs_0. apply (is_lim_seq_incr_n (fun n => impulse_response c n / m ^ n) 2 0) in L.
      eapply is_lim_seq_ext; [|exact L]. intros n. cbv beta. now rewrite Nat.add_comm.
    - apply -> is_lim_seq_abs_0. apply (is_lim_seq_incr_1 (fun n => impulse_response c n / m ^ n)) in L. exact L. }
  assert (X : Rbar_le (g / m ^ 2) 0).
  { apply (is_lim_seq_le _ _ _ _ B (is_lim_seq_const _) L1). }
  cbn in X. assert (0 < g / (m * (m * 1))) by (apply Rdiv_lt_0_compat; [exact GP|nra]). lra.
Qed.
End Decay.

Lemma estimate_cases c db : a0 c <> 0 -> clear_poles c -> exists p q, poles c p q /\
  let m := Rmax (Cmod p) (Cmod q) in
  (1 <= m /\ estimate_decay_time c db = Ok None) \/
  (m = 0 /\ estimate_decay_time c db = Ok (Some 2)) \/
  (0 < m < 1 /\ estimate_decay_time c db = Ok (Some (db / (-20 * (ln m / ln 10)) + 2))).
Proof.
  intros N CP. destruct (get_poles_exact c N CP) as (p & q & E & P). exists p, q. split; [exact P|].
  cbv zeta. unfold estimate_decay_time. rewrite E. cbn [obind].
  set (m := Rmax (Cmod p) (Cmod q)). assert (M0 : 0 <= m) by (eapply Rle_trans; [apply (Cmod_ge_0 p)|apply Rmax_l]).
  destruct (Rleb_spec 1 m); [left; auto|right]. destruct (Reqb_spec m 0); [left; auto|right]. split; [lra|reflexivity].
Qed.

Lemma ln10_pos : 0 < ln 10.
Proof. rewrite <- ln_1. apply ln_increasing; lra. Qed.

Lemma ln_neg m : 0 < m < 1 -> ln m < 0.
Proof. intros M. rewrite <- ln_1. apply ln_increasing; lra. Qed.

Lemma poles_swap c p q : poles c p q -> poles c q p.
Proof. intros P z. rewrite P. ring. Qed.

Lemma dominant c p q : poles c p q -> exists p' q', poles c p' q' /\ Cmod p' = Rmax (Cmod p) (Cmod q) /\ Cmod q' <= Rmax (Cmod p) (Cmod q).
Proof.
  intros P. destruct (Rle_dec (Cmod q) (Cmod p)) as [L|L].
  - exists p, q. rewrite Rmax_left by exact L. auto.
  - exists q, p. rewrite Rmax_right by lra. split; [now apply poles_swap|]. split; [reflexivity|lra].
Qed.

Lemma decay_none c db : a0 c <> 0 -> clear_poles c -> (estimate_decay_time c db = Ok None <-> ~ stable c).
Proof.
  intros N CP. destruct (estimate_cases c db N CP) as (p & q & P & H). pose proof (poles_stable c p q N P) as ST.
  cbv zeta in H. destruct H as [[M E]|[[M E]|[M E]]]; rewrite E; split; try reflexivity; try discriminate.
  - intros _ S. apply ST in S. lra.
  - intros S. exfalso. apply S, ST. lra.
  - intros S. exfalso. apply S, ST. lra.
Qed.

Lemma fir_tail c p q n : a0 c <> 0 -> poles c p q -> Rmax (Cmod p) (Cmod q) = 0 -> (2 < n)%nat -> impulse_response c n = 0.
Proof.
  intros N P M L.
  assert (p = RtoC 0) by (apply Cmod_eq_0; pose proof (Rmax_l (Cmod p) (Cmod q)); pose proof (Cmod_ge_0 p); lra).
  assert (q = RtoC 0) by (apply Cmod_eq_0; pose proof (Rmax_r (Cmod p) (Cmod q)); pose proof (Cmod_ge_0 q); lra).
  subst. destruct n as [|[|[|n]]]; try lia. apply RtoC_inj.
  rewrite (impulse_step c (RtoC 0) (RtoC 0) N P (S n)). cbn [cpw]. ring.
Qed.

(* samples needed for a decay of db with the slowest pole, plus two *)
Lemma rate_eq m db n : 0 < m < 1 -> 0 < db -> let t := db / (-20 * (ln m / ln 10)) + 2 in
  2 < t /\ m ^ n = Rpower 10 (- (db / 20) * (INR n / (t - 2))).
Proof.
  intros M D t. pose proof ln10_pos. pose proof (ln_neg m M) as LN.
  assert (Q : 0 < -20 * (ln m / ln 10)).
  { assert (0 < - ln m / ln 10) by (apply Rdiv_lt_0_compat; lra). unfold Rdiv in *. lra. }
  assert (T : 0 < db / (-20 * (ln m / ln 10))) by now apply Rdiv_lt_0_compat.
  unfold t. split; [lra|].
  rewrite <- (Rpower_pow n m) by lra. unfold Rpower. f_equal.
  replace (db / (-20 * (ln m / ln 10)) + 2 - 2) with (db / (-20 * (ln m / ln 10))) by ring. field. repeat split; lra.
Qed.

Lemma decay_some c db t : a0 c <> 0 -> clear_poles c -> 0 < db -> estimate_decay_time c db = Ok (Some t) ->
  stable c /\
  (t = 2 /\ (forall n, (2 < n)%nat -> impulse_response c n = 0) \/
   2 < t /\ exists K, 0 <= K /\ forall n, Rabs (impulse_response c n) <= K * (INR n + 1) * Rpower 10 (- (db / 20) * (INR n / (t - 2)))) /\
  ((forall z, denominator c z = RtoC 0 -> numerator c z <> RtoC 0) -> 2 < t ->
    ~ is_lim_seq (fun n => impulse_response c n / Rpower 10 (- (db / 20) * (INR n / (t - 2)))) 0).
Proof.
  intros N CP D E. destruct (estimate_cases c db N CP) as (p & q & P & H). cbv zeta in H.
  destruct H as [[M E']|[[M E']|[M E']]]; rewrite E in E'; [discriminate| |].
  - injection E' as ->. split; [apply (poles_stable c p q N P); lra|]. split.
    + left. split; [reflexivity|]. intros n Hn. now apply (fir_tail c p q).
    + intros _ X. lra.
  - set (m := Rmax (Cmod p) (Cmod q)) in *. injection E' as ->. split; [apply (poles_stable c p q N P); fold m; lra|].
    destruct (dominant c p q P) as (p' & q' & P' & D1 & D2). fold m in D1, D2.
    split.
    + right. split; [apply (rate_eq m db 0 M D)|].
      destruct (impulse_bound c p' q' N P' m) as (K & K0 & B); [lra|lra|lra|].
      exists K. split; [exact K0|]. intros n. destruct (rate_eq m db n M D) as [_ <-]. apply B.
    + intros NZ _ L. assert (Z : numerator c p' <> RtoC 0) by (apply NZ; rewrite P'; ring).
      apply (impulse_sharp c p' q' N P' m) in Z; [|lra|exact D1|exact D2]. apply Z.
      eapply is_lim_seq_ext; [|exact L]. intros n. cbv beta. destruct (rate_eq m db n M D) as [_ <-]. reflexivity.
Qed.

(* a double pole: at the estimated time the response has not decayed by the requested amount *)
Definition double_pole : coeffs R := {| b0 := 1; b1 := 0; b2 := 0; a0 := 1; a1 := -18 / 10; a2 := 81 / 100 |}.
Lemma double_pole_clear : clear_poles double_pole.
Proof. left. cbn. lra. Qed.
Lemma double_pole_h n : impulse_response double_pole n = (INR n + 1) * (9 / 10) ^ n.
Proof.
  assert (A : impulse_response double_pole n = (INR n + 1) * (9 / 10) ^ n /\
              impulse_response double_pole (S n) = (INR (S n) + 1) * (9 / 10) ^ S n).
  { induction n as [|n [IH1 IH2]].
    - split; unfold impulse_response; cbn; lra.
    - split; [exact IH2|]. destruct n as [|n].
      + unfold impulse_response. cbn. lra.
      + rewrite impulse_3, IH2, IH1. cbn [a0 a1 a2 double_pole]. rewrite !S_INR. cbn [pow]. field. }
  apply A.
Qed.
Lemma double_pole_decay : exists t, estimate_decay_time double_pole 20 = Ok (Some t) /\ t <= 24.
Proof.
  assert (N : a0 double_pole <> 0) by (cbn; lra).
  destruct (get_poles_cases double_pole N) as [[L E]|[L _]]; cbv zeta in L.
  2: { exfalso. apply L. cbn [double_pole a0 a1 a2].
       replace ((-18 / 10) ^ 2 - 4 * 1 * (81 / 100)) with 0 by lra. rewrite Rabs_R0. apply Rmult_le_pos.
       - unfold dbl_epsilon. lra.
       - eapply Rle_trans; [|apply Rmax_r]. apply Rabs_pos. }
  cbn [double_pole a0 a1] in E.
  unfold estimate_decay_time. rewrite E. cbn [obind]. rewrite Rmax_left by lra. rewrite Cmod_R.
  replace (- (-18 / 10) / (2 * 1)) with (9 / 10) by lra. rewrite Rabs_pos_eq by lra.
  rewrite Rleb_false by lra. destruct (Reqb_spec (9 / 10) 0); [lra|].
  eexists. split; [reflexivity|].
  pose proof ln10_pos. assert (LN : ln (9 / 10) < 0) by (apply ln_neg; lra).
  assert (K : ln 10 <= - 22 * ln (9 / 10)).
  { replace (-22 * ln (9 / 10)) with (- (INR 22 * ln (9 / 10))) by (cbn; lra).
    rewrite <- ln_pow by lra. rewrite <- ln_Rinv by (apply pow_lt; lra). left. apply ln_increasing; [lra|].
    rewrite <- (Rinv_inv 10). apply Rinv_lt_contravar; [apply Rmult_lt_0_compat; [apply pow_lt; lra|lra]|]. cbn. lra. }
  replace (20 / (-20 * (ln (9 / 10) / ln 10)) + 2) with (ln 10 / (- ln (9 / 10)) + 2) by (field; lra).
  assert (ln 10 / - ln (9 / 10) <= 22); [|lra].
  apply (Rmult_le_reg_r (- ln (9 / 10))); [lra|]. unfold Rdiv. rewrite Rmult_assoc, Rinv_l by lra. lra.
Qed.
