(* The Fourier transform of the Kaiser window: the Cauchy product of the series of I0 and of the
   cosine is integrated term by term. *)
From Verif Require Import Common RealUtil BesselSpec.
From Coq Require Import Binomial.
From Coquelicot Require Import Coquelicot.
Local Open Scope R_scope.

Ltac inR := match goal with |- @eq _ ?a ?b => change (@eq R a b) end.

(* ---------- series ---------- *)
Definition even_exp (y : R) (k : nat) : R := y ^ k / INR (fact (2 * k)).
Lemma fact_pos n : 0 < INR (fact n).
Proof. apply lt_0_INR, lt_O_fact. Qed.
Lemma fact_2n_le k : INR (fact k) <= INR (fact (2 * k)).
Proof. apply le_INR, fact_le. lia. Qed.
Lemma ex_exp y : ex_series (fun k => y ^ k / INR (fact k)).
Proof.
  exists (exp y). apply (is_series_ext (fun n => scal (pow_n y n) (/ INR (fact n)))); [|exact (is_exp_Reals y)].
  intros n. unfold scal; cbn. unfold mult; cbn. rewrite pow_n_pow. reflexivity.
Qed.
Lemma ex_even_exp y : 0 <= y -> ex_series (even_exp y).
Proof.
  intros Hy. apply (ex_series_le (even_exp y) (fun k => y ^ k / INR (fact k))); [|apply ex_exp].
  intros k. unfold norm; cbn. unfold abs; cbn. unfold even_exp. pose proof (fact_pos (2 * k)). pose proof (fact_pos k). pose proof (pow_le y k Hy).
  rewrite Rabs_pos_eq by (apply Rdiv_le_0_compat; assumption). unfold Rdiv. apply Rmult_le_compat_l; [assumption|]. apply Rinv_le_contravar; [assumption|]. apply fact_2n_le.
Qed.
Lemma even_exp_pos y k : 0 <= y -> 0 <= even_exp y k.
Proof. intros. apply Rdiv_le_0_compat; [apply pow_le; assumption|apply fact_pos]. Qed.

(* 4^k k!^2 >= (2k)! *)
Lemma central k : INR (fact (2 * k)) <= 4 ^ k * (INR (fact k) * INR (fact k)).
Proof.
  induction k as [|k IH]; [cbn; lra|]. replace (2 * S k)%nat with (S (S (2 * k))) by lia. rewrite !fact_simpl, !mult_INR.
  rewrite !S_INR, mult_INR. cbn [INR pow]. pose proof (pos_INR k). pose proof (fact_pos k).
  apply Rle_trans with (((1 + 1) * INR k + 1 + 1) * (((1 + 1) * INR k + 1 + 1) * (4 ^ k * (INR (fact k) * INR (fact k))))); [|right; ring].
  apply Rmult_le_compat_l; [lra|]. apply Rmult_le_compat; [lra|left; apply fact_pos|lra|exact IH].
Qed.

Section Kaiser.
Variables beta omega : R.
Variable I0 : R -> R.
Hypothesis HI : forall x, 0 <= x -> is_bessel_i 0 x (I0 x).
Hypothesis Hb : 0 <= beta.

Definition at_ (j : nat) (x : R) : R := (beta * beta * (1 - x * x) / 4) ^ j / (INR (fact j) * INR (fact j)).
Definition bt_ (m : nat) (x : R) : R := (-1) ^ m * (omega * x) ^ (2 * m) / INR (fact (2 * m)).
Definition pt_ (n : nat) (x : R) : R := sum_f_R0 (fun k => at_ k x * bt_ (n - k) x) n.

Lemma bessel_sum x n : sum_f_R0 (bessel_term 0 x) n = bessel_partial 0 x (S n).
Proof. induction n as [|n IH]; [cbn; ring|]. rewrite tech5, IH. reflexivity. Qed.
Lemma bessel_series x l : is_bessel_i 0 x l -> is_series (bessel_term 0 x) l.
Proof.
  intros H. apply is_series_Reals. intros eps He. destruct (H eps He) as (N & HN). exists N. intros n Hn. rewrite bessel_sum. apply HN. lia.
Qed.
Lemma at_bessel x j : Rabs x <= 1 -> at_ j x = bessel_term 0 (beta * sqrt (1 - x * x)) j.
Proof.
  intros H. assert (0 <= 1 - x * x). { apply Rabs_le_between in H. nra. }
  unfold at_, bessel_term. rewrite !Nat.add_0_r. f_equal. rewrite pow_mult. f_equal. cbn [pow].
  replace (beta * sqrt (1 - x * x) / 2 * (beta * sqrt (1 - x * x) / 2 * 1)) with (beta * beta * (sqrt (1 - x * x) * sqrt (1 - x * x)) / 4) by field. rewrite sqrt_sqrt by assumption. reflexivity.
Qed.
Lemma a_series x : Rabs x <= 1 -> is_series (fun j => at_ j x) (I0 (beta * sqrt (1 - x * x))).
Proof.
  intros H. apply (is_series_ext (bessel_term 0 (beta * sqrt (1 - x * x)))); [intros n; symmetry; apply at_bessel; exact H|].
  apply bessel_series, HI. apply Rmult_le_pos; [exact Hb|apply sqrt_pos].
Qed.
Lemma b_series x : is_series (fun m => bt_ m x) (cos (omega * x)).
Proof.
  unfold cos. destruct (exist_cos (Rsqr (omega * x))) as (l & H). unfold cos_in in H. apply is_series_Reals in H.
  revert H. apply is_series_ext. intros n. unfold bt_, cos_n. rewrite pow_mult. unfold Rsqr. cbn [pow]. rewrite Rmult_1_r. inR. unfold Rdiv. ring.
Qed.
Lemma a_bound x j : Rabs x <= 1 -> 0 <= at_ j x <= even_exp (beta * beta) j.
Proof.
  intros H. assert (H1 : 0 <= 1 - x * x <= 1) by (apply Rabs_le_between in H; nra). pose proof (fact_pos j). pose proof (fact_pos (2 * j)).
  unfold at_. assert (B : 0 <= beta * beta) by nra. set (B2 := beta * beta) in *. clearbody B2.
  assert (U : 0 <= (B2 * (1 - x * x) / 4) ^ j <= (B2 / 4) ^ j). { split; [apply pow_le; nra|]. apply pow_incr. nra. }
  split; [apply Rdiv_le_0_compat; [apply U|apply Rmult_lt_0_compat; assumption]|].
  apply Rle_trans with ((B2 / 4) ^ j / (INR (fact j) * INR (fact j))).
  - apply Rmult_le_compat_r; [left; apply Rinv_0_lt_compat, Rmult_lt_0_compat; assumption|apply U].
  - unfold even_exp. unfold Rdiv. rewrite Rpow_mult_distr. rewrite pow_inv. rewrite Rmult_assoc. apply Rmult_le_compat_l; [apply pow_le; exact B|].
    rewrite <- Rinv_mult. apply Rinv_le_contravar; [assumption|]. apply central.
Qed.
Lemma b_bound x m : Rabs x <= 1 -> Rabs (bt_ m x) <= even_exp (omega * omega) m.
Proof.
  intros H. pose proof (fact_pos (2 * m)). unfold bt_, even_exp. unfold Rdiv. rewrite Rabs_mult, Rabs_mult, pow_1_abs, Rmult_1_l.
  rewrite (Rabs_pos_eq (/ _)) by (left; apply Rinv_0_lt_compat; assumption). apply Rmult_le_compat_r; [left; apply Rinv_0_lt_compat; assumption|].
  rewrite pow_mult. rewrite <- RPow_abs. apply pow_incr. split; [apply Rabs_pos|]. cbn [pow]. rewrite Rmult_1_r. rewrite Rabs_mult.
  rewrite Rabs_mult. assert (H1 := Rabs_pos omega). assert (H2 := Rabs_pos x). replace (omega * omega) with (Rabs omega * Rabs omega) by (rewrite <- Rabs_mult; apply Rabs_pos_eq; nra). 
  apply Rle_trans with (Rabs omega * 1 * (Rabs omega * 1)); [apply Rmult_le_compat; nra|lra].
Qed.
Definition M_ (n : nat) : R := sum_f_R0 (fun k => even_exp (beta * beta) k * even_exp (omega * omega) (n - k)) n.
Lemma M_series : ex_series M_.
Proof.
  assert (A : 0 <= beta * beta) by nra. assert (B : 0 <= omega * omega) by nra.
  destruct (ex_even_exp _ A) as (la & HA). destruct (ex_even_exp _ B) as (lb & HB). exists (la * lb).
  apply is_series_mult; [exact HA|exact HB| |].
  - exists la. revert HA. apply is_series_ext. intros n. rewrite Rabs_pos_eq; [reflexivity|apply even_exp_pos; exact A].
  - exists lb. revert HB. apply is_series_ext. intros n. rewrite Rabs_pos_eq; [reflexivity|apply even_exp_pos; exact B].
Qed.
Lemma p_bound x n : Rabs x <= 1 -> Rabs (pt_ n x) <= M_ n.
Proof.
  intros H. unfold pt_, M_. apply Rle_trans with (sum_f_R0 (fun k => Rabs (at_ k x * bt_ (n - k) x)) n); [apply Rabs_triang_gen|].
  apply sum_Rle. intros k Hk. rewrite Rabs_mult. destruct (a_bound x k H) as [A1 A2]. rewrite (Rabs_pos_eq (at_ k x)) by exact A1. apply Rmult_le_compat; [exact A1|apply Rabs_pos|exact A2|apply b_bound; exact H].
Qed.
Lemma p_series x : Rabs x <= 1 -> is_series (fun n => pt_ n x) (I0 (beta * sqrt (1 - x * x)) * cos (omega * x)).
Proof.
  intros H. apply (is_series_mult (fun j => at_ j x) (fun m => bt_ m x)); [apply a_series; exact H|apply b_series| |].
  - apply (ex_series_le (fun n => Rabs (at_ n x)) (even_exp (beta * beta))); [|apply ex_even_exp; nra]. intros n. unfold norm; cbn. unfold abs; cbn. rewrite Rabs_Rabsolu.
    destruct (a_bound x n H). rewrite Rabs_pos_eq by assumption. assumption.
  - apply (ex_series_le (fun n => Rabs (bt_ n x)) (even_exp (omega * omega))); [|apply ex_even_exp; nra]. intros n. unfold norm; cbn. unfold abs; cbn. rewrite Rabs_Rabsolu. apply b_bound; exact H.
Qed.

(* ---------- the integrals ---------- *)
Definition J_ (j m : nat) : R := 2 * 4 ^ j * INR (fact j) * INR (fact (j + m)) * INR (fact (2 * m)) / (INR (fact m) * INR (fact (2 * (j + m) + 1))).
Lemma J_integral j : forall m, is_RInt (fun x => (1 - x * x) ^ j * x ^ (2 * m)) (-1) 1 (J_ j m).
Proof.
  induction j as [|j IH]; intros m.
  - assert (E : J_ 0 m = minus (1 ^ (2 * m + 1) / INR (2 * m + 1)) ((-1) ^ (2 * m + 1) / INR (2 * m + 1))).
    { unfold minus, plus, opp; cbn [AbelianGroup.plus]. cbn -[INR fact pow Nat.mul Nat.add]. unfold J_. rewrite pow1, pow_add, pow_1_even, pow_1. cbn [pow Nat.add].
      replace (2 * m + 1)%nat with (S (2 * m)) by lia. rewrite fact_simpl, mult_INR. pose proof (fact_pos m). pose proof (fact_pos (2 * m)). assert (0 < INR (S (2 * m))) by (apply lt_0_INR; lia).
      change (INR (fact 0)) with 1. field. repeat split; lra. }
    rewrite E. apply (is_RInt_ext (fun x => INR (2 * m + 1) * x ^ (2 * m) / INR (2 * m + 1))).
    { intros x _. cbn [pow]. inR. field. apply not_0_INR. lia. }
    apply (is_RInt_derive (fun x => x ^ (2 * m + 1) / INR (2 * m + 1)) (fun x => INR (2 * m + 1) * x ^ (2 * m) / INR (2 * m + 1))).
    + intros x _. auto_derive; [exact I|]. change (m + (m + 0))%nat with (2 * m)%nat. replace (Init.Nat.pred (2 * m + 1)) with (2 * m)%nat by lia. inR. unfold Rdiv. ring.
    + intros x _. apply (ex_derive_continuous (fun x => INR (2 * m + 1) * x ^ (2 * m) / INR (2 * m + 1))). auto_derive. exact I.
  - assert (P : is_RInt (fun x => INR (2 * m + 1) * ((1 - x * x) ^ S j * x ^ (2 * m)) - 2 * INR (S j) * ((1 - x * x) ^ j * x ^ (2 * S m))) (-1) 1 0).
    { replace 0 with (minus (1 ^ (2 * m + 1) * (1 - 1 * 1) ^ S j) ((-1) ^ (2 * m + 1) * (1 - (-1) * (-1)) ^ S j)).
      2:{ unfold minus, plus, opp; cbn. ring. }
      apply (is_RInt_derive (fun x => x ^ (2 * m + 1) * (1 - x * x) ^ S j)).
      - intros x _. auto_derive; [exact I|]. change (m + (m + 0))%nat with (2 * m)%nat. replace (Init.Nat.pred (2 * m + 1)) with (2 * m)%nat by lia. cbn [pred]. replace (2 * S m)%nat with (S (2 * m + 1)) by lia.
        cbn [pow]. rewrite pow_add. cbn [pow]. unfold Rminus. set (z := (1 + - (x * x)) ^ j). set (w := x ^ (2 * m)). set (c := INR (2 * m + 1)). inR. change (match j with 0%nat => 1 | S _ => INR j + 1 end) with (INR (S j)). ring.
      - intros x _. apply (ex_derive_continuous (fun x => INR (2 * m + 1) * ((1 - x * x) ^ S j * x ^ (2 * m)) - 2 * INR (S j) * ((1 - x * x) ^ j * x ^ (2 * S m)))). auto_derive. exact I. }
    assert (Q := is_RInt_plus _ _ _ _ _ _ P (is_RInt_scal _ _ _ (2 * INR (S j)) _ (IH (S m)))).
    assert (Q2 := is_RInt_scal _ _ _ (/ INR (2 * m + 1)) _ Q). clear P Q.
    assert (NZ : INR (2 * m + 1) <> 0) by (apply not_0_INR; lia).
    replace (J_ (S j) m) with (scal (/ INR (2 * m + 1)) (plus 0 (scal (2 * INR (S j)) (J_ j (S m))))).
    + revert Q2. apply is_RInt_ext. intros x _. unfold scal, plus; cbn -[INR pow Nat.mul]. unfold mult; cbn -[INR pow Nat.mul]. inR. field. exact NZ.
    + unfold scal, plus; cbn -[INR pow Nat.mul fact J_]. unfold mult; cbn -[INR pow Nat.mul fact J_]. unfold J_. replace (j + S m)%nat with (S j + m)%nat by lia.
      replace (2 * S m)%nat with (S (S (2 * m))) by lia. rewrite !(fact_simpl (S (2 * m))), !(fact_simpl (2 * m)), !(fact_simpl m), !(fact_simpl j), !mult_INR.
      pose proof (fact_pos m). pose proof (fact_pos (2 * (S j + m) + 1)). replace (2 * m + 1)%nat with (S (2 * m)) in * by lia.
      assert (E2 : INR (S (S (2 * m))) = 2 * INR (S m)). { rewrite !S_INR, mult_INR. cbn [INR]. ring. } rewrite E2. cbn [pow]. assert (INR (S m) <> 0) by (apply not_0_INR; lia). field. repeat split; try lra; assumption.
Qed.
Lemma is_RInt_sum (f : nat -> R -> R) (v : nat -> R) a b n : (forall k, (k <= n)%nat -> is_RInt (f k) a b (v k)) ->
  is_RInt (fun x => sum_f_R0 (fun k => f k x) n) a b (sum_f_R0 v n).
Proof.
  induction n as [|n IH]; intros H; [apply H; lia|]. cbn [sum_f_R0]. apply (is_RInt_plus (fun x => sum_f_R0 (fun k => f k x) n) (f (S n))); [apply IH; intros; apply H; lia|apply H; lia].
Qed.
Lemma p_integral n : is_RInt (pt_ n) (-1) 1 (2 * ((beta * beta - omega * omega) ^ n / INR (fact (2 * n + 1)))).
Proof.
  replace (2 * _) with (sum_f_R0 (fun k => 2 / INR (fact (2 * n + 1)) * (Binomial.C n k * (beta * beta) ^ k * (- (omega * omega)) ^ (n - k))) n).
  2:{ rewrite (sum_eq _ (fun k => Binomial.C n k * (beta * beta) ^ k * (- (omega * omega)) ^ (n - k) * (2 / INR (fact (2 * n + 1)))) n) by (intros; ring).
      rewrite <- scal_sum, <- binomial. unfold Rdiv, Rminus. ring. }
  unfold pt_. apply (is_RInt_sum (fun k x => at_ k x * bt_ (n - k) x)). intros k Hk.
  set (m := (n - k)%nat). assert (En : n = (k + m)%nat) by lia.
  set (c := (beta * beta / 4) ^ k / (INR (fact k) * INR (fact k)) * ((-1) ^ m * (omega ^ (2 * m)) / INR (fact (2 * m)))).
  replace (2 / INR (fact (2 * n + 1)) * (Binomial.C n k * (beta * beta) ^ k * (- (omega * omega)) ^ m)) with (scal c (J_ k m)).
  - apply (is_RInt_ext (fun x => scal c ((1 - x * x) ^ k * x ^ (2 * m)))); [|exact (is_RInt_scal _ _ _ c _ (J_integral k m))].
    intros x _. unfold scal; cbn -[pow Nat.mul]. unfold mult; cbn -[pow Nat.mul]. unfold c, at_, bt_. replace (beta * beta * (1 - x * x) / 4) with (beta * beta / 4 * (1 - x * x)) by field.
    rewrite !Rpow_mult_distr. inR. unfold Rdiv. ring.
  - unfold scal; cbn -[pow Nat.mul]. unfold mult; cbn -[pow Nat.mul]. unfold c, J_, Binomial.C. fold m. rewrite <- En.
    replace (- (omega * omega)) with (-1 * (omega * omega)) by ring. rewrite (Rpow_mult_distr (-1)). rewrite (pow_mult omega 2 m). cbn [pow]. rewrite Rmult_1_r.
    unfold Rdiv at 2. rewrite Rpow_mult_distr. rewrite pow_inv. pose proof (fact_pos k). pose proof (fact_pos m). pose proof (fact_pos (2 * m)). pose proof (fact_pos (2 * n + 1)). assert (0 < 4 ^ k) by (apply pow_lt; lra).
    cbn [pow]. field. repeat split; lra.
Qed.

(* ---------- uniform convergence ---------- *)
Definition clip (f : R -> R) (x : R) : R := if Rle_dec (Rabs x) 1 then f x else 0.
Definition partial (N : nat) : R -> R := clip (fun x => sum_f_R0 (fun n => pt_ n x) N).
Definition total : R -> R := clip (fun x => I0 (beta * sqrt (1 - x * x)) * cos (omega * x)).

Lemma tail_bound x N : Rabs x <= 1 -> Rabs (I0 (beta * sqrt (1 - x * x)) * cos (omega * x) - sum_f_R0 (fun n => pt_ n x) N) <= Series M_ - sum_f_R0 M_ N.
Proof.
  intros H. assert (HP := p_series x H). rewrite <- (is_series_unique _ _ HP). assert (EP : ex_series (fun n => pt_ n x)) by (eexists; exact HP).
  rewrite (Series_incr_n (fun n => pt_ n x) (S N)) by (try lia; exact EP). rewrite (Series_incr_n M_ (S N)) by (try lia; exact M_series). cbn [pred].
  replace (sum_f_R0 (fun n => pt_ n x) N + Series (fun k => pt_ (S N + k) x) - sum_f_R0 (fun n => pt_ n x) N) with (Series (fun k => pt_ (S N + k) x)) by ring.
  replace (sum_f_R0 M_ N + Series (fun k => M_ (S N + k)%nat) - sum_f_R0 M_ N) with (Series (fun k => M_ (S N + k)%nat)) by ring.
  assert (EM : ex_series (fun k => M_ (S N + k)%nat)) by (apply (ex_series_incr_n M_ (S N)), M_series).
  assert (EA : ex_series (fun k => Rabs (pt_ (S N + k) x))).
  { apply (ex_series_le (fun k => Rabs (pt_ (S N + k) x)) (fun k => M_ (S N + k)%nat)); [|exact EM]. intros k. unfold norm; cbn -[Nat.add]. unfold abs; cbn -[Nat.add]. rewrite Rabs_Rabsolu. apply p_bound; exact H. }
  apply Rle_trans with (Series (fun k => Rabs (pt_ (S N + k) x))); [apply Series_Rabs; exact EA|].
  apply Series_le; [|exact EM]. intros k. split; [apply Rabs_pos|apply p_bound; exact H].
Qed.
Lemma kaiser_integral v : is_series (fun n => (beta * beta - omega * omega) ^ n / INR (fact (2 * n + 1))) v ->
  is_RInt (fun x => I0 (beta * sqrt (1 - x * x)) * cos (omega * x)) (-1) 1 (2 * v).
Proof.
  intros HV.
  assert (HF : forall N, is_RInt (partial N) (-1) 1 (sum_f_R0 (fun n => 2 * ((beta * beta - omega * omega) ^ n / INR (fact (2 * n + 1)))) N)).
  { intros N. apply (is_RInt_ext (fun x => sum_f_R0 (fun n => pt_ n x) N)).
    - intros x. rewrite Rmin_left, Rmax_right by lra. intros Hx. unfold partial, clip. destruct (Rle_dec (Rabs x) 1) as [_|C]; [reflexivity|]. exfalso. apply C. apply Rabs_le. lra.
    - apply (is_RInt_sum pt_). intros k _. apply p_integral. }
  assert (HL : filterlim partial eventually (locally (total : fct_UniformSpace R R_UniformSpace))).
  { intros P [eps HP]. destruct M_series as (S & HS). assert (HS' := HS). apply is_series_Reals in HS'. destruct (HS' eps (cond_pos eps)) as (N & HN). exists N. intros n Hn. apply HP.
    intros x. unfold ball; cbn. unfold AbsRing_ball, abs, minus, plus, opp; cbn. unfold partial, total, clip. destruct (Rle_dec (Rabs x) 1) as [Hx|_].
    - specialize (HN n Hn). unfold R_dist in HN. rewrite <- (is_series_unique _ _ HS) in HN. assert (T := tail_bound x n Hx).
      rewrite <- Rabs_Ropp. replace (- (sum_f_R0 (fun n0 => pt_ n0 x) n + - (I0 (beta * sqrt (1 - x * x)) * cos (omega * x)))) with (I0 (beta * sqrt (1 - x * x)) * cos (omega * x) - sum_f_R0 (fun n0 => pt_ n0 x) n) by ring.
      eapply Rle_lt_trans; [exact T|]. eapply Rle_lt_trans; [|exact HN]. rewrite <- Rabs_Ropp. rewrite Ropp_minus_distr. apply RRle_abs.
    - rewrite Ropp_0, Rplus_0_r, Rabs_R0. apply cond_pos. }
  destruct (filterlim_RInt partial (-1) 1 eventually _ total _ HF HL) as (If & L1 & L2).
  assert (EI : If = 2 * v).
  { assert (S2 : is_series (fun n => 2 * ((beta * beta - omega * omega) ^ n / INR (fact (2 * n + 1)))) (2 * v)) by (apply (is_series_scal 2 _ v HV)).
    assert (L3 : filterlim (fun N => sum_n (fun n => 2 * ((beta * beta - omega * omega) ^ n / INR (fact (2 * n + 1)))) N) eventually (locally (2 * v))) by exact S2.
    apply (filterlim_locally_unique (F := eventually) (fun N => sum_f_R0 (fun n => 2 * ((beta * beta - omega * omega) ^ n / INR (fact (2 * n + 1)))) N)); [exact L1|].
    revert L3. apply filterlim_ext. intros N. apply sum_n_Reals. }
  rewrite <- EI. revert L2. apply is_RInt_ext. intros x. rewrite Rmin_left, Rmax_right by lra. intros Hx. unfold total, clip. destruct (Rle_dec (Rabs x) 1) as [_|C]; [reflexivity|]. exfalso. apply C. apply Rabs_le. lra.
Qed.
End Kaiser.

(* ---------- the closed forms ---------- *)
Lemma ex_odd y : ex_series (fun n => y ^ n / INR (fact (2 * n + 1))).
Proof.
  apply (ex_series_le (fun n => y ^ n / INR (fact (2 * n + 1))) (fun k => Rabs y ^ k / INR (fact k))); [|apply ex_exp].
  intros k. unfold norm; cbn -[Nat.mul Nat.add fact]. unfold abs; cbn -[Nat.mul Nat.add fact]. unfold Rdiv. rewrite Rabs_mult, <- RPow_abs. rewrite (Rabs_pos_eq (/ _)) by (left; apply Rinv_0_lt_compat, fact_pos).
  apply Rmult_le_compat_l; [apply pow_le, Rabs_pos|]. apply Rinv_le_contravar; [apply fact_pos|]. apply le_INR, fact_le. lia.
Qed.
Lemma sinh_series d : d <> 0 -> is_series (fun n => (d * d) ^ n / INR (fact (2 * n + 1))) ((exp d - exp (- d)) / 2 / d).
Proof.
  intros Hd. assert (EO : exists lo : R, is_series (fun n => (d * d) ^ n / INR (fact (2 * n + 1))) lo) by apply ex_odd. assert (EE : exists le : R, is_series (even_exp (d * d)) le) by (apply ex_even_exp; nra).
  destruct EO as (lo & HO). destruct EE as (le & HE).
  assert (X : forall y, y * y = d * d -> exp y = le + y * lo).
  { intros y Hy. assert (P : is_pseries (fun n => / INR (fact n)) y (le + y * lo)).
    { apply is_pseries_odd_even; unfold is_pseries.
      - revert HE. apply is_series_ext. intros n. unfold scal; cbn -[Nat.mul Nat.add fact]. unfold mult; cbn -[Nat.mul Nat.add fact]. rewrite pow_n_pow. unfold even_exp. replace (y * (y * 1)) with (d * d) by lra. reflexivity.
      - revert HO. apply is_series_ext. intros n. unfold scal; cbn -[Nat.mul Nat.add fact]. unfold mult; cbn -[Nat.mul Nat.add fact]. transitivity ((y * (y * 1)) ^ n * / INR (fact (2 * n + 1))); [replace (y * (y * 1)) with (d * d) by lra; reflexivity|]. f_equal. }
    assert (P2 := is_exp_Reals y). apply is_pseries_unique in P. apply is_pseries_unique in P2. congruence. }
  rewrite (X d), (X (- d)) by ring. replace ((le + d * lo - (le + - d * lo)) / 2 / d) with lo by (field; exact Hd). exact HO.
Qed.
Lemma sin_series d : d <> 0 -> is_series (fun n => (- (d * d)) ^ n / INR (fact (2 * n + 1))) (sin d / d).
Proof.
  intros Hd. unfold sin. destruct (exist_sin (Rsqr d)) as (l & H). unfold sin_in in H. apply is_series_Reals in H. replace (d * l / d) with l by (field; exact Hd).
  revert H. apply is_series_ext. intros n. unfold sin_n, Rsqr. replace (- (d * d)) with (-1 * (d * d)) by ring. rewrite (Rpow_mult_distr (-1)). inR. unfold Rdiv. ring.
Qed.
Lemma zero_series : is_series (fun n => 0 ^ n / INR (fact (2 * n + 1))) 1.
Proof.
  apply is_series_Reals. intros eps He. exists 0%nat. intros n _.
  replace (sum_f_R0 (fun n0 => 0 ^ n0 / INR (fact (2 * n0 + 1))) n) with 1; [rewrite R_dist_eq; exact He|].
  induction n as [|n IH]; [cbn; lra|]. cbn [sum_f_R0]. rewrite <- IH. rewrite pow_i by lia. unfold Rdiv. ring.
Qed.
