(* Landen's sequence over the real numbers. *)
From Coq Require Import ZArith Reals Lra Lia List Bool.
From Coquelicot Require Import Coquelicot.
From Verif Require Import Common RealUtil ComplexModel EllipticModel EllipticSpec EllipticProofs.
Import ListNotations.
Local Open Scope R_scope.

Lemma compl k : 0 <= k < 1 -> 0 < sqrt (1 - k * k) <= 1 /\ sqrt (1 - k * k) * sqrt (1 - k * k) = 1 - k * k.
Proof.
  intros H. assert (0 < 1 - k * k) by nra. split; [split|].
  - now apply sqrt_lt_R0.
  - rewrite <- sqrt_1 at 2. apply sqrt_le_1_alt. nra.
  - apply sqrt_sqrt. lra.
Qed.
Lemma landen_alt k : 0 <= k < 1 -> landen_step k = (1 - sqrt (1 - k * k)) / (1 + sqrt (1 - k * k)).
Proof.
  intros H. unfold landen_step. cbv zeta. destruct (compl k H) as ((P & _) & Q). set (s := sqrt (1 - k * k)) in *.
  replace (k / (1 + s) * (k / (1 + s))) with (k * k / ((1 + s) * (1 + s))) by (field; lra).
  replace (k * k) with (1 - s * s) by lra. field. lra.
Qed.
Lemma landen_range k : 0 <= k < 1 -> 0 <= landen_step k <= k /\ landen_step k < 1.
Proof.
  intros H. unfold landen_step. cbv zeta. destruct (compl k H) as ((P & _) & _). set (s := sqrt (1 - k * k)) in *.
  assert (A : 0 <= k / (1 + s) <= k).
  { split; [apply Rle_mult_inv_pos; lra|]. apply (Rmult_le_reg_r (1 + s)); [lra|]. unfold Rdiv. rewrite Rmult_assoc, Rinv_l by lra. nra. }
  nra.
Qed.
Lemma up_landen k : 0 <= k < 1 -> up (landen_step k) = k * k.
Proof.
  intros H. rewrite landen_alt by exact H. unfold up. destruct (compl k H) as ((P & _) & Q). set (s := sqrt (1 - k * k)) in *.
  replace (k * k) with (1 - s * s) by lra. field. lra.
Qed.
(* one step of the descending recursion *)
Definition descend_real (k k1 x : R) : R := x / ((1 + sqrt (1 - (x * k) * (x * k))) * (1 / 2 * (1 + k1))).
Lemma descend_real_ok k x : 0 <= k < 1 -> -1 <= x <= 1 -> let y := descend_real k (landen_step k) x in -1 <= y <= 1 /\ gauss (landen_step k) y = x.
Proof.
  intros A B. cbv zeta. unfold descend_real. destruct (landen_range k A) as ((N & _) & L). pose proof (up_landen k A) as U. unfold up in U.
  pose proof (landen_alt k A) as AL. destruct (compl k A) as ((P & P1) & Q). set (s := sqrt (1 - k * k)) in *. set (k1 := landen_step k) in *.
  assert (X : 0 <= x * x <= 1) by nra. assert (Z : 0 < 1 - x * k * (x * k)) by nra.
  set (r := sqrt (1 - x * k * (x * k))). assert (RP : 0 < r) by (now apply sqrt_lt_R0). assert (RR : r * r = 1 - x * k * (x * k)) by (apply sqrt_sqrt; lra).
  assert (SR : s <= r). { apply sqrt_le_1_alt. nra. }
  assert (O : (1 + k1) * (1 + s) = 2). { rewrite AL. field. lra. }
  assert (D : 0 < (1 + r) * (1 / 2 * (1 + k1))) by nra. split.
  - assert (2 <= (1 + r) * (1 + k1)) by nra. split; apply (Rmult_le_reg_r ((1 + r) * (1 / 2 * (1 + k1)))); try exact D; unfold Rdiv; rewrite ?Rmult_assoc, ?Rinv_l by lra; nra.
  - unfold gauss. set (y := x / _). assert (Ky : k1 * (y * y) = (1 - r) / (1 + r)).
    { unfold y. replace (k1 * (x / ((1 + r) * (1 / 2 * (1 + k1))) * (x / ((1 + r) * (1 / 2 * (1 + k1)))))) with (4 * k1 / ((1 + k1) * (1 + k1)) * (x * x) / ((1 + r) * (1 + r))) by (field; lra).
      rewrite U. replace (k * k * (x * x)) with (1 - r * r) by (rewrite RR; ring). field. lra. }
    rewrite Ky. unfold y. field. repeat split; try lra. 
Qed.

Fixpoint chain (k : R) (ks : list R) : Prop := match ks with [] => True | k1 :: r => k1 = landen_step k /\ chain k1 r end.
Fixpoint final (k : R) (ks : list R) : R := match ks with [] => k | k1 :: r => final k1 r end.
Fixpoint product (ks : list R) : R := match ks with [] => 1 | k :: r => (1 + k) * product r end.
Fixpoint descend_all (k : R) (ks : list R) (x : R) : R := match ks with [] => x | k1 :: r => descend_all k1 r (descend_real k k1 x) end.
Lemma k_from_landen_eq ks : k_from_landen ks = PI / 2 * product ks.
Proof.
  unfold k_from_landen. generalize (PI / 2). induction ks as [|k r IH]; intros p; cbn; [ring|]. rewrite IH. ring.
Qed.
Lemma loop_chain n : forall k, chain k (landen_loop n k).
Proof. induction n as [|n IH]; intros k; cbn [landen_loop]; [exact I|]. destruct (Rltb dbl_epsilon k); [|exact I]. cbn. auto. Qed.
Lemma final_range ks : forall k, 0 <= k < 1 -> chain k ks -> 0 <= final k ks < 1.
Proof.
  induction ks as [|k1 r IH]; intros k H; cbn; [intros; exact H|]. intros (-> & C). apply IH; [|exact C]. destruct (landen_range k H). lra.
Qed.
Lemma product_pos ks : forall k, 0 <= k < 1 -> chain k ks -> 1 <= product ks.
Proof.
  induction ks as [|k1 r IH]; intros k H; cbn; [lra|]. intros (-> & C). destruct (landen_range k H). pose proof (IH (landen_step k) ltac:(lra) C). nra.
Qed.
Lemma descend_F ks : forall k x, 0 <= k < 1 -> chain k ks -> -1 <= x <= 1 -> -1 <= descend_all k ks x <= 1 /\
  F (asin x) (k * k) = product ks * F (asin (descend_all k ks x)) (final k ks * final k ks).
Proof.
  induction ks as [|k1 r IH]; intros k x H C X; cbn [chain product descend_all final] in *; [split; [exact X|ring]|].
  destruct C as (E & C). destruct (landen_range k H) as (R1 & R2). destruct (descend_real_ok k x H X) as (Y & G). rewrite <- E in *.
  destruct (IH k1 (descend_real k k1 x) ltac:(lra) C Y) as (A & B). split; [exact A|].
  pose proof (gauss_F k1 (descend_real k k1 x) ltac:(lra) Y) as GF. rewrite G in GF. rewrite E in GF at 1. rewrite up_landen in GF by exact H.
  rewrite GF, B. ring.
Qed.
Lemma descend_1 ks : forall k, 0 <= k < 1 -> chain k ks -> descend_all k ks 1 = 1.
Proof.
  induction ks as [|k1 r IH]; intros k H C; cbn [chain descend_all] in *; [reflexivity|]. destruct C as (-> & C). destruct (landen_range k H).
  replace (descend_real k (landen_step k) 1) with 1; [apply IH; [lra|exact C]|].
  unfold descend_real. rewrite !Rmult_1_l. rewrite landen_alt by exact H. destruct (compl k H) as ((P & _) & _). field. lra.
Qed.

(* convergence *)
Fixpoint iter (n : nat) (k : R) : R := match n with O => k | S n' => iter n' (landen_step k) end.
Lemma loop_final n : forall k, final k (landen_loop n k) <= dbl_epsilon \/ final k (landen_loop n k) = iter n k.
Proof.
  induction n as [|n IH]; intros k; cbn [landen_loop final iter]; [now right|]. destruct (Rltb_spec dbl_epsilon k); cbn [final]; [apply IH|left; lra].
Qed.
Lemma compl_bound k a b : 0 <= k < 1 -> 0 < a <= 1 -> a * a <= 1 - k * k -> 0 < b -> b * b * ((1 + a) * (1 + a)) <= 4 * a ->
  0 <= landen_step k < 1 /\ b * b <= 1 - landen_step k * landen_step k.
Proof.
  intros H A B P E. destruct (landen_range k H) as (R1 & R2). split; [lra|]. rewrite landen_alt by exact H. destruct (compl k H) as ((S & S1) & Q).
  set (s := sqrt (1 - k * k)) in *. assert (AS : a <= s) by nra.
  replace (1 - (1 - s) / (1 + s) * ((1 - s) / (1 + s))) with (4 * s / ((1 + s) * (1 + s))) by (field; lra).
  apply Rle_trans with (4 * a / ((1 + a) * (1 + a))).
  - apply (Rmult_le_reg_r ((1 + a) * (1 + a))); [nra|]. replace (4 * a / ((1 + a) * (1 + a)) * ((1 + a) * (1 + a))) with (4 * a) by (field; lra). lra.
  - apply (Rmult_le_reg_r ((1 + a) * (1 + a))); [nra|]. replace (4 * a / ((1 + a) * (1 + a)) * ((1 + a) * (1 + a))) with (4 * a) by (field; lra). unfold Rdiv.
    apply (Rmult_le_reg_r ((1 + s) * (1 + s))); [nra|].
    replace (4 * s * / ((1 + s) * (1 + s)) * ((1 + a) * (1 + a)) * ((1 + s) * (1 + s))) with (4 * s * ((1 + a) * (1 + a))) by (field; lra).
    assert (0 <= (s - a) * (1 - a * s)) by (apply Rmult_le_pos; nra). nra.
Qed.
Lemma mod_bound k a q : 0 <= k < 1 -> 0 < a <= 1 -> a * a <= 1 - k * k -> 1 - a <= q * (1 + a) -> 0 <= landen_step k <= q /\ landen_step k < 1.
Proof.
  intros H A B E. destruct (landen_range k H) as (R1 & R2). split; [|lra]. split; [lra|]. rewrite landen_alt by exact H. destruct (compl k H) as ((S & S1) & Q).
  set (s := sqrt (1 - k * k)) in *. assert (AS : a <= s) by nra. apply (Rmult_le_reg_r (1 + s)); [lra|]. unfold Rdiv. rewrite Rmult_assoc, Rinv_l by lra.
  assert (0 <= q) by nra. nra.
Qed.
Lemma small_bound k q q1 : 0 <= k <= q -> q <= 1 / 10 -> 26 / 100 * (q * q) <= q1 -> 0 <= landen_step k <= q1.
Proof.
  intros A B E. assert (H : 0 <= k < 1) by lra. destruct (landen_range k H) as (R1 & R2). split; [lra|]. unfold landen_step. cbv zeta. destruct (compl k H) as ((S & S1) & Q).
  set (s := sqrt (1 - k * k)) in *. assert (AS : 99 / 100 <= s) by nra.
  assert (X : 0 <= k / (1 + s) <= q / (199 / 100)).
  { split; [apply Rle_mult_inv_pos; lra|]. unfold Rdiv. apply Rmult_le_compat; try lra; [apply Rlt_le, Rinv_0_lt_compat; lra|apply Rinv_le_contravar; lra]. }
  apply Rle_trans with (q / (199 / 100) * (q / (199 / 100))); [nra|]. nra.
Qed.
Lemma converges k : 0 <= k -> / 2 ^ 53 <= 1 - k * k -> iter 9 k <= dbl_epsilon.
Proof.
  intros H E. assert (T : 11025 / 10 ^ 20 <= / 2 ^ 53) by lra. assert (K1 : k < 1) by (assert (0 < / 2 ^ 53) by (apply Rinv_0_lt_compat; lra); nra).
  cbn [iter].
  destruct (compl_bound k (105 / 10 ^ 10) (204 / 10 ^ 6)) as (A1 & B1); try lra.
  destruct (compl_bound _ (204 / 10 ^ 6) (285 / 10 ^ 4) A1) as (A2 & B2); try lra.
  destruct (compl_bound _ (285 / 10 ^ 4) (328 / 10 ^ 3) A2) as (A3 & B3); try lra.
  destruct (compl_bound _ (328 / 10 ^ 3) (862 / 10 ^ 3) A3) as (A4 & B4); try lra.
  destruct (mod_bound _ (862 / 10 ^ 3) (742 / 10 ^ 4) A4) as (A5 & _); try lra.
  pose proof (small_bound _ (742 / 10 ^ 4) (144 / 10 ^ 5) A5 ltac:(lra) ltac:(lra)) as A6.
  pose proof (small_bound _ (144 / 10 ^ 5) (54 / 10 ^ 8) A6 ltac:(lra) ltac:(lra)) as A7.
  pose proof (small_bound _ (54 / 10 ^ 8) (76 / 10 ^ 15) A7 ltac:(lra) ltac:(lra)) as A8.
  pose proof (small_bound _ (76 / 10 ^ 15) (2 / 10 ^ 27) A8 ltac:(lra) ltac:(lra)) as A9.
  unfold dbl_epsilon. lra.
Qed.
Lemma inv_sqrt_bound z : 0 <= z <= 1 / 2 -> / sqrt (1 - z) <= 1 + z.
Proof.
  intros H. assert (P : 0 < sqrt (1 - z)) by (apply sqrt_lt_R0; lra). apply (Rmult_le_reg_r (sqrt (1 - z))); [exact P|]. rewrite Rinv_l by lra.
  assert (Q : sqrt (1 - z) * sqrt (1 - z) = 1 - z) by (apply sqrt_sqrt; lra). set (s := sqrt (1 - z)) in *.
  destruct (Rle_dec 1 ((1 + z) * s)) as [L|N]; [exact L|exfalso]. assert (T : 0 <= (1 + z) * s) by (apply Rmult_le_pos; lra).
  assert (H0 : (1 + z) * s * ((1 + z) * s) < 1) by (set (t := (1 + z) * s) in *; clearbody t; nra).
  replace ((1 + z) * s * ((1 + z) * s)) with ((1 + z) * (1 + z) * (s * s)) in H0 by ring. rewrite Q in H0. nra.
Qed.
(* the whole sequence *)
Record moduli (m k : R) (ks : list R) : Prop := { mo_k : k * k = m; mo_r : 0 <= k < 1; mo_c : chain k ks; mo_e : 0 <= final k ks <= dbl_epsilon }.
Lemma sequence_ok m : 0 <= m <= 1 - / 2 ^ 53 -> exists k ks, landen_sequence m = Ok (k, ks) /\ moduli m k ks.
Proof.
  intros M. assert (0 < / 2 ^ 53) by (apply Rinv_0_lt_compat; lra).
  assert (Q : sqrt m * sqrt m = m) by (apply sqrt_sqrt; lra). pose proof (sqrt_pos m) as P. assert (R1 : 0 <= sqrt m < 1) by nra.
  exists (sqrt m), (landen_loop 9 (sqrt m)). split.
  - unfold landen_sequence. rewrite !Rltb_false by lra. reflexivity.
  - split; [exact Q|exact R1|apply loop_chain|]. pose proof (final_range _ _ R1 (loop_chain 9 (sqrt m))). split; [lra|].
    destruct (loop_final 9 (sqrt m)) as [E|E]; [exact E|]. rewrite E. apply converges; [exact P|]. rewrite Q. lra.
Qed.
Lemma final_sq m k ks : moduli m k ks -> 0 <= final k ks * final k ks < 1 /\ forall x, 0 <= x -> x <= F x (final k ks * final k ks) <= x * (1 + / 2 ^ 104).
Proof.
  intros [_ R1 C E]. set (e := final k ks) in *. assert (D : 0 < dbl_epsilon <= 1 / 2) by (unfold dbl_epsilon; lra).
  assert (S : 0 <= e * e <= / 2 ^ 104).
  { split; [nra|]. replace (/ 2 ^ 104) with (dbl_epsilon * dbl_epsilon) by (unfold dbl_epsilon; lra). nra. }
  assert (T : / 2 ^ 104 <= 1 / 2) by lra. split; [lra|]. intros x X. destruct (F_pos (e * e) x ltac:(lra) X) as (A & B). split; [exact A|].
  apply Rle_trans with (1 := B). unfold Rdiv. apply Rmult_le_compat_l; [exact X|]. apply Rle_trans with (1 + e * e); [apply inv_sqrt_bound; lra|lra].
Qed.
Lemma K_close m k ks : moduli m k ks -> k_from_landen ks <= K m <= k_from_landen ks * (1 + / 2 ^ 104).
Proof.
  intros H. destruct (final_sq m k ks H) as (_ & B). destruct H as [<- R1 C E]. destruct (descend_F ks k 1 R1 C ltac:(lra)) as (_ & D).
  rewrite (descend_1 ks k R1 C), asin_1 in D. unfold K. rewrite D, k_from_landen_eq. pose proof (product_pos ks k R1 C). pose proof PI_RGT_0.
  specialize (B (PI / 2) ltac:(lra)). nra.
Qed.
Lemma F_close m k ks x : moduli m k ks -> 0 <= x <= 1 ->
  let v := asin (descend_all k ks x) * product ks in 0 <= v /\ v <= F (asin x) m <= v * (1 + / 2 ^ 104).
Proof.
  intros H X. cbv zeta. destruct (final_sq m k ks H) as (U & B). destruct H as [<- R1 C E]. destruct (descend_F ks k x R1 C ltac:(lra)) as (D1 & D).
  rewrite D. pose proof (product_pos ks k R1 C). set (a := asin (descend_all k ks x)) in *.
  assert (A : 0 <= a).
  { assert (0 <= F (asin x) (k * k)) as Z. { apply Rle_trans with (asin x); [rewrite <- asin_0; apply asin_mono; lra|]. apply F_pos; [nra|]. rewrite <- asin_0; apply asin_mono; lra. }
    rewrite D in Z. destruct (Rle_dec 0 a) as [L|N]; [exact L|exfalso]. pose proof (F_step (final k ks * final k ks) a 0 U ltac:(lra)) as St. rewrite F_0 in St. nra. }
  specialize (B a A). split; [nra|]. nra.
Qed.
