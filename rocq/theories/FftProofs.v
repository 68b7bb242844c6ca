(* Finite sums, roots of unity and the discrete Fourier transform. *)
From Coq Require Import ZArith Reals List Arith Lia Lra.
From Coquelicot Require Import Complex.
From Verif Require Import FftSpec.
Import ListNotations.
Local Open Scope R_scope.

Lemma csum_ext n f g : (forall k, (k < n)%nat -> f k = g k) -> csum n f = csum n g.
Proof. induction n as [|n IH]; intros H; cbn; [reflexivity|]. rewrite IH by (intros; apply H; lia). now rewrite H by lia. Qed.
Lemma csum_zero n f : (forall k, (k < n)%nat -> f k = RtoC 0) -> csum n f = RtoC 0.
Proof. induction n as [|n IH]; intros H; cbn; [reflexivity|]. rewrite IH by (intros; apply H; lia). rewrite H by lia. ring. Qed.
Lemma csum_plus n f g : csum n (fun k => Cplus (f k) (g k)) = Cplus (csum n f) (csum n g).
Proof. induction n as [|n IH]; cbn; [ring|]. rewrite IH. ring. Qed.
Lemma csum_scal n c f : csum n (fun k => Cmult c (f k)) = Cmult c (csum n f).
Proof. induction n as [|n IH]; cbn; [ring|]. rewrite IH. ring. Qed.
Lemma csum_scal_r n c f : csum n (fun k => Cmult (f k) c) = Cmult (csum n f) c.
Proof. induction n as [|n IH]; cbn; [ring|]. rewrite IH. ring. Qed.
Lemma csum_swap n m f : csum n (fun i => csum m (fun j => f i j)) = csum m (fun j => csum n (fun i => f i j)).
Proof.
  induction n as [|n IH]; cbn.
  - symmetry. apply csum_zero. reflexivity.
  - rewrite IH. symmetry. apply csum_plus.
Qed.
Lemma csum_single n f j : (j < n)%nat -> (forall k, (k < n)%nat -> k <> j -> f k = RtoC 0) -> csum n f = f j.
Proof.
  induction n as [|n IH]; intros Hj H; [lia|]. cbn. destruct (Nat.eq_dec j n) as [->|N].
  - rewrite csum_zero by (intros k Hk; apply H; lia). ring.
  - rewrite IH; [|lia|intros; apply H; lia]. rewrite (H n) by lia. ring.
Qed.
Lemma csum_app n m f : csum (n + m) f = Cplus (csum n f) (csum m (fun k => f (n + k)%nat)).
Proof.
  induction m as [|m IH]; [rewrite Nat.add_0_r; cbn; ring|].
  rewrite Nat.add_succ_r. cbn. rewrite IH. ring.
Qed.
Lemma csum_extend n m f : (n <= m)%nat -> (forall k, (n <= k < m)%nat -> f k = RtoC 0) -> csum m f = csum n f.
Proof.
  intros L H. replace m with (n + (m - n))%nat by lia. rewrite csum_app.
  rewrite (csum_zero (m - n)) by (intros; apply H; lia). ring.
Qed.
Lemma csum_conj n f : Cconj (csum n f) = csum n (fun k => Cconj (f k)).
Proof.
  induction n as [|n IH]; cbn [csum]; [apply injective_projections; cbn; ring|].
  rewrite <- IH. apply injective_projections; cbn; ring.
Qed.
Lemma csum_S_l n f : csum (S n) f = Cplus (f 0%nat) (csum n (fun k => f (S k))).
Proof. change (S n) with (1 + n)%nat. rewrite csum_app. cbn. ring. Qed.
Lemma csum_rev n f : csum n f = csum n (fun k => f (n - 1 - k)%nat).
Proof.
  induction n as [|n IH]; [reflexivity|]. rewrite (csum_S_l n (fun k => f (S n - 1 - k)%nat)).
  cbn [csum]. rewrite IH. replace (S n - 1 - 0)%nat with n by lia. rewrite Cplus_comm. f_equal.
  apply csum_ext. intros k Hk. f_equal. lia.
Qed.

(* --- roots of unity --- *)
Lemma root_add N a b : Cmult (root N a) (root N b) = root N (a + b).
Proof.
  unfold root. rewrite plus_IZR.
  replace (2 * PI * (IZR a + IZR b) / INR N) with (2 * PI * IZR a / INR N + 2 * PI * IZR b / INR N) by (unfold Rdiv; ring).
  rewrite cos_plus, sin_plus. apply injective_projections; cbn; ring.
Qed.
Lemma root_0 N : root N 0 = RtoC 1.
Proof. unfold root. replace (2 * PI * 0 / INR N) with 0 by (unfold Rdiv; ring). now rewrite cos_0, sin_0. Qed.
Lemma root_conj N a : Cconj (root N a) = root N (- a).
Proof.
  unfold root. rewrite opp_IZR. replace (2 * PI * - IZR a / INR N) with (- (2 * PI * IZR a / INR N)) by (unfold Rdiv; ring).
  rewrite cos_neg, sin_neg. reflexivity.
Qed.
Lemma cos_period_Z x b : cos (x + 2 * IZR b * PI) = cos x.
Proof.
  destruct (Z.le_ge_cases 0 b) as [H|H].
  - rewrite <- (Z2Nat.id b H), <- INR_IZR_INZ. apply cos_period.
  - rewrite <- (cos_period (x + 2 * IZR b * PI) (Z.to_nat (- b))). rewrite INR_IZR_INZ, Z2Nat.id by lia.
    f_equal. rewrite opp_IZR. ring.
Qed.
Lemma sin_period_Z x b : sin (x + 2 * IZR b * PI) = sin x.
Proof.
  destruct (Z.le_ge_cases 0 b) as [H|H].
  - rewrite <- (Z2Nat.id b H), <- INR_IZR_INZ. apply sin_period.
  - rewrite <- (sin_period (x + 2 * IZR b * PI) (Z.to_nat (- b))). rewrite INR_IZR_INZ, Z2Nat.id by lia.
    f_equal. rewrite opp_IZR. ring.
Qed.
Lemma root_period N a b : (1 <= N)%nat -> root N (a + Z.of_nat N * b) = root N a.
Proof.
  intros H. assert (P : INR N <> 0) by (apply not_0_INR; lia). unfold root.
  rewrite plus_IZR, mult_IZR, <- INR_IZR_INZ.
  replace (2 * PI * (IZR a + INR N * IZR b) / INR N) with (2 * PI * IZR a / INR N + 2 * IZR b * PI) by (field; exact P).
  now rewrite cos_period_Z, sin_period_Z.
Qed.
Lemma root_mod N a b : (1 <= N)%nat -> (Z.of_nat N | a - b)%Z -> root N a = root N b.
Proof.
  intros H (q & E). replace a with (b + Z.of_nat N * q)%Z by lia. now apply root_period.
Qed.
Lemma root_neq_1 N a : (0 < a < Z.of_nat N)%Z -> root N a <> RtoC 1.
Proof.
  intros H E. assert (P : 0 < INR N) by (apply lt_0_INR; lia).
  assert (A : 0 < IZR a < INR N) by (rewrite INR_IZR_INZ; split; apply IZR_lt; lia).
  unfold root in E. injection E as E _.
  set (t := PI * IZR a / INR N) in *.
  replace (2 * PI * IZR a / INR N) with (2 * t) in E by (unfold t, Rdiv; ring).
  rewrite cos_2a_sin in E. pose proof PI_RGT_0 as PP.
  assert (T : 0 < t < PI).
  { unfold t. split.
    - unfold Rdiv. apply Rmult_lt_0_compat; [apply Rmult_lt_0_compat; lra|apply Rinv_0_lt_compat; lra].
    - apply Rmult_lt_reg_r with (INR N); [lra|]. unfold Rdiv. rewrite Rmult_assoc, Rinv_l by lra.
      rewrite Rmult_1_r. apply Rmult_lt_compat_l; lra. }
  pose proof (sin_gt_0 t (proj1 T) (proj2 T)) as S.
  assert (0 < sin t * sin t) by (apply Rmult_lt_0_compat; lra). lra.
Qed.

Lemma root_sum_zero N a : (1 <= N)%nat -> ~ (Z.of_nat N | a)%Z ->
  csum N (fun k => root N (a * Z.of_nat k)) = RtoC 0.
Proof.
  intros H ND. set (w := root N a).
  assert (G : forall n, Cmult (Cminus w (RtoC 1)) (csum n (fun k => root N (a * Z.of_nat k))) = Cminus (root N (a * Z.of_nat n)) (RtoC 1)).
  { induction n as [|n IH]; [cbn [csum]; rewrite Z.mul_0_r, root_0; ring|]. cbn [csum].
    replace (a * Z.of_nat (S n))%Z with (a + a * Z.of_nat n)%Z by lia. rewrite <- root_add. fold w.
    rewrite Cmult_plus_distr_l, IH. ring. }
  specialize (G N).
  replace (root N (a * Z.of_nat N)) with (RtoC 1) in G.
  2:{ symmetry. rewrite <- (root_0 N). apply root_mod; [exact H|]. exists a. lia. }
  replace (Cminus (RtoC 1) (RtoC 1)) with (RtoC 0) in G by ring.
  assert (W : w <> RtoC 1).
  { unfold w. rewrite (root_mod N a (a mod Z.of_nat N)).
    - apply root_neq_1. pose proof (Z.mod_pos_bound a (Z.of_nat N) ltac:(lia)).
      assert (a mod Z.of_nat N <> 0)%Z; [|lia]. intros E. apply ND. now apply Z.mod_divide; [lia|].
    - exact H.
    - exists (a / Z.of_nat N)%Z. pose proof (Z.div_mod a (Z.of_nat N) ltac:(lia)). lia. }
  set (S := csum N (fun k => root N (a * Z.of_nat k))) in *.
  assert (W' : Cminus w (RtoC 1) <> RtoC 0).
  { intros E. apply W. replace w with (Cplus (Cminus w (RtoC 1)) (RtoC 1)) by ring. rewrite E. ring. }
  replace S with (Cmult (Cinv (Cminus w (RtoC 1))) (Cmult (Cminus w (RtoC 1)) S)).
  - rewrite G. ring.
  - rewrite Cmult_assoc, Cinv_l by exact W'. ring.
Qed.
Lemma root_sum_full N a : (1 <= N)%nat -> (Z.of_nat N | a)%Z ->
  csum N (fun k => root N (a * Z.of_nat k)) = RtoC (INR N).
Proof.
  intros H D. rewrite (csum_ext N _ (fun _ => RtoC 1)).
  - clear. induction N as [|n IH]; [reflexivity|]. cbn [csum]. rewrite IH, S_INR, RtoC_plus. reflexivity.
  - intros k _. rewrite <- (root_0 N). apply root_mod; [exact H|].
    destruct D as (q & E). exists (q * Z.of_nat k)%Z. lia.
Qed.

(* sum over k of root(k c), as a selector *)
Lemma root_sum N c : (1 <= N)%nat ->
  csum N (fun k => root N (c * Z.of_nat k)) = if Z.eqb (c mod Z.of_nat N) 0 then RtoC (INR N) else RtoC 0.
Proof.
  intros H. destruct (Z.eqb_spec (c mod Z.of_nat N) 0) as [E|E].
  - apply root_sum_full; [exact H|]. apply Z.mod_divide; [lia|exact E].
  - apply root_sum_zero; [exact H|]. intros D. apply E. apply Z.mod_divide; [lia|exact D].
Qed.

(* The inverse transform of the product of two transforms is the circular
   convolution. *)
Definition cidx (N m n : nat) : nat := Z.to_nat ((Z.of_nat m - Z.of_nat n) mod Z.of_nat N).

Lemma circular_convolution N a b m : (1 <= N)%nat ->
  dft 1 N (fun k => Cmult (dft (-1) N a k) (dft (-1) N b k)) m =
  Cmult (RtoC (INR N)) (csum N (fun n => Cmult (a n) (b (cidx N m n)))).
Proof.
  intros H. unfold dft.
  transitivity (csum N (fun k => csum N (fun n => csum N (fun l =>
     Cmult (Cmult (a n) (b l)) (root N ((Z.of_nat m - Z.of_nat n - Z.of_nat l) * Z.of_nat k)))))).
  { apply csum_ext. intros k _. rewrite <- csum_scal_r, <- csum_scal_r. apply csum_ext. intros n _.
    rewrite <- csum_scal, <- csum_scal_r. apply csum_ext. intros l _.
    replace ((Z.of_nat m - Z.of_nat n - Z.of_nat l) * Z.of_nat k)%Z
      with (-1 * Z.of_nat k * Z.of_nat n + (-1 * Z.of_nat k * Z.of_nat l + 1 * Z.of_nat m * Z.of_nat k))%Z by ring.
    rewrite <- !root_add. ring. }
  rewrite csum_swap. rewrite <- csum_scal. apply csum_ext. intros n Hn. rewrite csum_swap.
  rewrite (csum_single N _ (cidx N m n)).
  - rewrite csum_scal. rewrite root_sum by exact H.
    replace ((Z.of_nat m - Z.of_nat n - Z.of_nat (cidx N m n)) mod Z.of_nat N)%Z with 0%Z; [cbn [Z.eqb]; ring|].
    unfold cidx. pose proof (Z.mod_pos_bound (Z.of_nat m - Z.of_nat n) (Z.of_nat N) ltac:(lia)).
    rewrite Z2Nat.id by lia. rewrite Zminus_mod_idemp_r, Z.sub_diag. reflexivity.
  - unfold cidx. pose proof (Z.mod_pos_bound (Z.of_nat m - Z.of_nat n) (Z.of_nat N) ltac:(lia)). lia.
  - intros l Hl NE. rewrite csum_scal. rewrite root_sum by exact H.
    destruct (Z.eqb_spec ((Z.of_nat m - Z.of_nat n - Z.of_nat l) mod Z.of_nat N) 0) as [E|E]; [|ring].
    exfalso. apply NE. unfold cidx.
    assert (D : ((Z.of_nat m - Z.of_nat n) mod Z.of_nat N = Z.of_nat l)%Z).
    { apply Z.mod_divide in E; [|lia]. destruct E as (q & E).
      symmetry. apply (Z.mod_unique _ _ q); lia. }
    rewrite D. lia.
Qed.

Lemma dft_ext s N f g k : (forall n, (n < N)%nat -> f n = g n) -> dft s N f k = dft s N g k.
Proof. intros H. unfold dft. apply csum_ext. intros n Hn. now rewrite H. Qed.

(* Transforming forth and back multiplies by N. *)
Lemma dft_inverse s N x m : (1 <= N)%nat -> (m < N)%nat -> (s = 1 \/ s = -1)%Z ->
  dft s N (dft (- s) N x) m = Cmult (RtoC (INR N)) (x m).
Proof.
  intros H Hm Hs. unfold dft.
  transitivity (csum N (fun n => Cmult (x n) (csum N (fun k => root N (s * (Z.of_nat m - Z.of_nat n) * Z.of_nat k))))).
  { transitivity (csum N (fun k => csum N (fun n => Cmult (x n) (root N (s * (Z.of_nat m - Z.of_nat n) * Z.of_nat k))))).
    - apply csum_ext. intros k _. rewrite <- csum_scal_r. apply csum_ext. intros n _.
      rewrite <- Cmult_assoc, root_add. f_equal. f_equal. ring.
    - rewrite csum_swap. apply csum_ext. intros n _. apply csum_scal. }
  rewrite (csum_single N _ m Hm).
  - rewrite root_sum by exact H. replace ((s * (Z.of_nat m - Z.of_nat m)) mod Z.of_nat N)%Z with 0%Z; [cbn [Z.eqb]; ring|].
    rewrite Z.sub_diag, Z.mul_0_r. reflexivity.
  - intros n Hn NE. rewrite root_sum by exact H.
    destruct (Z.eqb_spec ((s * (Z.of_nat m - Z.of_nat n)) mod Z.of_nat N) 0) as [E|E]; [|ring].
    exfalso. apply Z.mod_divide in E; [|lia]. destruct E as (q & E).
    assert (D : (Z.of_nat m - Z.of_nat n = Z.of_nat N * (s * q))%Z) by (destruct Hs; subst s; lia).
    assert (s * q = 0)%Z by nia. lia.
Qed.

Lemma Cconj_mult (a b : C) : Cconj (Cmult a b) = Cmult (Cconj a) (Cconj b).
Proof. apply injective_projections; cbn; ring. Qed.
Lemma dft_conj s N f k : Cconj (dft s N f k) = dft (- s) N (fun n => Cconj (f n)) k.
Proof.
  unfold dft. rewrite csum_conj. apply csum_ext. intros n _. rewrite Cconj_mult, root_conj. f_equal. f_equal. ring.
Qed.
Lemma dft_neg_index s N f k : (1 <= N)%nat -> (k <= N)%nat -> dft s N f (N - k) = dft (- s) N f k.
Proof.
  intros H Hk. unfold dft. apply csum_ext. intros n _. f_equal. apply root_mod; [exact H|].
  exists (s * Z.of_nat n)%Z. rewrite Nat2Z.inj_sub by exact Hk. ring.
Qed.
Lemma real_conj (f : nat -> R) : (forall n, Cconj (RtoC (f n)) = RtoC (f n)) .
Proof. intros n. apply injective_projections; cbn; ring. Qed.
(* The spectrum of a real signal is Hermitian. *)
Lemma dft_hermitian N (x : nat -> R) k : (1 <= N)%nat -> (k <= N)%nat ->
  dft (-1) N (fun n => RtoC (x n)) (N - k) = Cconj (dft (-1) N (fun n => RtoC (x n)) k).
Proof.
  intros H Hk. rewrite dft_neg_index by assumption. rewrite dft_conj. apply dft_ext.
  intros n _. symmetry. apply (real_conj x).
Qed.
