(* Real transforms: half spectra, trigonometric polynomials, convolution. *)
From Coq Require Import ZArith Reals Arith Lia Lra ZifyBool ZifyNat.
From Verif Require Import Common CInt ListLemmas NthLemmas RealUtil MfccModel MfccProofs FftModel FftSpec FftProofs FftProofs2.
From Coquelicot Require Import Complex.
Local Open Scope R_scope.

Ltac ceq := apply injective_projections; cbn; ring.

Lemma Re_csum n f : Re (csum n f) = rsumn n (fun k => Re (f k)).
Proof. induction n as [|n IH]; [reflexivity|]. cbn [csum rsumn]. rewrite <- IH. reflexivity. Qed.
Lemma rsumn_ext n f g : (forall k, (k < n)%nat -> f k = g k) -> rsumn n f = rsumn n g.
Proof. induction n as [|n IH]; intros H; cbn [rsumn]; [reflexivity|]. rewrite IH by (intros; apply H; lia). now rewrite H by lia. Qed.
Lemma rsumn_zero n f : (forall k, (k < n)%nat -> f k = 0) -> rsumn n f = 0.
Proof. induction n as [|n IH]; intros H; cbn [rsumn]; [reflexivity|]. rewrite IH by (intros; apply H; lia). rewrite H by lia. ring. Qed.
Lemma rsumn_scal n c f : rsumn n (fun k => c * f k) = c * rsumn n f.
Proof. induction n as [|n IH]; cbn [rsumn]; [ring|]. rewrite IH. ring. Qed.
Lemma rsumn_app n m f : rsumn (n + m) f = rsumn n f + rsumn m (fun k => f (n + k)%nat).
Proof. induction m as [|m IH]; [rewrite Nat.add_0_r; cbn; ring|]. rewrite Nat.add_succ_r. cbn [rsumn]. rewrite IH. ring. Qed.
Lemma rsumn_extend n m f : (n <= m)%nat -> (forall k, (n <= k < m)%nat -> f k = 0) -> rsumn m f = rsumn n f.
Proof.
  intros L H. replace m with (n + (m - n))%nat by lia. rewrite rsumn_app.
  rewrite (rsumn_zero (m - n)) by (intros; apply H; lia). ring.
Qed.
Lemma rsumn_S_l n f : rsumn (S n) f = f 0%nat + rsumn n (fun k => f (S k)).
Proof. change (S n) with (1 + n)%nat. rewrite rsumn_app. cbn. ring. Qed.
Lemma csum_RtoC n f : csum n (fun k => RtoC (f k)) = RtoC (rsumn n f).
Proof. induction n as [|n IH]; [reflexivity|]. cbn [csum rsumn]. rewrite IH, RtoC_plus. reflexivity. Qed.

Lemma halves N : (1 <= N)%nat -> (N = 1 + (N - 1) / 2 + (if Nat.even N then 1 else 0) + (N - 1) / 2)%nat /\
  (N / 2 = (N - 1) / 2 + (if Nat.even N then 1 else 0))%nat.
Proof.
  intros H. destruct (Nat.even N) eqn:E.
  - apply Nat.even_spec in E. destruct E as (q & ->). destruct q as [|q]; [lia|].
    replace (2 * S q - 1)%nat with (1 + q * 2)%nat by lia. rewrite Nat.div_add by lia.
    replace (2 * S q)%nat with (S q * 2)%nat by lia. rewrite Nat.div_mul by lia. cbn [Nat.div Nat.divmod fst Nat.sub]. lia.
  - assert (O : Nat.odd N = true) by (rewrite <- Nat.negb_even, E; reflexivity).
    apply Nat.odd_spec in O. destruct O as (q & ->).
    replace (2 * q + 1 - 1)%nat with (q * 2)%nat by lia. rewrite Nat.div_mul by lia.
    replace (2 * q + 1)%nat with (1 + q * 2)%nat by lia. rewrite Nat.div_add by lia. cbn [Nat.div Nat.divmod fst Nat.sub]. lia.
Qed.

(* The inverse transform of a Hermitian spectrum. *)
Lemma half_formula M s n : (1 <= M)%nat ->
  dft 1 M (hermitian M s) n =
  Cplus (s 0%nat) (Cplus
    (csum ((M - 1) / 2) (fun j => RtoC (2 * Re (Cmult (s (S j)) (root M (Z.of_nat (S j) * Z.of_nat n))))))
    (if Nat.even M then Cmult (s (M / 2)%nat) (root M (Z.of_nat (M / 2) * Z.of_nat n)) else RtoC 0)).
Proof.
  intros H. destruct (halves M H) as (E1 & E2). unfold dft.
  set (h := ((M - 1) / 2)%nat) in *. set (e := if Nat.even M then 1%nat else 0%nat) in *.
  set (F := fun k => Cmult (hermitian M s k) (root M (1 * Z.of_nat n * Z.of_nat k))).
  assert (S0 : csum M F = csum (1 + h + e + h) F) by (rewrite <- E1; reflexivity).
  rewrite S0. rewrite csum_app, (csum_app (1 + h) e), (csum_app 1 h).
  assert (A0 : csum 1 F = s 0%nat).
  { cbn [csum]. unfold F, hermitian. cbn [Nat.leb]. change (Z.of_nat 0) with 0%Z. rewrite Z.mul_0_r, root_0. ring. }
  assert (A1 : csum h (fun k => F (1 + k)%nat) = csum h (fun j => Cmult (s (S j)) (root M (Z.of_nat (S j) * Z.of_nat n)))).
  { apply csum_ext. intros k Hk. unfold F, hermitian. destruct (Nat.leb_spec (1 + k) (M / 2)); [|lia].
    change (1 + k)%nat with (S k). f_equal. f_equal. ring. }
  assert (A2 : csum e (fun k => F (1 + h + k)%nat) = if Nat.even M then Cmult (s (M / 2)%nat) (root M (Z.of_nat (M / 2) * Z.of_nat n)) else RtoC 0).
  { unfold e in *. destruct (Nat.even M); [|reflexivity]. cbn [csum]. unfold F, hermitian.
    replace (1 + h + 0)%nat with (M / 2)%nat by lia. rewrite Nat.leb_refl. rewrite Cplus_0_l. f_equal. f_equal. ring. }
  assert (A3 : csum h (fun k => F (1 + h + e + k)%nat) = csum h (fun j => Cconj (Cmult (s (S j)) (root M (Z.of_nat (S j) * Z.of_nat n))))).
  { rewrite csum_rev. apply csum_ext. intros k Hk. unfold F, hermitian.
    destruct (Nat.leb_spec (1 + h + e + (h - 1 - k)) (M / 2)); [lia|].
    replace (M - (1 + h + e + (h - 1 - k)))%nat with (S k) by lia. rewrite Cconj_mult, root_conj. f_equal.
    apply root_mod; [exact H|]. exists (Z.of_nat n).
    replace (Z.of_nat (1 + h + e + (h - 1 - k))) with (Z.of_nat M - Z.of_nat (S k))%Z by lia. ring. }
  rewrite A0, A1, A2, A3.
  assert (A4 : csum h (fun j => RtoC (2 * Re (Cmult (s (S j)) (root M (Z.of_nat (S j) * Z.of_nat n))))) =
    Cplus (csum h (fun j => Cmult (s (S j)) (root M (Z.of_nat (S j) * Z.of_nat n))))
          (csum h (fun j => Cconj (Cmult (s (S j)) (root M (Z.of_nat (S j) * Z.of_nat n)))))).
  { rewrite <- csum_plus. apply csum_ext. intros k _. set (z := Cmult _ _). clearbody z. destruct z as [p q]. ceq. }
  rewrite A4. ring.
Qed.

Lemma half_formula_Re M s n : (1 <= M)%nat ->
  Re (dft 1 M (hermitian M s) n) =
  Re (s 0%nat) + rsumn ((M - 1) / 2) (fun j => 2 * Re (Cmult (s (S j)) (root M (Z.of_nat (S j) * Z.of_nat n))))
  + (if Nat.even M then Re (Cmult (s (M / 2)%nat) (root M (Z.of_nat (M / 2) * Z.of_nat n))) else 0).
Proof.
  intros H. rewrite half_formula by exact H. rewrite csum_RtoC.
  set (a := rsumn _ _). clearbody a. set (p := Cmult _ _). clearbody p. destruct (Nat.even M); unfold Re; cbn [fst Cplus RtoC]; ring.
Qed.

Lemma root_nyquist M n : (1 <= M)%nat -> Nat.even M = true -> Im (root M (Z.of_nat (M / 2) * Z.of_nat n)) = 0.
Proof.
  intros H E. apply Nat.even_spec in E. destruct E as (q & ->). replace (2 * q)%nat with (q * 2)%nat by lia.
  rewrite Nat.div_mul by lia. unfold root. cbn [Im snd]. rewrite mult_IZR, <- !INR_IZR_INZ, mult_INR. change (INR 2) with 2.
  replace (2 * PI * (INR q * INR n) / (INR q * 2)) with (0 + INR n * PI) by (field; apply INR_neq; lia).
  assert (forall m, sin (0 + INR m * PI) = 0) as Z; [|apply Z].
  induction m as [|m IH]; [replace (0 + INR 0 * PI) with 0 by (cbn; ring); apply sin_0|].
  rewrite S_INR. replace (0 + (INR m + 1) * PI) with ((0 + INR m * PI) + PI) by ring. rewrite neg_sin. lra.
Qed.

(* The inverse transform is real if the DC and Nyquist bins are. *)
Lemma dft_of_hermitian_real M s n : (1 <= M)%nat -> Im (s 0%nat) = 0 -> (Nat.even M = true -> Im (s (M / 2)%nat) = 0) ->
  dft 1 M (hermitian M s) n = RtoC (Re (dft 1 M (hermitian M s) n)).
Proof.
  intros H H0 HN. rewrite half_formula by exact H. rewrite csum_RtoC. set (a := rsumn _ _). clearbody a.
  pose proof (root_nyquist M n H) as RN.
  destruct (s 0%nat) as [p q]. cbn in H0. subst q.
  destruct (Nat.even M); [|ceq].
  specialize (HN eq_refl). specialize (RN eq_refl). destruct (s (M / 2)%nat) as [u v]. cbn in HN. subst v.
  destruct (root M (Z.of_nat (M / 2) * Z.of_nat n)) as [u' v']. cbn in RN. subst v'. ceq.
Qed.

(* Extending the half spectrum of a real signal recovers its spectrum. *)
Lemma hermitian_dft N (x : nat -> R) s k : (1 <= N)%nat -> (k < N)%nat ->
  (forall j, (j <= N / 2)%nat -> s j = dft (-1) N (fun n => RtoC (x n)) j) ->
  hermitian N s k = dft (-1) N (fun n => RtoC (x n)) k.
Proof.
  intros H Hk E. destruct (halves N H) as (E1 & E2).
  assert (HL : (N - N / 2 <= N / 2 + 1)%nat) by (destruct (Nat.even N); lia).
  unfold hermitian. destruct (Nat.leb_spec k (N / 2)) as [L|L]; [now apply E|].
  rewrite E by lia. rewrite <- dft_hermitian by lia. f_equal. lia.
Qed.

(* --- trigonometric polynomials --- *)
Definition trig_bin (c : nat -> C) (K : nat) (A : R) (k : nat) : C :=
  if Nat.eqb k 0 then RtoC (A * Re (c 0%nat))
  else if Nat.ltb k K then Cmult (RtoC (A / 2)) (c k) else RtoC 0.

Lemma trig_dft c K N k : (1 <= K)%nat -> (2 * (K - 1) < N)%nat -> (k <= N / 2)%nat ->
  dft (-1) N (fun n => RtoC (trig c K N n)) k = trig_bin c K (INR N) k.
Proof.
  intros HK HN Hk. assert (H : (1 <= N)%nat) by lia. pose proof (Nat.mul_div_le N 2 ltac:(lia)) as HD.
  unfold dft.
  transitivity (csum K (fun j => Cplus
     (Cmult (Cmult (RtoC (1 / 2)) (c j)) (csum N (fun n => root N ((Z.of_nat j - Z.of_nat k) * Z.of_nat n))))
     (Cmult (Cmult (RtoC (1 / 2)) (Cconj (c j))) (csum N (fun n => root N ((- Z.of_nat j - Z.of_nat k) * Z.of_nat n)))))).
  { transitivity (csum N (fun n => csum K (fun j => Cplus
       (Cmult (Cmult (RtoC (1 / 2)) (c j)) (root N ((Z.of_nat j - Z.of_nat k) * Z.of_nat n)))
       (Cmult (Cmult (RtoC (1 / 2)) (Cconj (c j))) (root N ((- Z.of_nat j - Z.of_nat k) * Z.of_nat n)))))).
    - apply csum_ext. intros n _. unfold trig. rewrite <- csum_RtoC, <- csum_scal_r. apply csum_ext. intros j _.
      replace ((Z.of_nat j - Z.of_nat k) * Z.of_nat n)%Z with (Z.of_nat j * Z.of_nat n + -1 * Z.of_nat k * Z.of_nat n)%Z by ring.
      replace ((- Z.of_nat j - Z.of_nat k) * Z.of_nat n)%Z with (- (Z.of_nat j * Z.of_nat n) + -1 * Z.of_nat k * Z.of_nat n)%Z by ring.
      rewrite <- !root_add. rewrite <- (root_conj N (Z.of_nat j * Z.of_nat n)).
      set (r := root N (Z.of_nat j * Z.of_nat n)). set (r' := root N _). clearbody r r'.
      destruct (c j) as [a b], r as [a' b'], r' as [a2 b2]. apply injective_projections; cbn; field.
    - rewrite csum_swap. apply csum_ext. intros j _. rewrite csum_plus, !csum_scal. reflexivity. }
  transitivity (csum K (fun j => Cplus
     (if Nat.eqb j k then Cmult (Cmult (RtoC (1 / 2)) (c j)) (RtoC (INR N)) else RtoC 0)
     (if (Nat.eqb j 0 && Nat.eqb k 0)%bool then Cmult (Cmult (RtoC (1 / 2)) (Cconj (c j))) (RtoC (INR N)) else RtoC 0))).
  { apply csum_ext. intros j Hj. f_equal.
    - rewrite root_sum by exact H. destruct (Nat.eqb_spec j k) as [->|NE].
      + rewrite Z.sub_diag, Z.mod_0_l by lia. reflexivity.
      + destruct (Z.eqb_spec ((Z.of_nat j - Z.of_nat k) mod Z.of_nat N) 0) as [E|E]; [|ring].
        exfalso. apply Z.mod_divide in E; [|lia]. destruct E as (q & E).
        assert (- Z.of_nat N < q * Z.of_nat N < Z.of_nat N)%Z by lia.
        assert (q = 0)%Z by nia. subst q. lia.
    - rewrite root_sum by exact H.
      destruct (Z.eqb_spec ((- Z.of_nat j - Z.of_nat k) mod Z.of_nat N) 0) as [E|E].
      + apply Z.mod_divide in E; [|lia]. destruct E as (q & E).
        assert (- Z.of_nat N < q * Z.of_nat N < Z.of_nat N)%Z by lia.
        assert (q = 0)%Z by nia. subst q.
        assert (j = 0)%nat as -> by lia. assert (k = 0)%nat as -> by lia. reflexivity.
      + destruct (Nat.eqb_spec j 0) as [->|]; [|cbn [andb]; ring]. destruct (Nat.eqb_spec k 0) as [->|]; [|cbn [andb]; ring].
        exfalso. apply E. reflexivity. }
  rewrite csum_plus. unfold trig_bin. destruct (Nat.eqb_spec k 0) as [->|NK].
  - rewrite (csum_single K _ 0%nat) by first [lia | intros j Hj NE; destruct (Nat.eqb_spec j 0); [lia|reflexivity]].
    rewrite (csum_single K _ 0%nat) by first [lia | intros j Hj NE; destruct (Nat.eqb_spec j 0); [lia|reflexivity]].
    cbn [Nat.eqb andb]. destruct (c 0%nat) as [a b]. apply injective_projections; cbn; field.
  - rewrite (csum_zero K (fun j => if (Nat.eqb j 0 && false)%bool then _ else _)).
    2:{ intros j _. now rewrite Bool.andb_false_r. }
    destruct (Nat.ltb_spec k K) as [L|L].
    + rewrite (csum_single K _ k) by first [lia | intros j Hj NE; destruct (Nat.eqb_spec j k); [lia|reflexivity]].
      rewrite Nat.eqb_refl. destruct (c k) as [a b]. apply injective_projections; cbn; field.
    + rewrite csum_zero; [ring|]. intros j Hj. destruct (Nat.eqb_spec j k); [lia|reflexivity].
Qed.

Lemma trig_inverse c K A M s n : (1 <= K)%nat -> (2 * (K - 1) < M)%nat ->
  (forall k, (k <= M / 2)%nat -> s k = trig_bin c K A k) ->
  Re (dft 1 M (hermitian M s) n) = A * trig c K M n.
Proof.
  intros HK HM E. assert (H : (1 <= M)%nat) by lia. destruct (halves M H) as (E1 & E2).
  rewrite half_formula_Re by exact H.
  assert (Q : (if Nat.even M then Re (Cmult (s (M / 2)%nat) (root M (Z.of_nat (M / 2) * Z.of_nat n))) else 0) = 0).
  { destruct (Nat.even M); [|reflexivity]. rewrite E by lia. unfold trig_bin.
    destruct (Nat.eqb_spec (M / 2) 0); [lia|]. destruct (Nat.ltb_spec (M / 2) K); [lia|]. cbn. ring. }
  rewrite Q. rewrite E by lia. unfold trig_bin at 1. cbn [Nat.eqb]. unfold trig.
  destruct K as [|K]; [lia|]. rewrite rsumn_S_l.
  rewrite (rsumn_extend K ((M - 1) / 2)).
  - rewrite (rsumn_ext K _ (fun j => A * Re (Cmult (c (S j)) (root M (Z.of_nat (S j) * Z.of_nat n))))).
    + rewrite rsumn_scal. change (Z.of_nat 0 * Z.of_nat n)%Z with 0%Z. rewrite root_0, Cmult_1_r. cbn [Re RtoC fst]. ring.
    + intros j Hj. rewrite E by (destruct (Nat.even M); lia). unfold trig_bin. cbn [Nat.eqb]. destruct (Nat.ltb_spec (S j) (S K)); [|lia].
      set (r := root _ _). clearbody r. destruct (c (S j)) as [a b], r as [a' b']. cbn. field.
  - destruct (Nat.even M); lia.
  - intros j Hj. rewrite E by (destruct (Nat.even M); lia). unfold trig_bin. cbn [Nat.eqb]. destruct (Nat.ltb_spec (S j) (S K)); [lia|]. cbn. ring.
Qed.

(* --- convolution --- *)
Definition rf (f : nat -> R) (n : nat) : C := RtoC (f n).
Lemma conv_dft M f g p q k : (1 <= M)%nat -> (p + q < M)%nat -> (forall n, (p < n)%nat -> f n = 0) -> (forall n, (q < n)%nat -> g n = 0) ->
  (k < M)%nat -> dft (-1) M (rf (conv f g)) k = Cmult (dft (-1) M (rf f) k) (dft (-1) M (rf g) k).
Proof.
  intros H HM Hf Hg Hk.
  assert (P : RtoC (INR M) <> RtoC 0) by (apply RtoC_inj_neq, INR_neq; lia).
  set (FG := fun k => Cmult (dft (-1) M (rf f) k) (dft (-1) M (rf g) k)).
  assert (C : forall m, (m < M)%nat -> dft 1 M FG m = Cmult (RtoC (INR M)) (rf (conv f g) m)).
  { intros m Hm. unfold FG. rewrite circular_convolution by exact H. f_equal. unfold rf, conv. rewrite <- csum_RtoC.
    rewrite (csum_extend (S m) M); [|lia|].
    - apply csum_ext. intros n Hn. rewrite RtoC_mult. f_equal. unfold cidx. rewrite Z.mod_small by lia.
      do 2 f_equal. lia.
    - intros n Hn. unfold cidx. destruct (Nat.le_gt_cases n p) as [L|L].
      + rewrite <- (Z.mod_unique (Z.of_nat m - Z.of_nat n) (Z.of_nat M) (-1) (Z.of_nat M + Z.of_nat m - Z.of_nat n)) by lia.
        rewrite (Hg (Z.to_nat _)) by lia. ring.
      + rewrite (Hf n) by exact L. ring. }
  pose proof (dft_inverse (-1) M FG k H Hk ltac:(right; reflexivity)) as I. change (- -1)%Z with 1%Z in I.
  rewrite (dft_ext _ _ _ _ _ C) in I.
  unfold dft in I at 1.
  rewrite (csum_ext M _ (fun n => Cmult (RtoC (INR M)) (Cmult (rf (conv f g) n) (root M (-1 * Z.of_nat k * Z.of_nat n))))) in I by (intros; ring).
  rewrite csum_scal in I. fold (dft (-1) M (rf (conv f g)) k) in I.
  change (Cmult (dft (-1) M (rf f) k) (dft (-1) M (rf g) k)) with (FG k).
  set (u := dft (-1) M (rf (conv f g)) k) in *. set (v := FG k) in *. clearbody u v.
  replace u with (Cmult (Cinv (RtoC (INR M))) (Cmult (RtoC (INR M)) u)) by (field; exact P).
  rewrite I. field. exact P.
Qed.

Lemma conv_support f g p q n : (forall n, (p < n)%nat -> f n = 0) -> (forall n, (q < n)%nat -> g n = 0) ->
  (p + q < n)%nat -> conv f g n = 0.
Proof.
  intros Hf Hg H. unfold conv. apply rsumn_zero. intros k Hk. destruct (Nat.le_gt_cases k p) as [L|L].
  - rewrite (Hg (n - k)%nat) by lia. ring.
  - rewrite (Hf k) by exact L. ring.
Qed.
Lemma conv_power_support f p m n : (forall n, (p < n)%nat -> f n = 0) -> (p * m < n)%nat -> conv_power f m n = 0.
Proof.
  intros Hf. revert n. induction m as [|m IH]; intros n H; cbn [conv_power].
  - destruct (Nat.eqb_spec n 0); [lia|reflexivity].
  - apply (conv_support f _ p (p * m)); [exact Hf|exact IH|lia].
Qed.
Lemma conv_power_dft M f p m k : (forall n, (p < n)%nat -> f n = 0) -> (p * m < M)%nat -> (k < M)%nat ->
  dft (-1) M (rf (conv_power f m)) k = cpow (dft (-1) M (rf f) k) m.
Proof.
  intros Hf. revert k. induction m as [|m IH]; intros k HM Hk; cbn [conv_power cpow].
  - unfold dft. rewrite (csum_single M _ 0%nat).
    + unfold rf. cbn [Nat.eqb]. change (Z.of_nat 0) with 0%Z. rewrite Z.mul_0_r, root_0. ring.
    + lia.
    + intros j Hj NE. unfold rf. destruct (Nat.eqb_spec j 0); [lia|]. ring.
  - rewrite (conv_dft M f _ p (p * m)) by (try lia; try exact Hf; intros j Hj; now apply (conv_power_support f p)).
    rewrite IH by lia. reflexivity.
Qed.

(* Recovering a real signal from its half spectrum. *)
Lemma real_recover N (x : nat -> R) s n : (1 <= N)%nat -> (n < N)%nat ->
  (forall j, (j <= N / 2)%nat -> s j = dft (-1) N (rf x) j) ->
  Re (dft 1 N (hermitian N s) n) = INR N * x n.
Proof.
  intros H Hn E.
  rewrite (dft_ext 1 N (hermitian N s) (dft (-1) N (rf x)) n).
  - change (-1)%Z with (- (1))%Z. rewrite dft_inverse by (try lia; left; reflexivity). unfold rf. cbn. ring.
  - intros k Hk. now apply hermitian_dft.
Qed.

(* Recovering a half spectrum from the signal. *)
Lemma spectrum_recover N s (y : nat -> R) k : (1 <= N)%nat -> (k <= N / 2)%nat -> Im (s 0%nat) = 0 ->
  (Nat.even N = true -> Im (s (N / 2)%nat) = 0) ->
  (forall n, (n < N)%nat -> y n = Re (dft 1 N (hermitian N s) n) / INR N) ->
  dft (-1) N (rf y) k = s k.
Proof.
  intros H Hk H0 HN Y. destruct (halves N H) as (E1 & E2).
  assert (P : RtoC (INR N) <> RtoC 0) by (apply RtoC_inj_neq, INR_neq; lia).
  assert (kN : (k < N)%nat) by (destruct (Nat.even N); lia).
  pose proof (dft_inverse (-1) N (hermitian N s) k H kN ltac:(right; reflexivity)) as I. change (- -1)%Z with 1%Z in I.
  assert (HK : hermitian N s k = s k) by (unfold hermitian; destruct (Nat.leb_spec k (N / 2)); [reflexivity|lia]).
  rewrite HK in I.
  rewrite (dft_ext (-1) N _ (fun n => Cmult (RtoC (INR N)) (rf y n)) k) in I.
  2:{ intros n Hn. rewrite dft_of_hermitian_real by assumption. unfold rf. rewrite Y by exact Hn.
      rewrite <- RtoC_mult. f_equal. field. now apply INR_neq. }
  unfold dft in I.
  rewrite (csum_ext N _ (fun n => Cmult (RtoC (INR N)) (Cmult (rf y n) (root N (-1 * Z.of_nat k * Z.of_nat n))))) in I by (intros; ring).
  rewrite csum_scal in I. fold (dft (-1) N (rf y) k) in I.
  set (u := dft (-1) N (rf y) k) in *. clearbody u.
  replace u with (Cmult (Cinv (RtoC (INR N))) (Cmult (RtoC (INR N)) u)) by (field; exact P).
  rewrite I. field. exact P.
Qed.

(* The DC and Nyquist bins of a real signal are real. *)
Lemma dft_dc_real N (x : nat -> R) : Im (dft (-1) N (rf x) 0) = 0.
Proof.
  unfold dft. rewrite (csum_ext N _ (fun n => RtoC (x n))).
  - now rewrite csum_RtoC.
  - intros n _. change (Z.of_nat 0) with 0%Z. rewrite Z.mul_0_r, Z.mul_0_l, root_0. unfold rf. ring.
Qed.
Lemma dft_nyquist_real N (x : nat -> R) : (1 <= N)%nat -> Nat.even N = true -> Im (dft (-1) N (rf x) (N / 2)) = 0.
Proof.
  intros H E. destruct (halves N H) as (E1 & E2). rewrite E in *.
  pose proof (dft_hermitian N x (N / 2) H ltac:(lia)) as D. replace (N - N / 2)%nat with (N / 2)%nat in D by lia.
  fold (rf x) in D. change (fun n => RtoC (x n)) with (rf x) in D. set (z := dft (-1) N (rf x) (N / 2)) in *. clearbody z.
  destruct z as [a b]. cbn in *. injection D as D. lra.
Qed.
