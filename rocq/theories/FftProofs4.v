(* The transformer objects, convolutions and resampling in terms of the DFT. *)
From Coq Require Import ZArith Reals Arith Lia Lra ZifyBool ZifyNat.
From Verif Require Import Common CInt ListLemmas NthLemmas RealUtil MfccModel MfccProofs FftModel FftSpec FftProofs FftProofs2 FftProofs3.
From Coquelicot Require Import Complex.
Local Open Scope R_scope.

Lemma nth_map_R (h : R -> R) l n : (n < length l)%nat -> nth n (map h l) 0 = h (nth n l 0).
Proof. intros H. rewrite (nth_indep _ 0 (h 0)) by (rewrite map_length; exact H). apply map_nth. Qed.
Lemma half_lt N : (1 <= N)%nat -> (N / 2 < N)%nat.
Proof. intros. apply Nat.div_lt; lia. Qed.
Lemma list_R_ext l l' : length l = length l' -> (forall n, (n < length l)%nat -> nth n l 0 = nth n l' 0) -> l = l'.
Proof. intros L H. apply (nth_ext l l' 0 0); assumption. Qed.

Lemma cast_int_IZR z : (0 <= z <= INT_MAX)%Z -> cast_int (IZR z) = Ok z.
Proof.
  intros H. unfold cast_int. rewrite Rleb_true by (apply IZR_le; lia).
  rewrite (Int_part_unique (IZR z) z) by lra.
  unfold oguard. rewrite (proj2 (andb_true_iff _ _)); [reflexivity|].
  split; apply Z.leb_le; [unfold INT_MIN; lia|lia].
Qed.

Section Api.
Context (kiss_fft : bool -> nat -> list C -> list C)
        (kiss_fftr : nat -> list R -> list C)
        (kiss_fftri : nat -> list C -> list R)
        (next_fast_size next_fast_size_real : nat -> nat).
Hypothesis K : kiss_spec kiss_fft kiss_fftr kiss_fftri next_fast_size next_fast_size_real.

Lemma complex_api size : (0 < size)%Z ->
  exists t, complex_new kiss_fft next_fast_size size = Ok t /\
    (forall x, length x = Z.to_nat size ->
       (exists X, complex_forward kiss_fft t x = Ok X /\ lists (Z.to_nat size) (dft (-1) (Z.to_nat size) (at_ x)) X) /\
       (forall nrm : bool, exists y, complex_inverse kiss_fft t nrm x = Ok y /\
          lists (Z.to_nat size) (fun n => Cmult (RtoC (if nrm then 1 / INR (Z.to_nat size) else 1)) (dft 1 (Z.to_nat size) (at_ x) n)) y)) /\
    (forall x nrm, length x <> Z.to_nat size ->
       complex_forward kiss_fft t x = CheckFail /\ complex_inverse kiss_fft t nrm x = CheckFail).
Proof.
  intros H. destruct (complex_new_good _ _ _ _ _ K size H) as (t & E & (S & F & I)). exists t. split; [exact E|]. split.
  - intros x L. split.
    + unfold complex_forward, ocheck. rewrite S, L, Nat.eqb_refl. eexists. split; [reflexivity|]. now apply F.
    + intros nrm. unfold complex_inverse, ocheck. rewrite S, L, Nat.eqb_refl. eexists. split; [reflexivity|].
      specialize (I x L). destruct nrm.
      * eapply map_lists; [|exact I]. intros k _. reflexivity.
      * eapply lists_ext; [|exact I]. intros k _. cbn beta. ring.
  - intros x nrm L. unfold complex_forward, complex_inverse, ocheck. rewrite S.
    destruct (Nat.eqb_spec (length x) (Z.to_nat size)); [contradiction|]. now split.
Qed.

Lemma real_api size : (0 < size)%Z ->
  exists t, real_new kiss_fft next_fast_size size = Ok t /\ ri_size t = Z.to_nat size /\
    (forall x, length x = Z.to_nat size ->
       exists X, real_forward kiss_fft kiss_fftr t x = Ok X /\
         lists (Z.to_nat size / 2 + 1) (dft (-1) (Z.to_nat size) (rat x)) X) /\
    (forall s (nrm : bool), length s = (Z.to_nat size / 2 + 1)%nat ->
       exists y, real_inverse kiss_fft kiss_fftri t nrm s = Ok y /\ length y = Z.to_nat size /\
         forall n, (n < Z.to_nat size)%nat ->
           nth n y 0 = (if nrm then 1 / INR (Z.to_nat size) else 1) * Re (dft 1 (Z.to_nat size) (hermitian (Z.to_nat size) (at_ s)) n)) /\
    (forall x, length x <> Z.to_nat size -> real_forward kiss_fft kiss_fftr t x = CheckFail) /\
    (forall s nrm, length s <> (Z.to_nat size / 2 + 1)%nat -> real_inverse kiss_fft kiss_fftri t nrm s = CheckFail).
Proof.
  intros H. destruct (real_new_good _ _ _ _ _ K size H) as (t & E & (S & F & I)). exists t. split; [exact E|].
  split; [exact S|]. split; [|split; [|split]].
  - intros x L. unfold real_forward, ocheck. rewrite S, L, Nat.eqb_refl. eexists. split; [reflexivity|]. now apply F.
  - intros s nrm L. unfold real_inverse, ocheck. rewrite S, L, Nat.eqb_refl.
    destruct (I s L) as (y & Ey & Ly & V). rewrite Ey. cbn [obind]. eexists. split; [reflexivity|].
    destruct nrm.
    + split; [now rewrite map_length|]. intros n Hn. rewrite nth_map_R by lia. now rewrite V.
    + split; [exact Ly|]. intros n Hn. rewrite V by exact Hn. ring.
  - intros x L. unfold real_forward, ocheck. rewrite S. destruct (Nat.eqb_spec (length x) (Z.to_nat size)); [contradiction|reflexivity].
  - intros s nrm L. unfold real_inverse, ocheck. rewrite S.
    destruct (Nat.eqb_spec (length s) (Z.to_nat size / 2 + 1)); [contradiction|reflexivity].
Qed.

(* --- convolution --- *)
Lemma linear_convolution_ok a b : a <> [] -> b <> [] ->
  exists c, linear_convolution kiss_fft kiss_fftr kiss_fftri next_fast_size next_fast_size_real a b = Ok c /\
    length c = (length a + length b - 1)%nat /\
    forall n, (n < length c)%nat -> nth n c 0 = conv (fun k => nth k a 0) (fun k => nth k b 0) n.
Proof.
  intros Ha Hb. assert (La : (1 <= length a)%nat) by (destruct a; [contradiction|cbn; lia]).
  assert (Lb : (1 <= length b)%nat) by (destruct b; [contradiction|cbn; lia]).
  unfold linear_convolution. pose proof K as (_ & _ & _ & _ & NF).
  pose proof (NF (length a + length b - 1)%nat) as HM. set (M := next_fast_size_real _) in *. clearbody M.
  destruct (real_api (Z.of_nat M) ltac:(lia)) as (t & E & _ & F & I & _). rewrite Nat2Z.id in *.
  rewrite E. cbn [obind].
  destruct (F (vresize 0 M a) (vresize_length 0 M a)) as (X & EX & VX). rewrite EX. cbn [obind].
  destruct (F (vresize 0 M b) (vresize_length 0 M b)) as (Y & EY & VY). rewrite EY. cbn [obind].
  pose proof (times_lists _ _ _ _ _ VX VY) as T.
  destruct (I (times X Y) true (lists_len _ _ _ T)) as (c & Ec & Lc & Vc). rewrite Ec. cbn [obind].
  eexists. split; [reflexivity|]. split; [apply vresize_length|]. intros n Hn. rewrite vresize_length in Hn.
  rewrite nth_vresize by exact Hn. rewrite Vc by lia.
  rewrite (real_recover M (conv (fun k => nth k a 0) (fun k => nth k b 0))).
  - field. apply INR_neq. lia.
  - lia.
  - lia.
  - intros j Hj. pose proof (half_lt M ltac:(lia)).
    rewrite (lists_at _ _ _ _ T) by lia.
    rewrite (conv_dft M _ _ (length a - 1) (length b - 1)) by (try lia; intros k Hk; apply nth_overflow; lia).
    f_equal; apply dft_ext; intros k Hk; unfold rat, rf; now rewrite nth_vresize.
Qed.

Lemma linear_convolution_times_ok a num_times : a <> [] -> (0 < num_times)%Z ->
  exists c, linear_convolution_times kiss_fft kiss_fftr kiss_fftri next_fast_size next_fast_size_real a num_times = Ok c /\
    length c = ((length a - 1) * Z.to_nat num_times + 1)%nat /\
    forall n, (n < length c)%nat -> nth n c 0 = conv_power (fun k => nth k a 0) (Z.to_nat num_times) n.
Proof.
  intros Ha Hm. assert (La : (1 <= length a)%nat) by (destruct a; [contradiction|cbn; lia]).
  unfold linear_convolution_times, ocheck. destruct (Z.ltb_spec 0 num_times); [|lia].
  pose proof K as (_ & _ & _ & _ & NF).
  pose proof (NF ((length a - 1) * Z.to_nat num_times + 1)%nat) as HM. set (M := next_fast_size_real _) in *. clearbody M.
  remember ((length a - 1) * Z.to_nat num_times)%nat as d eqn:Ed.
  destruct (real_api (Z.of_nat M) ltac:(lia)) as (t & E & _ & F & I & _). rewrite Nat2Z.id in *.
  rewrite E. cbn [obind].
  destruct (F (vresize 0 M a) (vresize_length 0 M a)) as (X & EX & VX). rewrite EX. cbn [obind].
  assert (T : lists (M / 2 + 1) (fun k => cpow (dft (-1) M (rat (vresize 0 M a)) k) (Z.to_nat num_times))
                (map (fun z => cpow z (Z.to_nat num_times)) X)).
  { eapply map_lists; [|exact VX]. reflexivity. }
  destruct (I _ true (lists_len _ _ _ T)) as (c & Ec & Lc & Vc). rewrite Ec. cbn [obind].
  eexists. split; [reflexivity|]. split; [apply vresize_length|]. intros n Hn. rewrite vresize_length in Hn.
  rewrite nth_vresize by exact Hn. rewrite Vc by lia.
  rewrite (real_recover M (conv_power (fun k => nth k a 0) (Z.to_nat num_times))).
  - field. apply INR_neq. lia.
  - lia.
  - lia.
  - intros j Hj. pose proof (half_lt M ltac:(lia)).
    rewrite (lists_at _ _ _ _ T) by lia.
    rewrite (conv_power_dft M _ (length a - 1)) by (try (rewrite <- Ed); try lia; intros k Hk; apply nth_overflow; lia).
    f_equal; apply dft_ext; intros k Hk; unfold rat, rf; now rewrite nth_vresize.
Qed.

(* --- resampling --- *)
Lemma halve_back_length s : s <> [] -> length (halve_back s) = length s.
Proof. intros H. destruct s as [|x s]; [contradiction|]. unfold halve_back. rewrite app_length, firstn_length. cbn [length]. lia. Qed.
Lemma at_halve_back s k : s <> [] -> at_ (halve_back s) k = if Nat.eqb k (length s - 1) then Cdiv (at_ s k) (RtoC 2) else at_ s k.
Proof.
  intros H. assert (L : (1 <= length s)%nat) by (destruct s; [contradiction|cbn; lia]).
  unfold at_, halve_back. destruct (Nat.eqb_spec k (length s - 1)) as [->|NE].
  - rewrite app_nth2; rewrite firstn_length; [|lia]. replace (length s - 1 - _)%nat with 0%nat by lia. reflexivity.
  - destruct (Nat.lt_ge_cases k (length s)) as [Lt|Ge].
    + rewrite app_nth1 by (rewrite firstn_length; lia). apply nth_firstn. lia.
    + rewrite !nth_overflow; [reflexivity|lia|rewrite app_length, firstn_length; cbn [length]; lia].
Qed.
Lemma root_scale N f a : (1 <= N)%nat -> (1 <= f)%nat -> root (N * f) (a * Z.of_nat f) = root N a.
Proof.
  intros HN Hf. unfold root. rewrite mult_INR, mult_IZR, <- (INR_IZR_INZ f).
  replace (2 * PI * (IZR a * INR f) / (INR N * INR f)) with (2 * PI * IZR a / INR N) by (field; split; now apply INR_neq).
  reflexivity.
Qed.

Lemma upsample_spec x factor : x <> [] -> (2 <= factor)%Z ->
  exists r, upsample kiss_fft kiss_fftr kiss_fftri next_fast_size x factor = Ok r /\
    length r = (length x * Z.to_nat factor)%nat /\
    (exists s, (forall k, s k = if Nat.leb k (length x / 2) then
                    (if (Nat.even (length x) && Nat.eqb k (length x / 2))%bool
                     then Cdiv (dft (-1) (length x) (rat x) k) (RtoC 2) else dft (-1) (length x) (rat x) k)
                    else RtoC 0) /\
       forall n, (n < length r)%nat ->
         nth n r 0 = 1 / INR (length x) * Re (dft 1 (length x * Z.to_nat factor) (hermitian (length x * Z.to_nat factor) s) n)).
Proof.
  intros Hx Hf. assert (L : (1 <= length x)%nat) by (destruct x; [contradiction|cbn; lia]).
  unfold upsample. set (N := length x) in *.
  destruct (real_api (Z.of_nat N) ltac:(lia)) as (t & E & _ & F & _). rewrite Nat2Z.id in *. rewrite E. cbn [obind].
  destruct (F x eq_refl) as (X & EX & VX). rewrite EX. cbn [obind].
  destruct (real_api (Z.of_nat N * factor) ltac:(lia)) as (t' & E' & S' & _ & I & _). rewrite E'. cbn [obind].
  replace (Z.to_nat (Z.of_nat N * factor)) with (N * Z.to_nat factor)%nat in * by lia.
  rewrite S'. set (M := (N * Z.to_nat factor)%nat) in *.
  set (s := if Nat.even N then halve_back X else X).
  assert (LX := lists_len _ _ _ VX).
  assert (XN : X <> []) by (destruct X; [cbn in LX; lia|discriminate]).
  destruct (I (vresize (RtoC 0) (M / 2 + 1) s) false (vresize_length _ _ _)) as (r & Er & Lr & Vr). rewrite Er. cbn [obind].
  eexists. split; [reflexivity|]. split; [rewrite map_length; exact Lr|].
  exists (fun k => at_ s k). split.
  - intros k. unfold s. destruct (Nat.leb_spec k (N / 2)) as [Lk|Lk].
    + destruct (Nat.even N).
      * rewrite at_halve_back by exact XN. replace (length X - 1)%nat with (N / 2)%nat by lia. cbn [andb].
        rewrite (lists_at _ _ _ _ VX) by lia. reflexivity.
      * cbn [andb]. apply (lists_at _ _ _ _ VX). lia.
    + apply at_beyond. destruct (Nat.even N); [rewrite halve_back_length by exact XN|]; lia.
  - intros n Hn. rewrite map_length in Hn. rewrite nth_map_R by exact Hn. rewrite Vr by lia. rewrite Rmult_1_l. f_equal. f_equal.
    apply dft_ext. intros k Hk. pose proof (half_lt M ltac:(lia)).
    destruct (halves M ltac:(lia)) as (H1 & H2). assert (HL : (M - M / 2 <= M / 2 + 1)%nat) by (destruct (Nat.even M); lia).
    unfold hermitian. destruct (Nat.leb_spec k (M / 2)); unfold at_; rewrite nth_vresize by lia; reflexivity.
Qed.

Lemma upsample_interpolates x factor r m : x <> [] -> (2 <= factor)%Z ->
  upsample kiss_fft kiss_fftr kiss_fftri next_fast_size x factor = Ok r -> (m < length x)%nat ->
  nth (m * Z.to_nat factor) r 0 = nth m x 0.
Proof.
  intros Hx Hf E Hm. destruct (upsample_spec x factor Hx Hf) as (r' & E' & L & s & Es & V).
  assert (r' = r) by congruence. subst r'. clear E E'. set (N := length x) in *. set (f := Z.to_nat factor) in *.
  assert (F : (2 <= f)%nat) by lia. assert (N1 : (1 <= N)%nat) by lia.
  rewrite V by (rewrite L; apply Nat.mul_lt_mono_pos_r; lia).
  assert (G : Re (dft 1 (N * f) (hermitian (N * f) s) (m * f)) = INR N * nth m x 0).
  { rewrite <- (real_recover N (fun n => nth n x 0) (dft (-1) N (rat x)) m N1 Hm) by reflexivity.
    destruct (halves N N1) as (H1 & H2).
    assert (M1 : (1 <= N * f)%nat) by nia. destruct (halves (N * f) M1) as (H3 & H4).
    assert (BIG : (2 * N <= N * f)%nat) by nia.
    rewrite half_formula_Re by exact M1. rewrite half_formula_Re by exact N1.
    assert (Q : (if Nat.even (N * f) then Re (Cmult (s (N * f / 2)%nat) (root (N * f) (Z.of_nat (N * f / 2) * Z.of_nat (m * f)))) else 0) = 0).
    { destruct (Nat.even (N * f)); [|reflexivity]. rewrite Es. destruct (Nat.leb_spec (N * f / 2) (N / 2)); [lia|]. cbn. ring. }
    rewrite Q. clear Q.
    assert (R0 : forall k, root (N * f) (Z.of_nat k * Z.of_nat (m * f)) = root N (Z.of_nat k * Z.of_nat m)).
    { intros k. rewrite Nat2Z.inj_mul, Z.mul_assoc. apply root_scale; lia. }
    rewrite (rsumn_extend (N / 2) ((N * f - 1) / 2)).
    2:{ destruct (Nat.even (N * f)), (Nat.even N); lia. }
    2:{ intros k Hk. rewrite Es. destruct (Nat.leb_spec (S k) (N / 2)); [lia|]. cbn. ring. }
    rewrite H2 at 1. rewrite rsumn_app.
    assert (S0 : s 0%nat = dft (-1) N (rat x) 0 \/ (Nat.even N = true /\ (N / 2 = 0)%nat)).
    { rewrite Es. cbn [Nat.leb]. destruct (Nat.even N) eqn:EV; [|left; reflexivity].
      destruct (Nat.eqb_spec 0 (N / 2)); [right; lia|left; reflexivity]. }
    destruct S0 as [S0|(EV & S0)]; [|rewrite EV in *; lia].
    rewrite S0.
    rewrite (rsumn_ext ((N - 1) / 2) _ (fun j => 2 * Re (Cmult (dft (-1) N (rat x) (S j)) (root N (Z.of_nat (S j) * Z.of_nat m))))).
    2:{ intros j Hj. rewrite Es, R0. destruct (Nat.leb_spec (S j) (N / 2)); [|lia].
        destruct (Nat.eqb_spec (S j) (N / 2)) as [EE|EE]; [|now rewrite Bool.andb_false_r].
        destruct (Nat.even N); [lia|reflexivity]. }
    destruct (Nat.even N) eqn:EV.
    - cbn [rsumn]. rewrite R0, Es. replace (S ((N - 1) / 2 + 0)) with (N / 2)%nat by lia. rewrite Nat.leb_refl, Nat.eqb_refl. cbn [andb].
      set (z := dft (-1) N (rat x) (N / 2)). set (w := root _ _).
      replace (Cdiv z (RtoC 2)) with (Cmult (RtoC (/ 2)) z).
      2:{ unfold Cdiv. rewrite RtoC_inv by lra. ring. }
      set (a := Re (dft _ _ _ 0)). set (b := rsumn _ _). clearbody a b z w. destruct z as [z1 z2], w as [w1 w2].
      unfold Re, Cmult, RtoC. cbn [fst snd]. field.
    - cbn [rsumn]. ring. }
  rewrite G. field. now apply INR_neq.
Qed.

Lemma trig_bin_scale c K1 A k : trig_bin c K1 A k = trig_bin (fun j => Cmult (RtoC A) (c j)) K1 1 k.
Proof.
  unfold trig_bin. destruct (Nat.eqb k 0).
  - f_equal. destruct (c 0%nat) as [a b]. cbn. ring.
  - destruct (Nat.ltb k K1); [|reflexivity]. destruct (c k) as [a b]. apply injective_projections; cbn; field.
Qed.

Lemma rat_trig x c K1 N : (forall n, (n < N)%nat -> nth n x 0 = trig c K1 N n) ->
  forall n, (n < N)%nat -> rat x n = RtoC (trig c K1 N n).
Proof. intros H n Hn. unfold rat. now rewrite H. Qed.

Lemma upsample_trig x factor c K1 : x <> [] -> (2 <= factor)%Z -> (1 <= K1)%nat -> (2 * (K1 - 1) < length x)%nat ->
  (forall n, (n < length x)%nat -> nth n x 0 = trig c K1 (length x) n) ->
  exists r, upsample kiss_fft kiss_fftr kiss_fftri next_fast_size x factor = Ok r /\
    length r = (length x * Z.to_nat factor)%nat /\
    forall n, (n < length r)%nat -> nth n r 0 = trig c K1 (length r) n.
Proof.
  intros Hx Hf HK HN HT. destruct (upsample_spec x factor Hx Hf) as (r & E & L & s & Es & V).
  exists r. split; [exact E|]. split; [exact L|]. intros n Hn. rewrite V by exact Hn. rewrite L.
  set (N := length x) in *. set (f := Z.to_nat factor) in *. assert (2 <= f)%nat by lia.
  assert (2 * N <= N * f)%nat by nia.
  rewrite (trig_inverse c K1 (INR N)).
  - field. apply INR_neq. lia.
  - exact HK.
  - lia.
  - intros k Hk. rewrite Es. destruct (halves N ltac:(lia)) as (H1 & H2).
    destruct (Nat.leb_spec k (N / 2)) as [Lk|Lk].
    + assert (D : dft (-1) N (rat x) k = trig_bin c K1 (INR N) k).
      { rewrite (dft_ext (-1) N _ (fun n => RtoC (trig c K1 N n))) by (now apply rat_trig). now apply trig_dft. }
      destruct (Nat.even N) eqn:EV; cbn [andb]; [|exact D].
      destruct (Nat.eqb_spec k (N / 2)) as [->|]; [|exact D]. rewrite D. unfold trig_bin.
      destruct (Nat.eqb_spec (N / 2) 0); [lia|]. destruct (Nat.ltb_spec (N / 2) K1); [lia|].
      unfold Cdiv. ring.
    + unfold trig_bin. destruct (Nat.eqb_spec k 0); [lia|]. destruct (Nat.ltb_spec k K1); [|reflexivity].
      destruct (Nat.even N); lia.
Qed.

Lemma periodic_resample_trig x in_rate out_rate c K1 M :
  x <> [] -> 0 < in_rate -> 0 < out_rate ->
  (Z.of_nat (length x) <= INT_MAX)%Z -> (1 <= Z.of_nat M <= INT_MAX)%Z ->
  INR M - 1 / 2 <= INR (length x) * (out_rate / in_rate) < INR M + 1 / 2 ->
  (1 <= K1)%nat -> (2 * (K1 - 1) < length x)%nat -> (2 * (K1 - 1) < M)%nat ->
  (forall n, (n < length x)%nat -> nth n x 0 = trig c K1 (length x) n) ->
  exists r, fft_periodic_resample kiss_fft kiss_fftr kiss_fftri next_fast_size x in_rate out_rate = Ok r /\
    length r = M /\ forall n, (n < M)%nat -> nth n r 0 = trig c K1 M n.
Proof.
  intros Hx Hi Ho LI MI HM HK HN HKM HT. unfold fft_periodic_resample, ocheck.
  rewrite (Rltb_true 0 in_rate), (Rltb_true 0 out_rate) by assumption. cbn [andb].
  rewrite (Int_part_unique _ (Z.of_nat M)) by (rewrite <- INR_IZR_INZ; lra).
  assert (CI : cast_int (IZR (Z.of_nat M)) = Ok (Z.of_nat M)).
  { apply cast_int_IZR. lia. }
  rewrite CI. cbn [obind].
  set (N := length x) in *. destruct (Z.eqb_spec (Z.of_nat M) (Z.of_nat N)) as [EQ|NE].
  { exists x. split; [reflexivity|]. assert (M = N) by lia. subst M. split; [reflexivity|]. exact HT. }
  destruct (real_api (Z.of_nat N) ltac:(lia)) as (t & E & _ & F & _). rewrite Nat2Z.id in *. rewrite E. cbn [obind].
  destruct (F x eq_refl) as (X & EX & VX). rewrite EX. cbn [obind].
  destruct (real_api (Z.of_nat M) ltac:(lia)) as (t' & E' & S' & _ & I & _). rewrite E'. cbn [obind].
  rewrite Nat2Z.id in *. rewrite S'.
  set (s := if (Nat.even N && (Z.of_nat N <? Z.of_nat M)%Z)%bool then halve_back X else X).
  assert (LX := lists_len _ _ _ VX).
  assert (XN : X <> []) by (destruct X; [cbn in LX; lia|discriminate]).
  destruct (I (vresize (RtoC 0) (M / 2 + 1) s) false (vresize_length _ _ _)) as (r & Er & Lr & Vr). rewrite Er. cbn [obind].
  eexists. split; [reflexivity|]. split; [rewrite map_length; exact Lr|].
  intros n Hn. rewrite nth_map_R by lia. rewrite Vr by exact Hn. rewrite Rmult_1_l.
  rewrite (trig_inverse c K1 (INR N)).
  - field. apply INR_neq. lia.
  - exact HK.
  - exact HKM.
  - intros k Hk. unfold at_ at 1. rewrite nth_vresize by lia. fold (at_ s k). destruct (halves N ltac:(lia)) as (H1 & H2).
    destruct (Nat.le_gt_cases k (N / 2)) as [Lk|Lk].
    + assert (D : at_ X k = trig_bin c K1 (INR N) k).
      { rewrite (lists_at _ _ _ _ VX) by lia.
        rewrite (dft_ext (-1) N _ (fun n => RtoC (trig c K1 N n))) by (now apply rat_trig). now apply trig_dft. }
      unfold s. destruct (Nat.even N) eqn:EV; cbn [andb]; [|exact D].
      destruct (Z.of_nat N <? Z.of_nat M)%Z; [|exact D].
      rewrite at_halve_back by exact XN. replace (length X - 1)%nat with (N / 2)%nat by lia.
      destruct (Nat.eqb_spec k (N / 2)) as [->|]; [|exact D]. rewrite D. unfold trig_bin.
      destruct (Nat.eqb_spec (N / 2) 0); [lia|]. destruct (Nat.ltb_spec (N / 2) K1); [lia|].
      unfold Cdiv. ring.
    + unfold trig_bin. destruct (Nat.eqb_spec k 0); [lia|]. destruct (Nat.ltb_spec k K1); [destruct (Nat.even N); lia|].
      apply at_beyond. unfold s. destruct (Nat.even N && _)%bool; [rewrite halve_back_length by exact XN|]; lia.
Qed.

(* --- Gaussian --- *)
Lemma gaussian_weights_spec f : forall s w r k0, r = exp (- f * (2 * INR k0 + 1)) ->
  gaussian_weights w r (exp (-2 * f)) s =
  map (fun p => Cmult (snd p) (RtoC (w * exp (- f * (INR (fst p) ^ 2 - INR k0 ^ 2))))) (combine (seq k0 (length s)) s).
Proof.
  induction s as [|x s IH]; intros w r k0 Hr; [reflexivity|]. cbn [gaussian_weights length seq combine map fst snd].
  f_equal.
  - replace (- f * (INR k0 ^ 2 - INR k0 ^ 2)) with 0 by ring. rewrite exp_0, Rmult_1_r. reflexivity.
  - rewrite (IH (w * r) (r * exp (-2 * f)) (S k0)).
    + apply map_ext_in. intros (k, y) Hin. cbn [fst snd]. do 2 f_equal. rewrite Rmult_assoc. f_equal.
      rewrite Hr, <- exp_plus. f_equal. rewrite S_INR. ring.
    + rewrite Hr, <- exp_plus. f_equal. rewrite S_INR. ring.
Qed.
Lemma gaussian_lists n g s f w : lists n g s ->
  lists n (fun k => Cmult (RtoC (w * exp (- f * INR k ^ 2))) (g k)) (gaussian_weights w (exp (- f)) (exp (-2 * f)) s).
Proof.
  intros (L & H). rewrite (gaussian_weights_spec f s w (exp (- f)) 0).
  2:{ f_equal. cbn. ring. }
  split; [rewrite map_length, combine_length, seq_length; lia|]. intros k Hk. unfold at_.
  rewrite (nth_indep _ (RtoC 0) ((fun p : nat * C => Cmult (snd p) (RtoC (w * exp (- f * (INR (fst p) ^ 2 - INR 0 ^ 2))))) (0%nat, RtoC 0)))
    by (rewrite map_length, combine_length, seq_length; lia).
  rewrite (map_nth (fun p : nat * C => Cmult (snd p) (RtoC (w * exp (- f * (INR (fst p) ^ 2 - INR 0 ^ 2)))))).
  rewrite combine_nth by (rewrite seq_length; reflexivity). cbn [fst snd]. rewrite seq_nth by lia.
  specialize (H k Hk). unfold at_ in H. rewrite H. change (0 + k)%nat with k.
  replace (- f * (INR k ^ 2 - INR 0 ^ 2)) with (- f * INR k ^ 2) by (change (INR 0) with 0; ring). apply Cmult_comm.
Qed.

Lemma gaussian_spec x sigma : x <> [] ->
  exists y, periodic_gaussian_convolution kiss_fft kiss_fftr kiss_fftri next_fast_size x sigma = Ok y /\
    length y = length x /\
    forall k, (k <= length x / 2)%nat ->
      dft (-1) (length x) (rat y) k = Cmult (RtoC (gauss_gain sigma (length x) k)) (dft (-1) (length x) (rat x) k).
Proof.
  intros Hx. assert (L : (1 <= length x)%nat) by (destruct x; [contradiction|cbn; lia]).
  unfold periodic_gaussian_convolution. set (N := length x) in *.
  destruct (real_api (Z.of_nat N) ltac:(lia)) as (t & E & _ & F & I & _). rewrite Nat2Z.id in *. rewrite E. cbn [obind].
  destruct (F x eq_refl) as (X & EX & VX). rewrite EX. cbn [obind].
  set (f := 2 * (PI * sigma / INR N) ^ 2).
  pose proof (gaussian_lists _ _ _ f (1 / INR N) VX) as G.
  replace (-2 * f) with (-2 * f) in G by ring.
  set (s := gaussian_weights _ _ _ _) in *. clearbody s.
  destruct (I s false (lists_len _ _ _ G)) as (y & Ey & Ly & Vy). exists y. split; [exact Ey|]. split; [exact Ly|].
  intros k Hk.
  assert (NZ := INR_neq N L).
  assert (GG : forall k, exp (- f * INR k ^ 2) = gauss_gain sigma N k).
  { intros j. unfold gauss_gain, f. f_equal. field. exact NZ. }
  set (s' := fun k => Cmult (RtoC (gauss_gain sigma N k)) (dft (-1) N (rat x) k)).
  change (dft (-1) N (rat y) k) with (dft (-1) N (rf (fun n => nth n y 0)) k).
  change (rat x) with (rf (fun n => nth n x 0)).
  rewrite (spectrum_recover N s' (fun n => nth n y 0) k L Hk).
  - reflexivity.
  - unfold s'. pose proof (dft_dc_real N (fun n => nth n x 0)) as D. change (rat x) with (rf (fun n => nth n x 0)).
    destruct (dft (-1) N (rf (fun n => nth n x 0)) 0) as [a b]. cbn in *. rewrite D. ring.
  - intros EV. unfold s'. pose proof (dft_nyquist_real N (fun n => nth n x 0) L EV) as D. change (rat x) with (rf (fun n => nth n x 0)).
    destruct (dft (-1) N (rf (fun n => nth n x 0)) (N / 2)) as [a b]. cbn in *. rewrite D. ring.
  - intros n Hn. rewrite Vy by exact Hn. rewrite Rmult_1_l.
    (* linearity in the factor 1/N *)
    rewrite !half_formula_Re by exact L. destruct (halves N L) as (H1 & H2).
    assert (SS : forall j, (j <= N / 2)%nat -> at_ s j = Cmult (RtoC (/ INR N)) (s' j)).
    { intros j Hj. rewrite (lists_at _ _ _ _ G) by lia. unfold s'. rewrite GG. rewrite RtoC_mult.
      replace (1 / INR N) with (/ INR N) by (field; exact NZ). ring. }
    rewrite SS by lia.
    rewrite (rsumn_ext ((N - 1) / 2) _ (fun j => / INR N * (2 * Re (Cmult (s' (S j)) (root N (Z.of_nat (S j) * Z.of_nat n)))))).
    2:{ intros j Hj. rewrite SS by (destruct (Nat.even N); lia). set (z := s' _). set (w := root _ _). clearbody z w.
        destruct z as [z1 z2], w as [w1 w2]. unfold Re, Cmult, RtoC. cbn [fst snd]. ring. }
    rewrite rsumn_scal. set (b := rsumn _ _). clearbody b.
    replace (if Nat.even N then Re (Cmult (at_ s (N / 2)) (root N (Z.of_nat (N / 2) * Z.of_nat n))) else 0)
      with (/ INR N * (if Nat.even N then Re (Cmult (s' (N / 2)%nat) (root N (Z.of_nat (N / 2) * Z.of_nat n))) else 0)).
    2:{ destruct (Nat.even N); [|ring]. rewrite SS by lia. set (z := s' _). set (w := root _ _). clearbody z w.
        destruct z as [z1 z2], w as [w1 w2]. unfold Re, Cmult, RtoC. cbn [fst snd]. ring. }
    set (c := if Nat.even N then _ else 0). clearbody c. destruct (s' 0%nat) as [z1 z2]. unfold Re, Cmult, RtoC. cbn [fst snd]. field. exact NZ.
Qed.
End Api.
