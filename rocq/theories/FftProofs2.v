(* Bluestein's algorithm and the transformer objects compute the DFT. *)
From Coq Require Import ZArith Reals Arith Lia Lra ZifyBool ZifyNat.
From Verif Require Import Common CInt ListLemmas NthLemmas RealUtil MfccModel MfccProofs FftModel FftSpec FftProofs.
From Coquelicot Require Import Complex.
Local Open Scope R_scope.

Lemma RtoC_inj_neq x : x <> 0 -> RtoC x <> RtoC 0.
Proof. intros H E. apply H. exact (RtoC_inj _ _ E). Qed.
Lemma INR_neq n : (1 <= n)%nat -> INR n <> 0.
Proof. intros. apply not_0_INR. lia. Qed.

(* --- lists as functions --- *)
Lemma lists_at n f l k : lists n f l -> (k < n)%nat -> at_ l k = f k.
Proof. intros (_ & H). apply H. Qed.
Lemma lists_len n f l : lists n f l -> length l = n.
Proof. intros (H & _). exact H. Qed.
Lemma lists_ext n f g l : (forall k, (k < n)%nat -> f k = g k) -> lists n f l -> lists n g l.
Proof. intros E (L & H). split; [exact L|]. intros k Hk. rewrite H by exact Hk. now apply E. Qed.
Lemma lists_self l : lists (length l) (at_ l) l.
Proof. split; auto. Qed.
Lemma lists_unique n f l l' : lists n f l -> lists n f l' -> l = l'.
Proof.
  intros (L & H) (L' & H'). apply (nth_ext l l' (RtoC 0) (RtoC 0)); [congruence|].
  intros k Hk. fold (at_ l k) (at_ l' k). rewrite H, H' by lia. reflexivity.
Qed.
Lemma at_beyond l k : (length l <= k)%nat -> at_ l k = RtoC 0.
Proof. intros H. unfold at_. now apply nth_overflow. Qed.
Lemma times_lists n f g a b : lists n f a -> lists n g b -> lists n (fun k => Cmult (f k) (g k)) (times a b).
Proof.
  intros (La & Ha) (Lb & Hb). unfold times. split; [rewrite map_length, combine_length; lia|].
  intros k Hk. unfold at_. rewrite (nth_indep _ (RtoC 0) ((fun p : C * C => Cmult (fst p) (snd p)) (RtoC 0, RtoC 0)))
    by (rewrite map_length, combine_length; lia).
  rewrite (map_nth (fun p : C * C => Cmult (fst p) (snd p))). rewrite combine_nth by lia.
  cbn [fst snd]. rewrite <- Ha, <- Hb by exact Hk. reflexivity.
Qed.
Lemma firstn_lists n m f l : (n <= m)%nat -> lists m f l -> lists n f (firstn n l).
Proof.
  intros H (L & A). split; [rewrite firstn_length; lia|]. intros k Hk. unfold at_.
  rewrite nth_firstn by exact Hk. apply A. lia.
Qed.
Lemma vresize_length {A} (d : A) n l : length (vresize d n l) = n.
Proof. unfold vresize. rewrite app_length, firstn_length, repeat_length. lia. Qed.
Lemma nth_vresize {A} (d : A) n l k : (k < n)%nat -> nth k (vresize d n l) d = nth k l d.
Proof.
  intros H. unfold vresize. destruct (Nat.lt_ge_cases k (length l)) as [L|L].
  - rewrite app_nth1 by (rewrite firstn_length; lia). now apply nth_firstn.
  - rewrite app_nth2 by (rewrite firstn_length; lia). rewrite (nth_overflow l) by exact L.
    apply nth_repeat.
Qed.
Lemma map_lists n f g l (h : C -> C) : (forall k, (k < n)%nat -> h (f k) = g k) -> lists n f l -> lists n g (map h l).
Proof.
  intros E (L & A). split; [now rewrite map_length|]. intros k Hk. unfold at_.
  rewrite (nth_indep _ (RtoC 0) (h (RtoC 0))) by (rewrite map_length; lia). rewrite map_nth.
  fold (at_ l k). rewrite A by exact Hk. now apply E.
Qed.
Lemma at_map_RtoC x k : at_ (map RtoC x) k = rat x k.
Proof. unfold at_, rat. apply (map_nth RtoC). Qed.
Lemma seq_lists n f : lists n f (map f (seq 0 n)).
Proof. split; [now rewrite map_length, seq_length|]. intros k Hk. unfold at_. now rewrite nth_map_seq. Qed.

(* --- the chirp --- *)
Definition sq (i : nat) : Z := (Z.of_nat i * Z.of_nat i)%Z.
Lemma cis_root s N : (1 <= N)%nat -> cis (IZR s * PI / INR N) = root (2 * N) s.
Proof.
  intros H. pose proof (INR_neq N H). unfold cis, root. rewrite mult_INR. change (INR 2) with 2.
  replace (2 * PI * IZR s / (2 * INR N)) with (IZR s * PI / INR N) by (field; assumption). reflexivity.
Qed.
Lemma chirp_loop_spec N s n i :
  chirp_loop n (root N (s * sq i)) (root N (s * (2 * Z.of_nat i + 1))) (root N (2 * s)) =
  map (fun j => root N (s * sq j)) (seq (S i) n).
Proof.
  revert i. induction n as [|n IH]; intros i; [reflexivity|]. cbn [chirp_loop seq map].
  rewrite !root_add. replace (s * sq i + s * (2 * Z.of_nat i + 1))%Z with (s * sq (S i))%Z by (unfold sq; lia).
  f_equal. replace (s * (2 * Z.of_nat i + 1) + 2 * s)%Z with (s * (2 * Z.of_nat (S i) + 1))%Z by lia. apply IH.
Qed.
Lemma chirp_spec s N : (1 <= N)%nat -> chirp (IZR s) N = map (fun j => root (2 * N) (s * sq j)) (seq 1 (N - 1)).
Proof.
  intros H. unfold chirp. rewrite cis_root by exact H. rewrite root_add.
  rewrite <- (root_0 (2 * N)). rewrite <- (chirp_loop_spec (2 * N) s (N - 1) 0). f_equal; f_equal; unfold sq; lia.
Qed.
Lemma chirp_full s N : (1 <= N)%nat ->
  RtoC 1 :: chirp (IZR s) N = map (fun j => root (2 * N) (s * sq j)) (seq 0 N).
Proof.
  intros H. rewrite chirp_spec by exact H. destruct N as [|n]; [lia|]. cbn [seq map]. replace (S n - 1)%nat with n by lia.
  f_equal. rewrite <- (root_0 (2 * S n)). f_equal. unfold sq. lia.
Qed.

(* --- the filter b --- *)
Definition bfun (s : Z) (M N k : nat) : C :=
  if Nat.ltb k N then root (2 * N) (s * sq k)
  else if Nat.ltb (M - k) N then root (2 * N) (s * sq (M - k)) else RtoC 0.

Lemma b_writes_spec M (f : nat -> C) : forall n i b,
  length b = M -> (1 <= i)%nat -> (2 * (i + n) < M + 2)%nat -> (i + n <= M)%nat ->
  exists b', b_writes M i (map f (seq i n)) b = Ok b' /\ length b' = M /\
    forall k, (k < M)%nat -> at_ b' k =
      if (Nat.leb i k && Nat.ltb k (i + n))%bool then f k
      else if (Nat.leb i (M - k) && Nat.ltb (M - k) (i + n))%bool then f (M - k)%nat else at_ b k.
Proof.
  induction n as [|n IH]; intros i b L Hi H2 HM.
  - exists b. cbn [seq map b_writes]. split; [reflexivity|]. split; [exact L|]. intros k Hk.
    destruct (Nat.leb_spec i k), (Nat.ltb_spec k (i + 0)); cbn [andb]; try lia;
    destruct (Nat.leb_spec i (M - k)), (Nat.ltb_spec (M - k) (i + 0)); cbn [andb]; try lia; reflexivity.
  - cbn [seq map b_writes]. rewrite vset_ok by lia. cbn [obind].
    rewrite vset_ok by (rewrite length_splice; cbn [length]; lia). cbn [obind].
    set (b1 := splice (Z.to_nat (Z.of_nat i)) [f i] b).
    set (b2 := splice (Z.to_nat (Z.of_nat M - Z.of_nat i)) [f i] b1).
    assert (L1 : length b1 = M) by (unfold b1; rewrite length_splice; cbn [length]; lia).
    assert (L2 : length b2 = M) by (unfold b2; rewrite length_splice; cbn [length]; lia).
    destruct (IH (S i) b2 L2 ltac:(lia) ltac:(lia) ltac:(lia)) as (b' & E & L' & V).
    exists b'. split; [exact E|]. split; [exact L'|]. intros k Hk. rewrite V by exact Hk.
    assert (B2 : at_ b2 k = if Nat.eqb k i then f i else if Nat.eqb k (M - i) then f i else at_ b k).
    { unfold at_, b2. replace (Z.to_nat (Z.of_nat M - Z.of_nat i)) with (M - i)%nat by lia.
      assert (B1 : forall j, nth j b1 (RtoC 0) = if Nat.eqb j i then f i else nth j b (RtoC 0)).
      { intros j. unfold b1. rewrite Nat2Z.id. destruct (Nat.eqb_spec j i) as [->|NE].
        - apply nth_splice_same. lia.
        - apply nth_splice_other; lia. }
      destruct (Nat.eqb_spec k (M - i)) as [->|NE].
      - rewrite nth_splice_same by lia. destruct (Nat.eqb_spec (M - i) i); reflexivity.
      - rewrite nth_splice_other by lia. apply B1. }
    rewrite B2.
    destruct (Nat.leb_spec (S i) k), (Nat.leb_spec i k), (Nat.ltb_spec k (S i + n)), (Nat.ltb_spec k (i + S n)),
      (Nat.leb_spec (S i) (M - k)), (Nat.leb_spec i (M - k)), (Nat.ltb_spec (M - k) (S i + n)), (Nat.ltb_spec (M - k) (i + S n));
      cbn [andb]; try lia; try reflexivity;
      destruct (Nat.eqb_spec k i), (Nat.eqb_spec k (M - i)); try lia; try reflexivity; try (f_equal; lia).
Qed.

(* --- Bluestein's identity --- *)
Lemma bluestein_core s M N x m : (s = 1 \/ s = -1)%Z -> (1 <= N)%nat -> (2 * N - 1 <= M)%nat -> (m < N)%nat ->
  Cmult (Cdiv (root (2 * N) (s * sq m)) (RtoC (INR M)))
    (dft 1 M (fun k => Cmult (dft (-1) M (fun n => if Nat.ltb n N then Cmult (x n) (root (2 * N) (s * sq n)) else RtoC 0) k)
                             (dft (-1) M (bfun (- s) M N) k)) m) = dft s N x m.
Proof.
  intros Hs HN HM Hm. rewrite circular_convolution by lia.
  assert (P : RtoC (INR M) <> RtoC 0) by (apply RtoC_inj_neq, INR_neq; lia).
  set (S := csum M _).
  replace (Cmult (Cdiv (root (2 * N) (s * sq m)) (RtoC (INR M))) (Cmult (RtoC (INR M)) S))
    with (Cmult (root (2 * N) (s * sq m)) S) by (field; exact P).
  unfold S. rewrite (csum_extend N M); [|lia|].
  2:{ intros k Hk. destruct (Nat.ltb_spec k N); [lia|]. ring. }
  unfold dft. rewrite <- csum_scal. apply csum_ext. intros n Hn.
  destruct (Nat.ltb_spec n N); [|lia].
  assert (B : bfun (- s) M N (cidx M m n) = root (2 * N) (- s * ((Z.of_nat m - Z.of_nat n) * (Z.of_nat m - Z.of_nat n)))).
  { unfold bfun, cidx. destruct (Nat.le_gt_cases n m) as [L|L].
    - rewrite Z.mod_small by lia. destruct (Nat.ltb_spec (Z.to_nat (Z.of_nat m - Z.of_nat n)) N); [|lia].
      f_equal. unfold sq. rewrite Z2Nat.id by lia. reflexivity.
    - rewrite <- (Z.mod_unique (Z.of_nat m - Z.of_nat n) (Z.of_nat M) (-1) (Z.of_nat M + Z.of_nat m - Z.of_nat n)) by lia.
      destruct (Nat.ltb_spec (Z.to_nat (Z.of_nat M + Z.of_nat m - Z.of_nat n)) N); [lia|].
      destruct (Nat.ltb_spec (M - Z.to_nat (Z.of_nat M + Z.of_nat m - Z.of_nat n)) N); [|lia].
      f_equal. unfold sq. f_equal.
      replace (Z.of_nat (M - Z.to_nat (Z.of_nat M + Z.of_nat m - Z.of_nat n))) with (Z.of_nat n - Z.of_nat m)%Z by lia. ring. }
  rewrite B.
  transitivity (Cmult (x n) (Cmult (root (2 * N) (s * sq m)) (Cmult (root (2 * N) (s * sq n))
     (root (2 * N) (- s * ((Z.of_nat m - Z.of_nat n) * (Z.of_nat m - Z.of_nat n))))))); [ring|].
  rewrite !root_add. f_equal. unfold root.
  replace (s * sq m + (s * sq n + - s * ((Z.of_nat m - Z.of_nat n) * (Z.of_nat m - Z.of_nat n))))%Z
    with (2 * (s * Z.of_nat m * Z.of_nat n))%Z by (unfold sq; ring).
  set (a := (s * Z.of_nat m * Z.of_nat n)%Z). rewrite (mult_IZR 2). rewrite mult_INR. change (INR 2) with 2.
  replace (2 * PI * (2 * IZR a) / (2 * INR N)) with (2 * PI * IZR a / INR N) by (field; now apply INR_neq).
  reflexivity.
Qed.

Section Kiss.
Context (kiss_fft : bool -> nat -> list C -> list C)
        (kiss_fftr : nat -> list R -> list C)
        (kiss_fftri : nat -> list C -> list R)
        (next_fast_size next_fast_size_real : nat -> nat).
Hypothesis K : kiss_spec kiss_fft kiss_fftr kiss_fftri next_fast_size next_fast_size_real.

Let K_fft : forall (inv : bool) N x, (1 <= N)%nat -> length x = N ->
     lists N (dft (if inv then 1 else -1) N (at_ x)) (kiss_fft inv N x) := proj1 K.

(* The object for size N computes the DFT. *)
Definition good_complex (N : nat) (t : complex_impl) : Prop :=
  ci_size t = N /\
  (forall x, length x = N -> lists N (dft (-1) N (at_ x)) (ci_forward kiss_fft t x)) /\
  (forall x, length x = N -> lists N (dft 1 N (at_ x)) (ci_inverse kiss_fft t x)).

Lemma bluestein_data N : (1 <= N)%nat ->
  exists t, bluestein_new kiss_fft next_fast_size N = Ok t /\ bl_size t = N /\
    (2 * N - 1 <= bl_fft t)%nat /\
    lists (bl_fft t) (dft (-1) (bl_fft t) (bfun 1 (bl_fft t) N)) (bl_spectrum t) /\
    lists N (fun m => Cdiv (root (2 * N) (-1 * sq m)) (RtoC (INR (bl_fft t)))) (bl_twiddle t).
Proof.
  intros H. unfold bluestein_new.
  pose proof K as (_ & _ & _ & NF & _). pose proof (NF (2 * N - 1)%nat) as HM.
  set (M := next_fast_size (2 * N - 1)) in *. clearbody M.
  rewrite vset_ok by (rewrite repeat_length; lia). cbn [obind].
  change (IZR 1) with (IZR 1). rewrite (chirp_spec 1) by exact H.
  set (b0 := splice (Z.to_nat 0) [RtoC 1] (repeat (RtoC 0) M)).
  assert (L0 : length b0 = M) by (unfold b0; rewrite length_splice; cbn [length]; rewrite repeat_length; lia).
  destruct (b_writes_spec M (fun j => root (2 * N) (1 * sq j)) (N - 1) 1 b0 L0 ltac:(lia) ltac:(lia) ltac:(lia)) as (b & E & L & V).
  rewrite E. cbn [obind].
  assert (Vb : forall k, (k < M)%nat -> at_ b k = bfun 1 M N k).
  { intros k Hk. rewrite V by exact Hk.
    assert (B0 : at_ b0 k = if Nat.eqb k 0 then RtoC 1 else RtoC 0).
    { unfold at_, b0. destruct k as [|k]; [apply nth_splice_same; rewrite repeat_length; lia|].
      rewrite nth_splice_other by (try rewrite repeat_length; lia). apply nth_repeat. }
    rewrite B0. unfold bfun.
    destruct (Nat.leb_spec 1 k), (Nat.ltb_spec k (1 + (N - 1))), (Nat.leb_spec 1 (M - k)), (Nat.ltb_spec (M - k) (1 + (N - 1))),
      (Nat.ltb_spec k N), (Nat.ltb_spec (M - k) N), (Nat.eqb_spec k 0); cbn [andb]; try lia; try reflexivity;
      subst k; rewrite <- (root_0 (2 * N)); f_equal; unfold sq; lia. }
  eexists. split; [reflexivity|]. cbn [bl_size bl_fft bl_spectrum bl_twiddle].
  split; [reflexivity|]. split; [exact HM|]. split.
  - apply (lists_ext _ (dft (-1) M (at_ b))).
    + intros k _. apply dft_ext. exact Vb.
    + apply (K_fft false); [lia|exact L].
  - assert (Q : Cdiv (RtoC 1) (RtoC (INR M)) :: map (fun p => Cdiv (Cconj p) (RtoC (INR M))) (map (fun j => root (2 * N) (1 * sq j)) (seq 1 (N - 1)))
      = map (fun p => Cdiv (Cconj p) (RtoC (INR M))) (map (fun j => root (2 * N) (1 * sq j)) (seq 0 N))).
    { destruct N as [|n]; [lia|]. cbn [seq map]. replace (S n - 1)%nat with n by lia. f_equal.
      replace (1 * sq 0)%Z with 0%Z by (unfold sq; lia). rewrite root_0. f_equal. apply injective_projections; cbn; ring. }
    rewrite Q. apply (map_lists N (fun j => root (2 * N) (1 * sq j))); [|apply seq_lists].
    intros k _. rewrite root_conj. do 2 f_equal. ring.
Qed.

Lemma chirped_lists s N M x : (1 <= N)%nat -> (N <= M)%nat -> length x = N ->
  lists M (fun n => if Nat.ltb n N then Cmult (at_ x n) (root (2 * N) (s * sq n)) else RtoC 0)
    (vresize (RtoC 0) M (multiply_by_chirp N x (IZR s))).
Proof.
  intros H HM L. split; [apply vresize_length|]. intros k Hk. unfold at_ at 1. rewrite nth_vresize by exact Hk.
  assert (T : lists N (fun n => Cmult (at_ x n) (root (2 * N) (s * sq n))) (multiply_by_chirp N x (IZR s))).
  { unfold multiply_by_chirp. rewrite chirp_full by exact H. apply times_lists; [rewrite <- L; apply lists_self|apply seq_lists]. }
  destruct (Nat.ltb_spec k N) as [C|C]; [now apply T|].
  apply nth_overflow. rewrite (lists_len _ _ _ T). exact C.
Qed.

Lemma good_bluestein N t : (1 <= N)%nat -> bluestein_new kiss_fft next_fast_size N = Ok t -> good_complex N (Bluestein t).
Proof.
  intros H E. destruct (bluestein_data N H) as (t' & E' & S & HM & SP & TW).
  assert (t' = t) by congruence. subst t'. clear E E'.
  set (M := bl_fft t) in *.
  split; [exact S|]. split; intros x L; cbn [ci_forward ci_inverse].
  - unfold bluestein_forward. fold M. rewrite S.
    pose proof (chirped_lists (-1) N M x H ltac:(lia) L) as A.
    set (a := vresize _ _ _) in *. clearbody a.
    pose proof (K_fft false M a ltac:(lia) (lists_len _ _ _ A)) as FA. cbn beta iota in FA.
    pose proof (times_lists _ _ _ _ _ FA SP) as T. set (s := times _ _) in *. clearbody s.
    pose proof (K_fft true M s ltac:(lia) (lists_len _ _ _ T)) as FS. cbn beta iota in FS.
    apply (lists_ext N (fun m => Cmult (Cdiv (root (2 * N) (-1 * sq m)) (RtoC (INR M))) (dft 1 M (at_ s) m))).
    + intros m Hm. rewrite <- (bluestein_core (-1) M N (at_ x) m) by (try lia; right; reflexivity).
      f_equal. apply dft_ext. intros k Hk. rewrite (lists_at _ _ _ _ T Hk). f_equal.
      apply dft_ext. intros n Hn. apply (lists_at _ _ _ _ A Hn).
    + apply times_lists; [exact TW|]. apply (firstn_lists N M); [lia|exact FS].
  - unfold bluestein_inverse. fold M. rewrite S.
    pose proof (chirped_lists 1 N M x H ltac:(lia) L) as A.
    set (a := vresize _ _ _) in *. clearbody a.
    set (rv := map _ (seq 0 M)).
    assert (RV : lists M (dft (-1) M (bfun (-1) M N)) rv).
    { unfold rv. eapply lists_ext; [|apply seq_lists]. intros i Hi.
      assert (B : at_ (bl_spectrum t) (if Nat.eqb i 0 then 0 else M - i) = dft 1 M (bfun 1 M N) i).
      { destruct (Nat.eqb_spec i 0) as [->|NE].
        - rewrite (lists_at _ _ _ _ SP) by lia. unfold dft. apply csum_ext. intros n _.
          change (Z.of_nat 0) with 0%Z. now rewrite !Z.mul_0_r.
        - rewrite (lists_at _ _ _ _ SP) by lia. rewrite dft_neg_index by lia. reflexivity. }
      unfold at_ in B. cbn beta. rewrite B. rewrite dft_conj. apply dft_ext. intros n _. unfold bfun.
      destruct (Nat.ltb n N); [rewrite root_conj; f_equal; ring|].
      destruct (Nat.ltb (M - n) N); [rewrite root_conj; f_equal; ring|].
      apply injective_projections; cbn; ring. }
    clearbody rv.
    pose proof (K_fft false M a ltac:(lia) (lists_len _ _ _ A)) as FA. cbn beta iota in FA.
    pose proof (times_lists _ _ _ _ _ FA RV) as T. set (s := times _ _) in *. clearbody s.
    pose proof (K_fft true M s ltac:(lia) (lists_len _ _ _ T)) as FS. cbn beta iota in FS.
    assert (TW' : lists N (fun m => Cdiv (root (2 * N) (1 * sq m)) (RtoC (INR M))) (map Cconj (bl_twiddle t))).
    { eapply map_lists; [|exact TW]. intros m Hm. cbn beta. unfold Cdiv. rewrite Cconj_mult, root_conj.
      f_equal; [f_equal; ring|]. rewrite <- RtoC_inv by (apply INR_neq; lia). apply injective_projections; cbn; ring. }
    apply (lists_ext N (fun m => Cmult (Cdiv (root (2 * N) (1 * sq m)) (RtoC (INR M))) (dft 1 M (at_ s) m))).
    + intros m Hm. rewrite <- (bluestein_core 1 M N (at_ x) m) by (try lia; left; reflexivity).
      f_equal. apply dft_ext. intros k Hk. rewrite (lists_at _ _ _ _ T Hk). f_equal.
      apply dft_ext. intros n Hn. apply (lists_at _ _ _ _ A Hn).
    + apply times_lists; [exact TW'|]. apply (firstn_lists N M); [lia|exact FS].
Qed.

Lemma strip_ok p : (2 <= p)%Z -> forall fuel size, (0 < size)%Z -> (size <= Z.of_nat fuel)%Z ->
  exists s, strip fuel p size = Ok s /\ (0 < s <= size)%Z.
Proof.
  intros Hp. induction fuel as [|n IH]; intros size H F; [lia|]. cbn [strip].
  destruct (Z.eqb_spec (Z.rem size p) 0) as [E|E]; [|exists size; split; [reflexivity|lia]].
  rewrite Z.quot_div_nonneg by lia. rewrite Z.rem_mod_nonneg in E by lia.
  pose proof (Z.div_mod size p ltac:(lia)) as D. rewrite E in D.
  assert (Q : (0 < size / p < size)%Z) by nia.
  destruct (IH (size / p)%Z ltac:(lia) ltac:(lia)) as (s & E' & B). exists s. split; [exact E'|lia].
Qed.
Lemma fast_ok size : (0 < size)%Z -> exists b, is_fast_kiss_fft_size size = Ok b.
Proof.
  intros H. unfold is_fast_kiss_fft_size.
  destruct (strip_ok 2 ltac:(lia) (Z.to_nat size) size H ltac:(lia)) as (s2 & -> & B2). cbn [obind].
  destruct (strip_ok 3 ltac:(lia) (Z.to_nat size) s2 ltac:(lia) ltac:(lia)) as (s3 & -> & B3). cbn [obind].
  destruct (strip_ok 5 ltac:(lia) (Z.to_nat size) s3 ltac:(lia) ltac:(lia)) as (s5 & -> & B5). cbn [obind].
  eexists; reflexivity.
Qed.

Lemma good_kiss N : (1 <= N)%nat -> good_complex N (KissComplex N).
Proof.
  intros H. split; [reflexivity|]. split; intros x L; cbn [ci_forward ci_inverse].
  - apply (K_fft false); assumption.
  - apply (K_fft true); assumption.
Qed.

Lemma complex_new_good size : (0 < size)%Z ->
  exists t, complex_new kiss_fft next_fast_size size = Ok t /\ good_complex (Z.to_nat size) t.
Proof.
  intros H. unfold complex_new, ocheck. destruct (Z.ltb_spec 0 size); [|lia].
  destruct (fast_ok size H) as (b & ->). cbn [obind]. destruct b.
  - eexists. split; [reflexivity|]. apply good_kiss. lia.
  - destruct (bluestein_data (Z.to_nat size) ltac:(lia)) as (t & E & _). rewrite E. cbn [obind].
    eexists. split; [reflexivity|]. apply good_bluestein; [lia|exact E].
Qed.

(* --- real transforms --- *)
Definition good_real (N : nat) (t : real_impl) : Prop :=
  ri_size t = N /\
  (forall x, length x = N -> lists (N / 2 + 1) (dft (-1) N (rat x)) (ri_forward kiss_fft kiss_fftr t x)) /\
  (forall s, length s = (N / 2 + 1)%nat -> exists y, ri_inverse kiss_fft kiss_fftri t s = Ok y /\ length y = N /\
     forall n, (n < N)%nat -> nth n y 0 = Re (dft 1 N (hermitian N (at_ s)) n)).

Lemma reflect_ok N s : (1 <= N)%nat -> length s = (N / 2 + 1)%nat ->
  exists r, reflect_spectrum N s = Ok r /\ lists N (hermitian N (at_ s)) r.
Proof.
  intros H L. unfold reflect_spectrum. rewrite <- L, Nat.eqb_refl. eexists. split; [reflexivity|].
  rewrite L. set (i := (N / 2 + 1 - (if Nat.even N then 2 else 1))%nat).
  assert (I : (N / 2 + 1 + i = N)%nat).
  { unfold i. destruct (Nat.even N) eqn:E.
    - apply Nat.even_spec in E. destruct E as (q & ->). rewrite Nat.mul_comm, Nat.div_mul by lia. lia.
    - assert (O : Nat.odd N = true) by (rewrite <- Nat.negb_even, E; reflexivity).
      apply Nat.odd_spec in O. destruct O as (q & ->).
      replace (2 * q + 1)%nat with (1 + q * 2)%nat by lia. rewrite Nat.div_add by lia. cbn. lia. }
  clearbody i. split; [rewrite app_length, map_length, seq_length; lia|].
  intros k Hk. unfold hermitian. destruct (Nat.leb_spec k (N / 2)) as [C|C].
  - unfold at_. now rewrite app_nth1 by lia.
  - unfold at_. rewrite app_nth2 by lia. rewrite nth_map_seq by lia. do 2 f_equal. lia.
Qed.

Lemma good_backend N b : (1 <= N)%nat -> good_complex N b -> good_real N (ComplexBackend b).
Proof.
  intros H (S & F & I). split; [exact S|]. split.
  - intros x L. cbn [ri_forward]. rewrite S. apply (firstn_lists _ N).
    + pose proof (Nat.div_lt N 2 ltac:(lia) ltac:(lia)). lia.
    + eapply lists_ext; [|apply F; rewrite map_length; exact L]. intros k _. apply dft_ext.
      intros n _. apply at_map_RtoC.
  - intros s L. cbn [ri_inverse]. rewrite S. rewrite firstn_all2 by lia.
    destruct (reflect_ok N s H L) as (r & E & HR). rewrite E. cbn [obind]. eexists. split; [reflexivity|].
    pose proof (I r (lists_len _ _ _ HR)) as T. split; [rewrite map_length; apply (lists_len _ _ _ T)|].
    intros n Hn. rewrite (nth_indep _ 0 (Re (RtoC 0))) by (rewrite map_length, (lists_len _ _ _ T); exact Hn).
    rewrite map_nth. fold (at_ (ci_inverse kiss_fft b r) n). rewrite (lists_at _ _ _ _ T Hn). f_equal.
    apply dft_ext. intros k Hk. apply (lists_at _ _ _ _ HR Hk).
Qed.

Lemma real_new_good size : (0 < size)%Z ->
  exists t, real_new kiss_fft next_fast_size size = Ok t /\ good_real (Z.to_nat size) t.
Proof.
  intros H. unfold real_new, ocheck. destruct (Z.ltb_spec 0 size); [|lia].
  destruct (fast_ok size H) as (b & ->). cbn [obind]. destruct b; cbn [negb].
  - destruct (Z.eqb_spec (Z.rem size 2) 0) as [E|E].
    + eexists. split; [reflexivity|]. pose proof K as (_ & KR & KI & _).
      assert (EV : Nat.even (Z.to_nat size) = true).
      { rewrite Z.rem_mod_nonneg in E by lia. apply Nat.even_spec. exists (Z.to_nat (size / 2)).
        pose proof (Z.div_mod size 2 ltac:(lia)). lia. }
      split; [reflexivity|]. split.
      * intros x L. apply KR; [lia|exact EV|exact L].
      * intros s L. eexists. split; [reflexivity|]. apply KI; [lia|exact EV|exact L].
    + eexists. split; [reflexivity|]. apply good_backend; [lia|]. apply good_kiss. lia.
  - destruct (bluestein_data (Z.to_nat size) ltac:(lia)) as (t & E & _). rewrite E. cbn [obind].
    eexists. split; [reflexivity|]. apply good_backend; [lia|]. apply good_bluestein; [lia|exact E].
Qed.
End Kiss.
