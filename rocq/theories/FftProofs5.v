(* Brickwall filters. *)
From Coq Require Import ZArith Reals Arith Lia Lra ZifyBool ZifyNat.
From Verif Require Import Common CInt ListLemmas NthLemmas RealUtil MfccModel MfccProofs FftModel FftSpec FftProofs FftProofs2 FftProofs3 FftProofs4.
From Coquelicot Require Import Complex.
Local Open Scope R_scope.

Lemma nth_splice {A} (d : A) p xs l i : (p + length xs <= length l)%nat ->
  nth i (splice p xs l) d =
  if (Nat.leb p i && Nat.ltb i (p + length xs))%bool then nth (i - p) xs d else nth i l d.
Proof.
  intros H. unfold splice. destruct (Nat.leb_spec p i) as [L|L]; cbn [andb].
  - rewrite app_nth2; rewrite firstn_length; [|lia]. replace (Nat.min p (length l)) with p by lia.
    destruct (Nat.ltb_spec i (p + length xs)) as [L2|L2].
    + apply app_nth1. lia.
    + rewrite app_nth2 by lia. rewrite nth_skipn. f_equal. lia.
  - rewrite app_nth1 by (rewrite firstn_length; lia). now apply nth_firstn.
Qed.

(* low <= k <= high *)
Definition band (low high : R) (k : nat) : bool := (Rleb low (INR k) && Rleb (INR k) high)%bool.

Section Bands.
Context (rd : R -> R) (rd_mono : forall x y, x <= y -> rd x <= rd y) (rd_0 : rd 0 = 0).

Lemma bandpass_spectrum {A} (zero : A) in_place input previous low high bw :
  input <> [] -> 0 <= low -> low <= high -> 0 < bw -> high <= rd (bw * rd (INR (length input))) ->
  rd (high / bw) < IZR (INT_MAX - 1) ->
  exists out, hard_bandpass_spectrum rd zero in_place input previous low high bw = Ok out /\
    length out = length input /\
    forall k, (k < length input)%nat ->
      nth k out zero = if band (rd (low / bw)) (rd (high / bw)) k then nth k input zero else zero.
Proof.
  intros Hne H0 Hlh Hbw Hh HI.
  assert (L : (1 <= length input)%nat) by (destruct input; [contradiction|cbn; lia]).
  unfold hard_bandpass_spectrum, ocheck. set (size := length input) in *.
  rewrite (proj2 (Nat.eqb_neq size 0)) by lia.
  rewrite (Rleb_true 0 low), (Rleb_true low high), (Rleb_true high _) by assumption. cbn [negb andb].
  unfold oguard. destruct (Reqb bw 0) eqn:EB; [apply Reqb_true_iff in EB; lra|]. cbn [negb].
  assert (LB : 0 <= low / bw) by (apply Rmult_le_pos; [exact H0|left; now apply Rinv_0_lt_compat]).
  assert (LH : low / bw <= high / bw) by (apply Rmult_le_compat_r; [left; now apply Rinv_0_lt_compat|exact Hlh]).
  set (l := rd (low / bw)) in *. set (h := rd (high / bw)) in *.
  assert (L0 : 0 <= l) by (rewrite <- rd_0; now apply rd_mono).
  assert (LHr : l <= h) by (now apply rd_mono). clearbody l h.
  pose proof (ceil_bounds l) as (C1 & C2). pose proof (Int_part_bounds h) as (I1 & I2).
  set (cl := ceil l) in *. set (fh := Int_part h) in *. clearbody cl fh.
  assert (Bc : (-1 < cl)%Z) by (apply lt_IZR; lra).
  assert (Bf : (-1 < fh)%Z) by (apply lt_IZR; lra).
  assert (Bo : (cl <= 1 + fh)%Z).
  { assert (cl - 1 < fh + 1)%Z; [|lia]. apply lt_IZR. rewrite minus_IZR, plus_IZR. lra. }
  assert (Bh : (fh < INT_MAX - 1)%Z) by (apply lt_IZR; lra).
  rewrite cast_int_IZR by lia. cbn [obind].
  destruct (Z.leb_spec 0 (Z.min cl (Z.of_nat size))); [|lia].
  rewrite cast_int_IZR by lia. cbn [obind].
  destruct (Z.leb_spec (Z.min cl (Z.of_nat size)) (Z.min (1 + fh) (Z.of_nat size))); [|lia].
  destruct (Z.leb_spec (Z.min (1 + fh) (Z.of_nat size)) (Z.of_nat size)); [|lia]. cbn [andb].
  set (a := Z.to_nat (Z.min cl (Z.of_nat size))). set (b := Z.to_nat (Z.min (1 + fh) (Z.of_nat size))).
  assert (AB : (a <= b)%nat) by lia. assert (BS : (b <= size)%nat) by lia.
  assert (BAND : forall k, (k < size)%nat -> band l h k = (Nat.leb a k && Nat.ltb k b)%bool).
  { intros k Hk. unfold band, a, b. rewrite INR_IZR_INZ.
    destruct (Nat.leb_spec (Z.to_nat (Z.min cl (Z.of_nat size))) k) as [La|La].
    - rewrite Rleb_true.
      2:{ apply Rle_trans with (IZR cl); [exact C2|]. apply IZR_le. lia. }
      cbn [andb]. destruct (Nat.ltb_spec k (Z.to_nat (Z.min (1 + fh) (Z.of_nat size)))) as [Lb|Lb].
      + apply Rleb_true. apply Rle_trans with (IZR fh); [apply IZR_le; lia|exact I1].
      + apply Rleb_false. apply Rlt_le_trans with (IZR fh + 1); [lra|]. rewrite <- plus_IZR. apply IZR_le. lia.
    - rewrite Rleb_false; [reflexivity|]. apply Rle_lt_trans with (IZR cl - 1); [|exact C1].
      rewrite <- minus_IZR. apply IZR_le. lia. }
  set (o0 := if in_place then input else vresize zero size previous).
  assert (Lo : length o0 = size) by (unfold o0; destruct in_place; [reflexivity|apply vresize_length]).
  set (o1 := splice 0 (repeat zero a) o0).
  assert (Lo1 : length o1 = size) by (unfold o1; rewrite length_splice; rewrite ?repeat_length; lia).
  set (o2 := if in_place then o1 else splice a (firstn (b - a) (skipn a input)) o1).
  assert (Lc : length (firstn (b - a) (skipn a input)) = (b - a)%nat) by (rewrite firstn_length, skipn_length; fold size; lia).
  assert (Lo2 : length o2 = size) by (unfold o2; destruct in_place; [exact Lo1|rewrite length_splice; lia]).
  eexists. split; [reflexivity|]. split; [rewrite length_splice; rewrite ?repeat_length; lia|].
  intros k Hk. rewrite nth_splice by (rewrite repeat_length; lia). rewrite repeat_length. rewrite BAND by exact Hk.
  replace (b + (size - b))%nat with size by lia.
  destruct (Nat.leb_spec b k) as [Lb|Lb]; cbn [andb].
  - destruct (Nat.ltb_spec k size); [|lia]. rewrite nth_repeat.
    destruct (Nat.ltb_spec k b); [lia|]. now rewrite Bool.andb_false_r.
  - destruct (Nat.ltb_spec k b); [|lia]. rewrite Bool.andb_true_r.
    assert (O1 : nth k o1 zero = if Nat.leb a k then nth k o0 zero else zero).
    { unfold o1. rewrite nth_splice by (rewrite repeat_length; lia). rewrite repeat_length. cbn [Nat.leb andb Nat.add].
      destruct (Nat.ltb_spec k a), (Nat.leb_spec a k); try lia; [apply nth_repeat|reflexivity]. }
    unfold o2. destruct in_place.
    + rewrite O1. reflexivity.
    + rewrite nth_splice by lia. rewrite Lc. destruct (Nat.leb_spec a k) as [La|La]; cbn [andb].
      * destruct (Nat.ltb_spec k (a + (b - a))); [|lia]. rewrite nth_firstn by lia. rewrite nth_skipn. f_equal. lia.
      * rewrite O1. reflexivity.
Qed.
End Bands.

Section Time.
Context (kiss_fft : bool -> nat -> list C -> list C)
        (kiss_fftr : nat -> list R -> list C)
        (kiss_fftri : nat -> list C -> list R)
        (next_fast_size next_fast_size_real : nat -> nat).
Hypothesis K : kiss_spec kiss_fft kiss_fftr kiss_fftri next_fast_size next_fast_size_real.
Context (rd : R -> R) (rd_mono : forall x y, x <= y -> rd x <= rd y) (rd_0 : rd 0 = 0).

Lemma bandpass_time x low high fs :
  x <> [] -> 0 <= low -> low <= high -> (Z.of_nat (length x) < INT_MAX)%Z ->
  high < rd (fs * rd (1 / 2 + rd (1 / 2 / rd (INR (length x))))) ->
  0 < rd (fs / rd (INR (length x))) ->
  high <= rd (rd (fs / rd (INR (length x))) * rd (INR (length x / 2 + 1))) ->
  rd (high / rd (fs / rd (INR (length x)))) < IZR (INT_MAX - 1) ->
  exists y, fft_hard_bandpass kiss_fft kiss_fftr kiss_fftri next_fast_size rd x low high fs = Ok y /\
    length y = length x /\
    forall k, (k <= length x / 2)%nat ->
      dft (-1) (length x) (rat y) k =
      if band (rd (low / rd (fs / rd (INR (length x))))) (rd (high / rd (fs / rd (INR (length x))))) k
      then dft (-1) (length x) (rat x) k else RtoC 0.
Proof.
  intros Hx H0 Hlh HI Hh Hbw Hs Hr.
  assert (L : (1 <= length x)%nat) by (destruct x; [contradiction|cbn; lia]).
  unfold fft_hard_bandpass, ocheck. set (N := length x) in *.
  rewrite (proj2 (Nat.eqb_neq N 0)) by lia.
  rewrite (Rleb_true 0 low), (Rleb_true low high), (Rltb_true high _) by assumption. cbn [negb andb].
  destruct (real_api _ _ _ _ _ K (Z.of_nat N) ltac:(lia)) as (t & E & _ & F & I & _). rewrite Nat2Z.id in *. rewrite E. cbn [obind].
  destruct (F x eq_refl) as (X & EX & VX). rewrite EX. cbn [obind].
  assert (LX := lists_len _ _ _ VX).
  assert (XN : X <> []) by (destruct X; [cbn in LX; lia|discriminate]).
  set (bw := rd (fs / rd (INR N))) in *.
  destruct (bandpass_spectrum rd rd_mono rd_0 (RtoC 0) true X X low high bw XN H0 Hlh Hbw ltac:(rewrite LX; exact Hs) Hr)
    as (s & Es & Ls & Vs).
  rewrite Es. cbn [obind].
  destruct (I s true ltac:(lia)) as (y & Ey & Ly & Vy). exists y. split; [exact Ey|]. split; [exact Ly|].
  intros k Hk. set (l := rd (low / bw)) in *. set (h := rd (high / bw)) in *.
  set (s' := fun k => if band l h k then dft (-1) N (rat x) k else RtoC 0).
  change (if band l h k then dft (-1) N (rat x) k else RtoC 0) with (s' k).
  change (rat y) with (rf (fun n => nth n y 0)).
  destruct (halves N L) as (H1 & H2).
  assert (HL : (N - N / 2 <= N / 2 + 1)%nat) by (destruct (Nat.even N); lia).
  assert (SS : forall k, (k <= N / 2)%nat -> at_ s k = s' k).
  { intros j Hj. unfold at_, s'. rewrite Vs by lia. destruct (band l h j); [|reflexivity].
    apply (lists_at _ _ _ _ VX). lia. }
  apply spectrum_recover; [exact L|exact Hk| | |].
  - unfold s'. destruct (band l h 0); [apply (dft_dc_real N (fun n => nth n x 0))|reflexivity].
  - intros EV. unfold s'. destruct (band l h (N / 2)); [apply (dft_nyquist_real N (fun n => nth n x 0) L EV)|reflexivity].
  - intros n Hn. rewrite Vy by exact Hn.
    rewrite (dft_ext 1 N (hermitian N (at_ s)) (hermitian N s')).
    + unfold Rdiv. ring.
    + intros j Hj. unfold hermitian. destruct (Nat.leb_spec j (N / 2)); [apply SS; lia|]. f_equal. apply SS. lia.
Qed.
End Time.
