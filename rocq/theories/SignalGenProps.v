(* C91: signal generators. *)
From Coq Require Import ZArith Reals Lra Lia List Bool.
From Coquelicot Require Import Complex.
From Verif Require Import Common CInt ListLemmas NthLemmas RealUtil SignalGenModel.
Import ListNotations.
Local Open Scope R_scope.

Lemma sine_loop_spec a w n : forall p k, (k < n)%nat -> nth k (sine_loop (1 * cos w, 1 * sin w) (a * cos p, a * sin p) n) 0 = a * sin (p + INR k * w).
Proof.
  induction n as [|n IH]; intros p k K; [lia|]. cbn [sine_loop]. destruct k as [|k]; cbn [nth].
  - cbn [snd INR]. rewrite Rmult_0_l, Rplus_0_r. reflexivity.
  - replace (Cmult (a * cos p, a * sin p) (1 * cos w, 1 * sin w)) with (a * cos (p + w), a * sin (p + w)).
    + rewrite IH by lia. rewrite S_INR. f_equal. f_equal. ring.
    + rewrite cos_plus, sin_plus. unfold Cmult. cbn [fst snd]. f_equal; ring.
Qed.
Lemma sine_loop_len r n : forall p, length (sine_loop r p n) = n.
Proof. induction n as [|n IH]; intros p; cbn; [reflexivity|]. now rewrite IH. Qed.

(* C91: the samples of GenerateSine *)
Theorem C91_sine {V} (cast : R -> V) n rate f a p d : rate <> 0 -> (0 <= n)%Z -> 0 <= a ->
  exists y, generate_sine cast n rate f a p = Ok y /\ Z.of_nat (length y) = n /\
    forall k, (Z.of_nat k < n)%Z -> nth k y d = cast (a * sin (p + 2 * PI * f * (INR k / rate))).
Proof.
  intros R N A. unfold generate_sine. destruct (Reqb rate 0) eqn:E; [apply Reqb_true_iff in E; congruence|]. unfold polar.
  rewrite Rltb_false by lra. cbn [obind]. rewrite Rltb_false by lra. cbn [obind]. destruct (Z.ltb_spec n 0); [lia|].
  eexists. split; [reflexivity|]. split; [rewrite map_length, sine_loop_len; lia|]. intros k K.
  rewrite (nth_indep _ d (cast 0)) by (rewrite map_length, sine_loop_len; lia). rewrite map_nth, sine_loop_spec by lia. f_equal. f_equal. f_equal. field. exact R.
Qed.
Print Assumptions C91_sine.
(* C91: a negative amplitude is outside the domain of std::polar *)
Theorem C91_negative_amplitude_refuted {V} (cast : R -> V) n rate f a p : rate <> 0 -> a < 0 -> generate_sine cast n rate f a p = Undef.
Proof.
  intros R A. unfold generate_sine. destruct (Reqb rate 0); [reflexivity|]. unfold polar. rewrite Rltb_false by lra. cbn [obind]. now rewrite Rltb_true by lra.
Qed.
Print Assumptions C91_negative_amplitude_refuted.

Lemma lin_spaced_spec n k : (k < n)%nat -> length (lin_spaced n 0 (IZR (Z.of_nat n) - 1)) = n /\ nth k (lin_spaced n 0 (IZR (Z.of_nat n) - 1)) 0 = INR k.
Proof.
  intros K. unfold lin_spaced. destruct (Nat.eqb_spec n 1) as [->|N].
  - replace k with 0%nat by lia. cbn. split; [reflexivity|lra].
  - split; [now rewrite map_length, seq_length|]. set (g := fun k : nat => _). rewrite (nth_indep _ 0 (g 0%nat)) by (rewrite map_length, seq_length; exact K).
    rewrite map_nth, seq_nth by exact K. unfold g. rewrite <- INR_IZR_INZ. cbn [Nat.add].
    assert (1 < INR n) by (apply lt_1_INR; lia). field. lra.
Qed.
Lemma lin_spaced_len n : length (lin_spaced n 0 (IZR (Z.of_nat n) - 1)) = n.
Proof. destruct n; [reflexivity|]. apply (lin_spaced_spec (S n) 0). lia. Qed.
(* C91: the samples of GenerateSineEigen, where the phase is subtracted *)
Theorem C91_sine_eigen n rate f a p : rate <> 0 -> (0 <= n)%Z ->
  exists y, generate_sine_eigen n rate f a p = Ok y /\ Z.of_nat (length y) = n /\
    forall k, (Z.of_nat k < n)%Z -> nth k y 0 = a * sin (2 * PI * f * (INR k / rate) - p).
Proof.
  intros R N. unfold generate_sine_eigen. destruct (Reqb rate 0) eqn:E; [apply Reqb_true_iff in E; congruence|].
  destruct (Z.ltb_spec n 0); [lia|]. cbv zeta. replace (IZR n) with (IZR (Z.of_nat (Z.to_nat n))) by (now rewrite Z2Nat.id). set (m := Z.to_nat n).
  eexists. split; [reflexivity|]. split; [rewrite map_length, lin_spaced_len; lia|]. intros k K.
  set (g := fun t => _). rewrite (nth_indep _ 0 (g 0)) by (rewrite map_length, lin_spaced_len; lia). rewrite map_nth.
  destruct (lin_spaced_spec m k ltac:(lia)) as (_ & ->). unfold g. rewrite Rmult_comm. f_equal. f_equal. field. exact R.
Qed.
Print Assumptions C91_sine_eigen.
(* C91: without a phase both functions give the same samples; with a phase they do not *)
Theorem C91_agree n rate f a y y' : rate <> 0 -> 0 <= a ->
  generate_sine (fun v => v) n rate f a 0 = Ok y -> generate_sine_eigen n rate f a 0 = Ok y' -> y = y'.
Proof.
  intros R A E1 E2. assert (N : (0 <= n)%Z).
  { unfold generate_sine_eigen in E2. destruct (Reqb rate 0); [discriminate|]. destruct (Z.ltb_spec n 0); [discriminate|assumption]. }
  destruct (C91_sine (fun v => v) n rate f a 0 0 R N A) as (z & F1 & L1 & H1). rewrite E1 in F1. injection F1 as <-.
  destruct (C91_sine_eigen n rate f a 0 R N) as (z & F2 & L2 & H2). rewrite E2 in F2. injection F2 as <-.
  apply (nth_ext _ _ 0 0); [lia|]. intros k K. rewrite H1, H2 by lia. f_equal. f_equal. ring.
Qed.
Print Assumptions C91_agree.
Theorem C91_phase_refuted : exists y y', generate_sine (fun v => v) 1 8000 440 1 (PI / 2) = Ok y /\ generate_sine_eigen 1 8000 440 1 (PI / 2) = Ok y' /\
  nth 0 y 0 = 1 /\ nth 0 y' 0 = -1.
Proof.
  destruct (C91_sine (fun v => v) 1 8000 440 1 (PI / 2) 0 ltac:(lra) ltac:(lia) ltac:(lra)) as (y & E & _ & H).
  destruct (C91_sine_eigen 1 8000 440 1 (PI / 2) ltac:(lra) ltac:(lia)) as (y' & E' & _ & H').
  exists y, y'. split; [exact E|]. split; [exact E'|]. rewrite H, H' by lia. cbn [INR].
  replace (PI / 2 + 2 * PI * 440 * (0 / 8000)) with (PI / 2) by field. replace (2 * PI * 440 * (0 / 8000) - PI / 2) with (- (PI / 2)) by field.
  rewrite sin_neg, sin_PI2. lra.
Qed.
Print Assumptions C91_phase_refuted.

(* C91: the impulse *)
Lemma set_entries_spec data cols rows col : (rows <= length data)%nat -> (forall r, (r < length data)%nat -> nth r data [] = repeat 0 cols) -> (col < cols)%nat ->
  length (set_entries data rows col) = length data /\
  forall r, (r < length data)%nat -> nth r (set_entries data rows col) [] = if (r <? rows)%nat then splice col [1] (repeat 0 cols) else repeat 0 cols.
Proof.
  intros L H C. induction rows as [|i IH]; [split; [reflexivity|]; intros r R; cbn; now apply H|].
  destruct IH as (L1 & H1); [lia|]. cbn [set_entries]. rewrite H by lia. split; [rewrite length_splice; cbn [length]; lia|].
  intros r R. destruct (Nat.eq_dec r i) as [->|NE].
  - rewrite nth_splice_same by lia. destruct (Nat.ltb_spec i (S i)); [reflexivity|lia].
  - rewrite nth_splice_other by lia. rewrite H1 by exact R. destruct (Nat.ltb_spec r i); destruct (Nat.ltb_spec r (S i)); try lia; reflexivity.
Qed.
Theorem C91_impulse channels block time : (0 < channels)%Z -> (0 <= time < block)%Z ->
  exists d, broadside_impulse channels block time = Ok d /\ Z.of_nat (length d) = channels /\
    forall i, (Z.of_nat i < channels)%Z -> Z.of_nat (length (nth i d [])) = block /\
      forall t, (Z.of_nat t < block)%Z -> nth t (nth i d []) 0 = if (Z.of_nat t =? time)%Z then 1 else 0.
Proof.
  intros C T. unfold broadside_impulse. destruct (Z.ltb_spec 0 channels); [|lia]. destruct (Z.leb_spec 0 block); [|lia]. destruct (Z.leb_spec 0 time); [|lia].
  destruct (Z.ltb_spec time block); [|lia]. cbn [negb]. set (data := repeat _ _).
  assert (LD : length data = Z.to_nat channels) by apply repeat_length.
  destruct (set_entries_spec data (Z.to_nat block) (Z.to_nat channels) (Z.to_nat time)) as (L & S); [lia| |lia|].
  { intros r R. unfold data. rewrite LD in R. clear - R. revert r R. induction (Z.to_nat channels) as [|n IH]; intros r R; [lia|]. destruct r; [reflexivity|]. apply IH. lia. }
  eexists. split; [reflexivity|]. split; [lia|]. intros i I. rewrite S by lia. destruct (Nat.ltb_spec i (Z.to_nat channels)); [|lia].
  split; [rewrite length_splice; rewrite repeat_length; cbn [length]; lia|]. intros t Ht. destruct (Z.eqb_spec (Z.of_nat t) time) as [E|E].
  - replace t with (Z.to_nat time) by lia. apply nth_splice_same. rewrite repeat_length. lia.
  - rewrite nth_splice_other by (rewrite ?repeat_length; lia). apply nth_repeat.
Qed.
Print Assumptions C91_impulse.
Theorem C91_impulse_refuses channels block time : ~ ((0 < channels)%Z /\ (0 <= time < block)%Z) -> broadside_impulse channels block time = CheckFail.
Proof.
  intros H. unfold broadside_impulse. destruct (Z.ltb_spec 0 channels); [|reflexivity]. destruct (Z.leb_spec 0 block); [|reflexivity].
  destruct (Z.leb_spec 0 time); [|reflexivity]. destruct (Z.ltb_spec time block); [|reflexivity]. exfalso. apply H. lia.
Qed.
Print Assumptions C91_impulse_refuses.
Example C91_impulse_ex : broadside_impulse 2 3 1 = Ok [[0; 1; 0]; [0; 1; 0]].
Proof. reflexivity. Qed.
Example C91_sine_ex : exists y, generate_sine (fun v => v) 3 4 1 2 0 = Ok y /\ nth 1 y 0 = 2.
Proof.
  destruct (C91_sine (fun v => v) 3 4 1 2 0 0 ltac:(lra) ltac:(lia) ltac:(lra)) as (y & E & _ & H). exists y. split; [exact E|]. rewrite H by lia.
  cbn [INR]. replace (0 + 2 * PI * 1 * (1 / 4)) with (PI / 2) by field. rewrite sin_PI2. ring.
Qed.
