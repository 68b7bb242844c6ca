(* Properties of ArithmeticSequence, audio/dsp/number_util.{h,cc}. *)
From Verif Require Import Common RealUtil ArithSeqModel ArithSeqSpec ArithSeqProofs.
From Coq Require Import Lra Psatz Lia ZifyBool.
Local Open Scope R_scope.

(* ---- C75 ---- *)
(* The size is the one number that satisfies the documented inequality; construction is refused
   exactly for a zero step or more than INT_MAX elements, and never goes wrong otherwise. *)
Theorem C75_size : forall base step limit,
  (forall s, seq_make base step limit = Ok s -> step <> 0 /\ seq_base s = base /\ doc_size base step limit (seq_size s) /\
     (forall n, doc_size base step limit n -> n = seq_size s)) /\
  (seq_make base step limit = CheckFail <-> (step = 0 \/ exists n, (2147483647 < n)%Z /\ doc_size base step limit n)) /\
  seq_make base step limit <> Undef.
Proof.
  intros b s l. split; [|split; [apply make_refused|apply make_total]].
  intros q E. destruct (make_size _ _ _ _ E) as (N & B & D & _). split; [assumption|]. split; [assumption|]. split; [assumption|].
  intros n Dn. exact (doc_size_unique _ _ _ _ _ N Dn D).
Qed.
Print Assumptions C75_size.
(* The design goal: arguments within 4 epsilon of values that are n whole steps apart give n + 1
   elements (none for a negative n), provided the step is not tiny. *)
Theorem C75_whole_steps : forall base step limit base' step' limit' (n : Z), step <> 0 ->
  intended base base' -> intended step step' -> intended limit limit' -> base' + IZR n * step' = limit' ->
  3 * (dbl_eps * (5 * (Rabs base + Rabs limit) + 7 * Rabs (limit - base))) <= Rabs step -> (n < 2147483647)%Z ->
  exists s, seq_make base step limit = Ok s /\ seq_size s = Z.max 0 (n + 1) /\ (seq_empty s = true <-> (n < 0)%Z).
Proof.
  intros b s l b' s' l' n N Hb Hs Hl E T I.
  assert (K : exists q, seq_make b s l = Ok q /\ seq_size q = Z.max 0 (n + 1)).
  { apply make_known; [assumption|unfold int_max; lia|]. destruct (Z.leb_spec (-1) n).
    - replace (Z.max 0 (n + 1)) with (n + 1)%Z by lia. exact (whole_steps _ _ _ _ _ _ _ N Hb Hs Hl E H T).
    - replace (Z.max 0 (n + 1)) with 0%Z by lia. exact (no_steps _ _ _ _ _ _ _ N Hb Hs Hl E ltac:(lia) T). }
  destruct K as (q & Q1 & Q2). exists q. split; [assumption|]. split; [assumption|]. unfold seq_empty. rewrite Q2, Z.leb_le. lia.
Qed.
Print Assumptions C75_whole_steps.
(* Elements: base + step * i, except that the last one may differ by the stated tolerance; never
   past the limit by more than the documented tolerance; strictly ordered in the direction of the
   step; an index outside the sequence is caught.  The tolerance of the last element carries a
   factor |step| which the documentation does not mention. *)
Theorem C75_elements_partial : forall base step limit s, seq_make base step limit = Ok s ->
  (forall i, (0 <= i < seq_size s)%Z -> exists v, seq_get s i = Ok v /\
     ((i < seq_size s - 1)%Z -> v = base + step * IZR i) /\
     Rabs (v - (base + step * IZR i)) <= Rmax (doc_tol base step limit) (4 * dbl_eps * Rabs step * Rmax (Rabs limit) (Rabs (base + step * IZR i))) /\
     (0 < step -> v <= limit + doc_tol base step limit) /\ (step < 0 -> limit - doc_tol base step limit <= v) /\
     (base + step * IZR i = limit -> v = limit)) /\
  (forall i j x y, (0 <= i)%Z -> (i < j)%Z -> seq_get s i = Ok x -> seq_get s j = Ok y -> (0 < step -> x < y) /\ (step < 0 -> y < x)) /\
  (forall i, (i < 0 \/ seq_size s <= i)%Z -> seq_get s i = CheckFail).
Proof.
  intros b s l q E. split; [|split].
  - intros i H. destruct (elements _ _ _ _ i E H) as (v & V & A & B & C & D & F & G). exists v. split; [assumption|]. split; [assumption|].
    split; [assumption|]. unfold sgn in C. split; [intros P; rewrite (Rltb_true _ _ P) in C; lra|].
    split; [intros P; rewrite Rltb_false in C by lra; lra|assumption].
  - intros i j x y Hi Hj X Y. pose proof (increasing _ _ _ _ _ _ _ _ E Hi Hj X Y) as M. unfold sgn in M.
    split; intros P; [rewrite (Rltb_true _ _ P) in M; lra|rewrite Rltb_false in M by lra; lra].
  - intros i H. apply get_outside. lia.
Qed.
Print Assumptions C75_elements_partial.
(* The documented meaning "base + step * i, ending on or just before limit" fails for large
   steps: 0 : 2^50 : 1.5 * 2^50 has two elements and the second is one and a half steps from the
   first (every number here is a double and every operation of the constructor is exact). *)
Theorem C75_elements_refuted : exists base step limit s, seq_make base step limit = Ok s /\
  base = 0 /\ step = 2 ^ 50 /\ limit = 3 * 2 ^ 49 /\ seq_size s = 2%Z /\ seq_get s 0 = Ok 0 /\ seq_get s 1 = Ok (3 * 2 ^ 49) /\
  Rabs (3 * 2 ^ 49 - (base + step * 1)) > 5000000000000 * doc_tol base step limit.
Proof.
  exists 0, (2 ^ 50), (3 * 2 ^ 49).
  assert (N : 2 ^ 50 <> 0) by (apply Rgt_not_eq, pow_lt; lra).
  assert (T : doc_tol 0 (2 ^ 50) (3 * 2 ^ 49) = 9 / 2).
  { unfold doc_tol, dbl_eps. rewrite Rabs_R0, Rminus_0_r. rewrite (Rabs_right (3 * 2 ^ 49)), (Rabs_right (2 ^ 50)) by (cbn; lra).
    replace (/ 2 ^ 52 * (5 * (0 + 3 * 2 ^ 49) + 7 * (3 * 2 ^ 49))) with (9 / 2) by (cbn; field). apply Rmin_left. cbn. lra. }
  assert (D : doc_size 0 (2 ^ 50) (3 * 2 ^ 49) 2).
  { unfold doc_size. rewrite T. cbv zeta. split; [lia|]. split; [|cbn; lra]. intros _. split; [intros _|]; cbn; lra. }
  destruct (make_known 0 (2 ^ 50) (3 * 2 ^ 49) 2 N ltac:(unfold int_max; lia) D) as (q & Q & S2). exists q.
  destruct (make_size _ _ _ _ Q) as (_ & B & _ & _ & G & _). destruct (G ltac:(lia)) as [G1 G2].
  split; [assumption|]. split; [reflexivity|]. split; [reflexivity|]. split; [reflexivity|]. split; [assumption|].
  split; [rewrite get_inner by lia; rewrite B; f_equal; ring|]. split.
  - change 1%Z with (2 - 1)%Z. rewrite <- S2 at 1. rewrite get_last by lia. rewrite G2, S2. f_equal. unfold final_limit, last_of.
    replace (0 + 2 ^ 50 * (2 - 1)) with (2 ^ 50) by ring.
    rewrite Rleb_false; [rewrite Bool.andb_false_r; reflexivity|].
    rewrite (Rabs_right (3 * 2 ^ 49)), (Rabs_right (2 ^ 50)), (Rabs_right (3 * 2 ^ 49 - 2 ^ 50)) by (cbn; lra).
    rewrite Rmax_left by (cbn; lra). unfold dbl_eps. replace (4 * / 2 ^ 52 * 2 ^ 50) with 1 by (cbn; field). cbn; lra.
  - rewrite T. replace (3 * 2 ^ 49 - (0 + 2 ^ 50 * 1)) with (2 ^ 49) by (cbn; lra). rewrite Rabs_right by (cbn; lra). cbn; lra.
Qed.
Print Assumptions C75_elements_refuted.
(* Iterating from begin() to end() visits the elements in order, and CopyTo copies exactly them
   unless there are more than 10^9. *)
Theorem C75_iteration : forall base step limit s, seq_make base step limit = Ok s ->
  exists l, seq_iterate (S (Z.to_nat (seq_size s))) s (seq_begin s) = Ok l /\ Z.of_nat (length l) = seq_size s /\
    (forall j, (j < length l)%nat -> seq_get s (Z.of_nat j) = Ok (nth j l 0)) /\
    ((seq_size s <= 1000000000)%Z -> seq_copy s = Ok l) /\ ((1000000000 < seq_size s)%Z -> seq_copy s = CheckFail).
Proof.
  intros b s l q E. destruct (make_size _ _ _ _ E) as (_ & _ & (P & _) & _).
  destruct (iterate_from q (Z.to_nat (seq_size q)) (S (Z.to_nat (seq_size q))) 0 ltac:(lia) ltac:(lia) ltac:(lia)) as (r & R & L & G).
  exists r. split; [assumption|]. split; [lia|]. split; [intros j Hj; apply G; lia|]. unfold seq_copy, seq_begin. rewrite R.
  split; intros H; [rewrite (proj2 (Z.leb_le _ _) H)|rewrite (proj2 (Z.leb_gt _ _) H)]; reflexivity.
Qed.
Print Assumptions C75_iteration.
(* the documented example ArithmeticSequence(1.2, 0.1, 1.5), with exact values *)
Example C75_case : exists s l, seq_make (6 / 5) (1 / 10) (3 / 2) = Ok s /\ seq_copy s = Ok l /\ l = (6 / 5 :: 13 / 10 :: 7 / 5 :: 3 / 2 :: nil).
Proof.
  assert (A : forall x, intended x x).
  { intros x. unfold intended. rewrite Rminus_diag_eq by reflexivity. rewrite Rabs_R0. apply Rmult_le_pos; [pose proof eps_pos; lra|apply Rabs_pos]. }
  destruct (C75_whole_steps (6 / 5) (1 / 10) (3 / 2) (6 / 5) (1 / 10) (3 / 2) 3) as (s & E & S4 & _); auto; try lra; try lia.
  { pose proof eps_small. pose proof eps_pos. rewrite !Rabs_right by lra. lra. }
  destruct (C75_iteration _ _ _ _ E) as (l & _ & L & G & C & _). exists s, l. cbn in S4. rewrite S4 in *. split; [assumption|]. split; [apply C; lia|].
  destruct (C75_elements_partial _ _ _ _ E) as (El & _). rewrite S4 in El.
  destruct l as [|v0 [|v1 [|v2 [|v3 [|]]]]]; cbn in L; try lia.
  assert (X : forall j, (j < 4)%nat -> nth j (v0 :: v1 :: v2 :: v3 :: nil) 0 = 6 / 5 + 1 / 10 * INR j).
  { intros j Hj. specialize (G j ltac:(cbn; lia)). destruct (El (Z.of_nat j) ltac:(lia)) as (v & V & A1 & _ & _ & _ & A2). assert (G' : v = nth j (v0 :: v1 :: v2 :: v3 :: nil) 0) by congruence. rewrite <- G'.
    rewrite <- INR_IZR_INZ in *. destruct (Nat.eq_dec j 3) as [->|]; [|apply A1; lia]. cbn in A2 |- *. rewrite A2; lra. }
  pose proof (X 0%nat ltac:(lia)) as X0. pose proof (X 1%nat ltac:(lia)) as X1. pose proof (X 2%nat ltac:(lia)) as X2. pose proof (X 3%nat ltac:(lia)) as X3.
  cbn in X0, X1, X2, X3. rewrite X0, X1, X2, X3. apply f_equal2; [lra|]. apply f_equal2; [lra|]. apply f_equal2; [lra|]. apply f_equal2; [lra|reflexivity].
Qed.
