(* The closed-form Fourier transforms are the Fourier integrals. *)
From Verif Require Import Common RealUtil BesselModel WindowModel WindowSpec WindowProofs WindowProofs3.
From Coquelicot Require Import Hierarchy Derive Continuity RInt RInt_analysis AutoDerive.
From Coq Require Import Lia.
Local Open Scope R_scope.

Lemma is_RInt_val (f : R -> R) (a b u v : R) : is_RInt f a b u -> u = v -> is_RInt f a b v.
Proof. intros H <-. exact H. Qed.

Lemma sin_2PI' : sin (2 * PI) = 0. Proof. apply sin_2PI. Qed.
Lemma sin_3PI : sin (3 * PI) = 0.
Proof. replace (3 * PI) with (PI + 2 * INR 1 * PI) by (cbn; ring). rewrite sin_period. apply sin_PI. Qed.
Lemma cos_3PI : cos (3 * PI) = -1.
Proof. replace (3 * PI) with (PI + 2 * INR 1 * PI) by (cbn; ring). rewrite cos_period. apply cos_PI. Qed.

Lemma sinc_root n g : 0 < n -> sin (n * PI) = 0 -> n * n - g * g = 0 -> off_tolerance (PI * g) ->
  sinc (PI * g) = 0.
Proof.
  intros Hn Hs E O. pose proof PI_RGT_0.
  assert (g = n \/ g = - n) as G.
  { assert ((n - g) * (n + g) = 0) as M by lra. apply Rmult_integral in M. lra. }
  rewrite (sinc_off _ O). destruct (Req_EM_T (PI * g) 0) as [Z|Z].
  - exfalso. apply Rmult_integral in Z. lra.
  - replace (sin (PI * g)) with 0; [unfold Rdiv; ring|].
    destruct G as [-> | ->].
    + rewrite Rmult_comm. symmetry. exact Hs.
    + replace (PI * - n) with (- (n * PI)) by ring. rewrite sin_neg, Hs. ring.
Qed.

(* The integral of cos (n pi x / r) cos (2 pi f x) at n = 1, 2, 3. *)
Section N.
Context (f r : R).
Hypothesis Hr : 0 < r.
Hypothesis O : off_tolerance (PI * (2 * f * r)).
Let g := 2 * f * r.

Lemma cc1 : (1 - g * g = 0 -> cc (PI / r) (2 * PI * f) r = r) /\
  (1 - g * g <> 0 -> cc (PI / r) (2 * PI * f) r = r * 2 * sinc (PI * g) * (g * g / (1 - g * g))).
Proof.
  pose proof (cc_n_val 1 f r (-1) Hr ltac:(lra)
    ltac:(rewrite Rmult_1_l; apply sin_PI) ltac:(rewrite Rmult_1_l; apply cos_PI) ltac:(lra) O) as (A & B).
  rewrite !Rmult_1_l in A, B. fold g in A, B.
  split; [exact A|]. intros H. rewrite (B H). f_equal. unfold Rdiv. ring.
Qed.
Lemma cc2 : (4 - g * g = 0 -> cc (2 * PI / r) (2 * PI * f) r = r) /\
  (4 - g * g <> 0 -> cc (2 * PI / r) (2 * PI * f) r = r * 2 * sinc (PI * g) * (- (g * g) / (4 - g * g))).
Proof.
  pose proof (cc_n_val 2 f r 1 Hr ltac:(lra) sin_2PI' cos_2PI ltac:(lra) O) as (A & B).
  replace (2 * 2) with 4 in A, B by lra. fold g in A, B.
  split; [exact A|]. intros H. rewrite (B H). f_equal. unfold Rdiv. ring.
Qed.
Lemma cc3 : (9 - g * g = 0 -> cc (3 * PI / r) (2 * PI * f) r = r) /\
  (9 - g * g <> 0 -> cc (3 * PI / r) (2 * PI * f) r = r * 2 * sinc (PI * g) * (g * g / (9 - g * g))).
Proof.
  pose proof (cc_n_val 3 f r (-1) Hr ltac:(lra) sin_3PI cos_3PI ltac:(lra) O) as (A & B).
  replace (3 * 3) with 9 in A, B by lra. fold g in A, B.
  split; [exact A|]. intros H. rewrite (B H). f_equal. unfold Rdiv. ring.
Qed.

Lemma root1 : 1 - g * g = 0 -> sinc (PI * g) = 0.
Proof. intros H. apply (sinc_root 1); [lra|rewrite Rmult_1_l; apply sin_PI|lra|exact O]. Qed.
Lemma root2 : 4 - g * g = 0 -> sinc (PI * g) = 0.
Proof. intros H. apply (sinc_root 2); [lra|apply sin_2PI'|lra|exact O]. Qed.
Lemma root3 : 9 - g * g = 0 -> sinc (PI * g) = 0.
Proof. intros H. apply (sinc_root 3); [lra|apply sin_3PI|lra|exact O]. Qed.
End N.

Lemma ft_rect m r f : 0 < r -> off_tolerance (2 * PI * f * r) ->
  fourier (eval Rectangular r) r f (snd (eval_ft (mkWindow Rectangular r m) f)).
Proof.
  intros Hr O. assert (V : valid Rectangular r) by (split; [exact Hr|exact I]).
  apply (fourier_ext _ r f _ (fun _ => 1) V).
  { intros x Hx. apply (eval_documented Rectangular r x V Hx). }
  cbn [eval_ft wi_kind wi_radius snd]. unfold fourier.
  apply (is_RInt_ext (fun x => cos (2 * PI * f * x))); [intros x _; req; ring|].
  apply (is_RInt_val _ _ _ _ _ (cc_0 (2 * PI * f) r)).
  replace (2 * PI * f * r) with (PI * (2 * f * r)) in * by ring. apply cc_0_val; assumption.
Qed.

Lemma ft_cosine m r f : 0 < r ->
  off_tolerance (PI * PI - 4 * (2 * PI * f * r) * (2 * PI * f * r)) ->
  fourier (eval Cosine r) r f (snd (eval_ft (mkWindow Cosine r m) f)).
Proof.
  intros Hr O. assert (V : valid Cosine r) by (split; [exact Hr|exact I]).
  apply (fourier_ext _ r f _ (fun x => cos (PI / 2 / r * x)) V).
  { intros x Hx. pose proof (eval_documented Cosine r x V Hx) as E. cbn [documented] in E.
    rewrite E. f_equal. field. lra. }
  cbn [eval_ft wi_kind wi_radius snd]. unfold fourier.
  apply (is_RInt_val _ _ _ _ _ (cc_spec (PI / 2 / r) (2 * PI * f) r)).
  rewrite (off_leb _ O). pose proof PI_RGT_0 as P. unfold cc.
  assert (E : PI / 2 / r * (PI / 2 / r) - 2 * PI * f * (2 * PI * f)
            = (/ (2 * r) * / (2 * r)) * (PI * PI - 4 * (2 * PI * f * r) * (2 * PI * f * r)))
    by (field; lra).
  rewrite E. replace (PI / 2 / r * r) with (PI / 2) by (field; lra).
  set (D := PI * PI - 4 * (2 * PI * f * r) * (2 * PI * f * r)) in *.
  rewrite sin_PI2, cos_PI2.
  assert (R2 : 0 < / (2 * r)) by (apply Rinv_0_lt_compat; lra).
  destruct (Req_EM_T D 0) as [Z|Z].
  - rewrite Z, Rmult_0_r. destruct (Req_EM_T 0 0); [|lra].
    destruct (Req_EM_T (PI / 2 / r) 0) as [Z2|Z2]; [|unfold Rdiv; ring].
    exfalso. assert (0 < PI / 2 / r); [|lra].
    apply Rmult_lt_0_compat; [lra|apply Rinv_0_lt_compat; lra].
  - destruct (Req_EM_T (/ (2 * r) * / (2 * r) * D) 0) as [Z2|Z2].
    + exfalso. apply Rmult_integral in Z2 as [Z2|Z2]; [|tauto].
      apply Rmult_integral in Z2 as [Z2|Z2]; lra.
    + clearbody D. field. split; lra.
Qed.

Lemma ft_hann m r f : 0 < r -> off_tolerance (PI * (2 * f * r)) ->
  off_tolerance (1 - 2 * f * r * (2 * f * r)) ->
  fourier (eval Hann r) r f (snd (eval_ft (mkWindow Hann r m) f)).
Proof.
  intros Hr O O1. assert (V : valid Hann r) by (split; [exact Hr|exact I]).
  apply (fourier_ext _ r f _ (fun x => 1 / 2 + 1 / 2 * cos (PI / r * x)) V).
  { intros x Hx. pose proof (eval_documented Hann r x V Hx) as E. cbn [documented] in E.
    rewrite E. do 3 f_equal. field. lra. }
  cbn [eval_ft wi_kind wi_radius snd]. unfold fourier.
  apply (is_RInt_ext (fun x => 1 / 2 * cos (2 * PI * f * x) +
                               1 / 2 * (cos (PI / r * x) * cos (2 * PI * f * x)))).
  { intros x _. req. ring. }
  apply (is_RInt_val _ _ _ _ _ (lin2 _ _ _ _ _ _ (1 / 2) (1 / 2)
    (cc_0 (2 * PI * f) r) (cc_spec (PI / r) (2 * PI * f) r))).
  rewrite (off_leb _ O1). rewrite (cc_0_val f r Hr O).
  destruct (Req_EM_T (1 - 2 * f * r * (2 * f * r)) 0) as [Z|Z].
  - rewrite (proj1 (cc1 f r Hr O) Z), (root1 f r O Z). field.
  - rewrite (proj2 (cc1 f r Hr O) Z). set (S := sinc _). clearbody S. field. exact Z.
Qed.

Lemma ft_hamming m r f : 0 < r -> off_tolerance (PI * (2 * f * r)) ->
  off_tolerance (1 - 2 * f * r * (2 * f * r)) ->
  fourier (eval Hamming r) r f (snd (eval_ft (mkWindow Hamming r m) f)).
Proof.
  intros Hr O O1. assert (V : valid Hamming r) by (split; [exact Hr|exact I]).
  apply (fourier_ext _ r f _ (fun x => 54 / 100 + 46 / 100 * cos (PI / r * x)) V).
  { intros x Hx. pose proof (eval_documented Hamming r x V Hx) as E. cbn [documented] in E.
    rewrite E. do 3 f_equal. field. lra. }
  cbn [eval_ft wi_kind wi_radius snd]. unfold fourier.
  apply (is_RInt_ext (fun x => 54 / 100 * cos (2 * PI * f * x) +
                               46 / 100 * (cos (PI / r * x) * cos (2 * PI * f * x)))).
  { intros x _. req. ring. }
  apply (is_RInt_val _ _ _ _ _ (lin2 _ _ _ _ _ _ (54 / 100) (46 / 100)
    (cc_0 (2 * PI * f) r) (cc_spec (PI / r) (2 * PI * f) r))).
  rewrite (off_ltb _ O1). rewrite (cc_0_val f r Hr O).
  destruct (Req_EM_T (1 - 2 * f * r * (2 * f * r)) 0) as [Z|Z].
  - rewrite (proj1 (cc1 f r Hr O) Z), (root1 f r O Z). field.
  - rewrite (proj2 (cc1 f r Hr O) Z). set (S := sinc _). clearbody S. field. exact Z.
Qed.

Lemma ft_nuttall m r f : 0 < r -> off_tolerance (PI * (2 * f * r)) ->
  off_tolerance (1 - 2 * f * r * (2 * f * r)) -> off_tolerance (4 - 2 * f * r * (2 * f * r)) ->
  off_tolerance (9 - 2 * f * r * (2 * f * r)) ->
  fourier (eval Nuttall r) r f (snd (eval_ft (mkWindow Nuttall r m) f)).
Proof.
  intros Hr O O1 O2 O3. assert (V : valid Nuttall r) by (split; [exact Hr|exact I]).
  apply (fourier_ext _ r f _ (fun x => 3635819 / 10 ^ 7 + 4891775 / 10 ^ 7 * cos (PI / r * x)
     + 1365995 / 10 ^ 7 * cos (2 * PI / r * x) + 106411 / 10 ^ 7 * cos (3 * PI / r * x)) V).
  { intros x Hx. pose proof (eval_documented Nuttall r x V Hx) as E. cbn [documented] in E.
    rewrite E. replace (2 * (PI * (x / r))) with (2 * PI / r * x) by (field; lra).
    replace (3 * (PI * (x / r))) with (3 * PI / r * x) by (field; lra).
    replace (PI * (x / r)) with (PI / r * x) by (field; lra). reflexivity. }
  cbn [eval_ft wi_kind wi_radius snd]. unfold fourier.
  set (a0 := 3635819 / 10 ^ 7). set (a1 := 4891775 / 10 ^ 7).
  set (a2 := 1365995 / 10 ^ 7). set (a3 := 106411 / 10 ^ 7). clearbody a0 a1 a2 a3.
  apply (is_RInt_ext (fun x =>
     1 * (a0 * cos (2 * PI * f * x) + a1 * (cos (PI / r * x) * cos (2 * PI * f * x))) +
     1 * (a2 * (cos (2 * PI / r * x) * cos (2 * PI * f * x))
        + a3 * (cos (3 * PI / r * x) * cos (2 * PI * f * x))))).
  { intros x _. req. ring. }
  apply (is_RInt_val _ _ _ _ _ (lin2 _ _ _ _ _ _ 1 1
    (lin2 _ _ _ _ _ _ a0 a1 (cc_0 (2 * PI * f) r) (cc_spec (PI / r) (2 * PI * f) r))
    (lin2 _ _ _ _ _ _ a2 a3 (cc_spec (2 * PI / r) (2 * PI * f) r)
                             (cc_spec (3 * PI / r) (2 * PI * f) r)))).
  rewrite (off_ltb _ O1), (off_ltb _ O2), (off_ltb _ O3). rewrite (cc_0_val f r Hr O).
  pose proof (cc1 f r Hr O) as C1. pose proof (cc2 f r Hr O) as C2. pose proof (cc3 f r Hr O) as C3.
  pose proof (root1 f r O) as R1. pose proof (root2 f r O) as R2. pose proof (root3 f r O) as R3.
  set (g2 := 2 * f * r * (2 * f * r)) in *. set (S := sinc _) in *. clearbody S.
  destruct (Req_EM_T (1 - g2) 0) as [Z1|Z1].
  - rewrite (R1 Z1). rewrite (proj1 C1 Z1), (proj2 C2), (proj2 C3) by lra. rewrite (R1 Z1). unfold Rdiv. ring.
  - destruct (Req_EM_T (4 - g2) 0) as [Z2|Z2].
    + rewrite (R2 Z2). rewrite (proj1 C2 Z2), (proj2 C1), (proj2 C3) by lra. rewrite (R2 Z2). unfold Rdiv. ring.
    + destruct (Req_EM_T (9 - g2) 0) as [Z3|Z3].
      * rewrite (R3 Z3). rewrite (proj1 C3 Z3), (proj2 C1), (proj2 C2) by lra. rewrite (R3 Z3). unfold Rdiv. ring.
      * rewrite (proj2 C1 Z1), (proj2 C2 Z2), (proj2 C3 Z3). clearbody g2. field. tauto.
Qed.

Lemma quartic_int c2 c4 b r : 0 < r -> b <> 0 ->
  is_RInt (fun x => (1 + c2 * (x / r) ^ 2 + c4 * (x / r) ^ 4) * cos (b * x)) (- r) r
   (2 * ((1 + c2 + c4) * sin (b * r) / b + (2 * c2 + 4 * c4) / r * cos (b * r) / b ^ 2
     - (2 * c2 + 12 * c4) / r ^ 2 * sin (b * r) / b ^ 3 - 24 * c4 / r ^ 3 * cos (b * r) / b ^ 4
     + 24 * c4 / r ^ 4 * sin (b * r) / b ^ 5)).
Proof.
  intros Hr N.
  pose (F := fun x : R =>
     (1 + c2 * (x / r) ^ 2 + c4 * (x / r) ^ 4) * sin (b * x) / b
     + (2 * c2 * x / r ^ 2 + 4 * c4 * x ^ 3 / r ^ 4) * cos (b * x) / b ^ 2
     - (2 * c2 / r ^ 2 + 12 * c4 * x ^ 2 / r ^ 4) * sin (b * x) / b ^ 3
     - 24 * c4 * x / r ^ 4 * cos (b * x) / b ^ 4
     + 24 * c4 / r ^ 4 * sin (b * x) / b ^ 5).
  apply (is_RInt_val _ _ _ (F r - F (- r))).
  2:{ unfold F. replace (b * - r) with (- (b * r)) by ring. rewrite sin_neg, cos_neg.
      set (s := sin _). set (c := cos _). clearbody s c. field. split; lra. }
  apply (is_RInt_antideriv F).
  - intros x. unfold F. auto_derive; [exact I|].
    set (s := sin _). set (c := cos _). clearbody s c. field. split; lra.
  - intros x. apply (ex_derive_continuous (K := R_AbsRing) (V := R_NormedModule)).
    auto_derive. exact I.
Qed.

Lemma quartic_int0 c2 c4 r : 0 < r ->
  is_RInt (fun x => 1 + c2 * (x / r) ^ 2 + c4 * (x / r) ^ 4) (- r) r
   (r * 2 * (1 + c2 / 3 + c4 / 5)).
Proof.
  intros Hr.
  pose (F := fun x : R => x + c2 * x ^ 3 / (3 * r ^ 2) + c4 * x ^ 5 / (5 * r ^ 4)).
  apply (is_RInt_val _ _ _ (F r - F (- r))).
  2:{ unfold F. field. lra. }
  apply (is_RInt_antideriv F).
  - intros x. unfold F. auto_derive; [exact I|]. field. lra.
  - intros x. apply (ex_derive_continuous (K := R_AbsRing) (V := R_NormedModule)).
    auto_derive. exact I.
Qed.

Lemma ft_quartic c2 c4 m r f : valid (Quartic c2 c4) r -> off_tolerance (2 * PI * f * r) ->
  fourier (eval (Quartic c2 c4) r) r f (snd (eval_ft (mkWindow (Quartic c2 c4) r m) f)).
Proof.
  intros V O. pose proof (proj1 V) as Hr. pose proof PI_RGT_0 as P.
  apply (fourier_ext _ r f _ (fun x => 1 + c2 * (x / r) ^ 2 + c4 * (x / r) ^ 4) V).
  { intros x Hx. exact (eval_documented (Quartic c2 c4) r x V Hx). }
  cbn [eval_ft wi_kind wi_radius snd]. unfold fourier. rewrite (off_leb _ O), (sinc_off _ O).
  destruct (Req_EM_T (2 * PI * f * r) 0) as [Z|Z].
  - assert (f = 0) as ->.
    { apply Rmult_integral in Z as [Z|Z]; [|lra]. apply Rmult_integral in Z as [Z|Z]; lra. }
    apply (is_RInt_ext (fun x => 1 + c2 * (x / r) ^ 2 + c4 * (x / r) ^ 4)); [|apply quartic_int0, Hr].
    intros x _. replace (2 * PI * 0 * x) with 0 by ring. rewrite cos_0. req. ring.
  - assert (Nb : 2 * PI * f <> 0) by (intros E; apply Z; rewrite E; ring).
    apply (is_RInt_val _ _ _ _ _ (quartic_int c2 c4 (2 * PI * f) r Hr Nb)).
    set (b := 2 * PI * f) in *. clearbody b. set (s := sin _). set (c := cos _). clearbody s c.
    field. split; lra.
Qed.

Lemma ft_all k m r f : valid k r -> closed_form k -> List.Forall off_tolerance (singular k r f) ->
  fourier (eval k r) r f (snd (eval_ft (mkWindow k r m) f)).
Proof.
  intros V C F. pose proof (proj1 V) as Hr.
  destruct k; cbn [closed_form singular] in *; try tauto;
    repeat match goal with
    | H : List.Forall _ (cons _ _) |- _ =>
        let h := fresh "O" in pose proof (Forall_inv H) as h; apply Forall_inv_tail in H end.
  - apply ft_rect; assumption.
  - apply ft_cosine; assumption.
  - apply ft_hamming; assumption.
  - apply ft_hann; assumption.
  - apply ft_nuttall; assumption.
  - apply ft_quartic; assumption.
Qed.
