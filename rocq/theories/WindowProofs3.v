(* Fourier transforms of the windows. *)
From Verif Require Import Common RealUtil BesselModel WindowModel WindowSpec WindowProofs.
From Coquelicot Require Import Hierarchy Derive Continuity RInt RInt_analysis AutoDerive.
From Coq Require Import Lia.
Local Open Scope R_scope.

Ltac req := match goal with |- ?a = ?b => change (@eq R a b) end.

Lemma is_RInt_antideriv (F f : R -> R) a b :
  (forall x, is_derive F x (f x)) -> (forall x, continuous f x) ->
  is_RInt f a b (F b - F a).
Proof.
  intros HF Hf. apply (@is_RInt_derive R_CompleteNormedModule F f a b); intros x _; auto.
Qed.

Lemma cc_int a b r : a * a - b * b <> 0 ->
  is_RInt (fun x => cos (a * x) * cos (b * x)) (- r) r
    (2 * (a * sin (a * r) * cos (b * r) - b * cos (a * r) * sin (b * r)) / (a * a - b * b)).
Proof.
  intros N.
  pose (F := fun x : R => (a * sin (a * x) * cos (b * x) - b * cos (a * x) * sin (b * x)) / (a * a - b * b)).
  replace (2 * (a * sin (a * r) * cos (b * r) - b * cos (a * r) * sin (b * r)) / (a * a - b * b)) with (F r - F (- r)).
  2:{ unfold F. replace (a * - r) with (- (a * r)) by ring. replace (b * - r) with (- (b * r)) by ring.
      rewrite !sin_neg, !cos_neg. field. exact N. }
  apply (is_RInt_antideriv F).
  - intros x. unfold F. auto_derive; [exact I|]. field. exact N.
  - intros x. apply (ex_derive_continuous (K := R_AbsRing) (V := R_NormedModule)).
    auto_derive. exact I.
Qed.

Lemma cc_int_eq a r : a <> 0 ->
  is_RInt (fun x => cos (a * x) * cos (a * x)) (- r) r (r + sin (a * r) * cos (a * r) / a).
Proof.
  intros N.
  pose (F := fun x : R => x / 2 + sin (a * x) * cos (a * x) / (2 * a)).
  replace (r + sin (a * r) * cos (a * r) / a) with (F r - F (- r)).
  2:{ unfold F. replace (a * - r) with (- (a * r)) by ring.
      rewrite !sin_neg, !cos_neg. field. exact N. }
  apply (is_RInt_antideriv F).
  - intros x. unfold F. auto_derive; [exact I|]. pose proof (sin2_cos2 (a * x)) as H. unfold Rsqr in H.
    set (s := sin _) in *. set (c := cos _) in *. clearbody s c.
    replace (1 * / 2 + (a * 1 * c * c + s * (a * 1 * - s)) * / (2 * a))
      with (1 / 2 * (1 + c * c - s * s)) by (field; exact N).
    replace (s * s) with (1 - c * c) by lra. lra.
  - intros x. apply (ex_derive_continuous (K := R_AbsRing) (V := R_NormedModule)).
    auto_derive. exact I.
Qed.

Lemma c1_int b r : b <> 0 -> is_RInt (fun x => cos (b * x)) (- r) r (2 * sin (b * r) / b).
Proof.
  intros N.
  pose (F := fun x : R => sin (b * x) / b).
  replace (2 * sin (b * r) / b) with (F r - F (- r)).
  2:{ unfold F. replace (b * - r) with (- (b * r)) by ring. rewrite sin_neg. field. exact N. }
  apply (is_RInt_antideriv F).
  - intros x. unfold F. auto_derive; [exact I|]. field. exact N.
  - intros x. apply (ex_derive_continuous (K := R_AbsRing) (V := R_NormedModule)).
    auto_derive. exact I.
Qed.

Lemma c0_int r : is_RInt (fun _ => 1) (- r) r (2 * r).
Proof.
  replace (2 * r) with (scal (r - - r) 1) by (unfold scal; cbn; unfold mult; cbn; lra).
  apply (is_RInt_const (V := R_NormedModule)).
Qed.

(* Value of the integral of cos (a x) cos (b x) in every case. *)
Definition cc (a b r : R) : R :=
  if Req_EM_T (a * a - b * b) 0
  then (if Req_EM_T a 0 then 2 * r else r + sin (a * r) * cos (a * r) / a)
  else 2 * (a * sin (a * r) * cos (b * r) - b * cos (a * r) * sin (b * r)) / (a * a - b * b).

Lemma cc_spec a b r : is_RInt (fun x => cos (a * x) * cos (b * x)) (- r) r (cc a b r).
Proof.
  unfold cc. destruct (Req_EM_T (a * a - b * b) 0) as [E|N]; [|apply cc_int; exact N].
  assert (AB : b = a \/ b = - a).
  { assert ((a - b) * (a + b) = 0) as M by lra. apply Rmult_integral in M. lra. }
  assert (EX : forall x, cos (a * x) * cos (a * x) = cos (a * x) * cos (b * x)).
  { intros x. destruct AB as [-> | ->]; [reflexivity|].
    replace (- a * x) with (- (a * x)) by ring. rewrite cos_neg. reflexivity. }
  destruct (Req_EM_T a 0) as [->|Na].
  - apply (is_RInt_ext (fun _ => 1)); [|apply c0_int].
    intros x _. rewrite <- EX. rewrite Rmult_0_l, cos_0. req. ring.
  - apply (is_RInt_ext (fun x => cos (a * x) * cos (a * x))); [|apply cc_int_eq; exact Na].
    intros x _. apply EX.
Qed.

Lemma cc_0 b r : is_RInt (fun x => cos (b * x)) (- r) r (cc 0 b r).
Proof.
  apply (is_RInt_ext (fun x => cos (0 * x) * cos (b * x))); [|apply cc_spec].
  intros x _. rewrite Rmult_0_l, cos_0. req. ring.
Qed.

Lemma lin2 (f g : R -> R) (a b u v c d : R) : is_RInt f a b u -> is_RInt g a b v ->
  is_RInt (fun x => c * f x + d * g x) a b (c * u + d * v).
Proof.
  intros Hf Hg.
  apply (is_RInt_plus (V := R_NormedModule) (fun x => c * f x) (fun x => d * g x) a b (c * u) (d * v)).
  - apply (is_RInt_scal (V := R_NormedModule) f a b c u Hf).
  - apply (is_RInt_scal (V := R_NormedModule) g a b d v Hg).
Qed.

(* Replacing Eval by its documented formula inside the support. *)
Lemma fourier_ext k r f v (D : R -> R) : valid k r ->
  (forall x, Rabs x <= r -> eval k r x = D x) ->
  fourier D r f v -> fourier (eval k r) r f v.
Proof.
  intros V E H. unfold fourier in *.
  apply (is_RInt_ext (fun x => D x * cos (2 * PI * f * x))); [|exact H].
  intros x Hx. rewrite E; [reflexivity|]. pose proof (proj1 V).
  rewrite Rmin_left, Rmax_right in Hx by lra. apply Rabs_le. lra.
Qed.

Lemma sinc_off t : off_tolerance t -> sinc t = if Req_EM_T t 0 then 1 else sin t / t.
Proof.
  intros H. unfold sinc, sincTol, off_tolerance in *. destruct (Req_EM_T t 0) as [->|N].
  - rewrite Rabs_R0, Rltb_true; [reflexivity|]. apply Rinv_0_lt_compat, pow_lt. lra.
  - rewrite Rltb_false; [reflexivity|]. tauto.
Qed.

Lemma off_ltb t : off_tolerance t -> Rltb (Rabs t) sincTol = if Req_EM_T t 0 then true else false.
Proof.
  intros H. unfold sincTol, off_tolerance in *. destruct (Req_EM_T t 0) as [->|N].
  - rewrite Rabs_R0, Rltb_true; [reflexivity|]. apply Rinv_0_lt_compat, pow_lt. lra.
  - rewrite Rltb_false; [reflexivity|]. tauto.
Qed.
Lemma off_leb t : off_tolerance t -> Rleb sincTol (Rabs t) = if Req_EM_T t 0 then false else true.
Proof.
  intros H. unfold sincTol, off_tolerance in *. destruct (Req_EM_T t 0) as [->|N].
  - rewrite Rabs_R0, Rleb_false; [reflexivity|]. apply Rinv_0_lt_compat, pow_lt. lra.
  - rewrite Rleb_true; [reflexivity|]. tauto.
Qed.

(* Integral of cos (n pi x / r) cos (2 pi f x), with g = 2 f r. *)
Lemma cc_0_val f r : 0 < r -> off_tolerance (PI * (2 * f * r)) ->
  cc 0 (2 * PI * f) r = 2 * r * sinc (PI * (2 * f * r)).
Proof.
  intros Hr O. rewrite (sinc_off _ O). pose proof PI_RGT_0 as P. unfold cc.
  destruct (Req_EM_T (PI * (2 * f * r)) 0) as [E|N].
  - assert (f = 0) as ->.
    { apply Rmult_integral in E as [E|E]; [lra|]. apply Rmult_integral in E as [E|E]; lra. }
    destruct (Req_EM_T (0 * 0 - 2 * PI * 0 * (2 * PI * 0)) 0) as [_|N]; [|exfalso; apply N; ring].
    destruct (Req_EM_T 0 0); [ring|lra].
  - assert (Nf : f <> 0) by (intros ->; apply N; ring).
    destruct (Req_EM_T (0 * 0 - 2 * PI * f * (2 * PI * f)) 0) as [E|_].
    { exfalso. assert ((2 * PI * f) * (2 * PI * f) = 0) as E2 by lra.
      apply Rmult_integral in E2 as [E2|E2]; apply Rmult_integral in E2 as [E2|E2]; lra. }
    rewrite (Rmult_0_l r), sin_0, cos_0.
    replace (PI * (2 * f * r)) with (2 * PI * f * r) by ring.
    field. repeat split; lra.
Qed.

Lemma cc_n_val (n f r : R) (sgn : R) : 0 < r -> 0 < n -> sin (n * PI) = 0 -> cos (n * PI) = sgn ->
  sgn * sgn = 1 ->
  off_tolerance (PI * (2 * f * r)) ->
  (n * n - 2 * f * r * (2 * f * r) = 0 -> cc (n * PI / r) (2 * PI * f) r = r) /\
  (n * n - 2 * f * r * (2 * f * r) <> 0 ->
   cc (n * PI / r) (2 * PI * f) r =
   r * 2 * sinc (PI * (2 * f * r)) * (- sgn * (2 * f * r * (2 * f * r)) / (n * n - 2 * f * r * (2 * f * r)))).
Proof.
  intros Hr Hn Hs Hc Hsgn O. pose proof PI_RGT_0 as P.
  assert (Ear : n * PI / r * r = n * PI) by (field; lra).
  assert (Ed : n * PI / r * (n * PI / r) - 2 * PI * f * (2 * PI * f)
             = (PI / r) * (PI / r) * (n * n - 2 * f * r * (2 * f * r))) by (field; lra).
  assert (Pr : 0 < PI / r) by (apply Rmult_lt_0_compat; [lra|apply Rinv_0_lt_compat; lra]).
  unfold cc. rewrite Ed, Ear. split.
  - intros E. rewrite E, Rmult_0_r. destruct (Req_EM_T 0 0) as [_|]; [|lra].
    destruct (Req_EM_T (n * PI / r) 0) as [Z|Z].
    + exfalso. assert (0 < n * PI / r); [|lra].
      apply Rmult_lt_0_compat; [apply Rmult_lt_0_compat; lra|apply Rinv_0_lt_compat; lra].
    + rewrite Hs. unfold Rdiv. ring.
  - intros N. destruct (Req_EM_T (PI / r * (PI / r) * (n * n - 2 * f * r * (2 * f * r))) 0) as [Z|Z].
    { exfalso. apply Rmult_integral in Z as [Z|Z]; [|tauto].
      apply Rmult_integral in Z as [Z|Z]; lra. }
    rewrite Hs, Hc. rewrite (sinc_off _ O).
    replace (2 * PI * f * r) with (PI * (2 * f * r)) by ring.
    destruct (Req_EM_T (PI * (2 * f * r)) 0) as [E|N2].
    + rewrite E, sin_0. assert (f = 0) as ->.
      { apply Rmult_integral in E as [E|E]; [lra|]. apply Rmult_integral in E as [E|E]; lra. }
      unfold Rdiv. ring.
    + assert (Nf : f <> 0) by (intros ->; apply N2; ring).
      set (S := sin _). clearbody S. field. repeat split; try lra.
Qed.
