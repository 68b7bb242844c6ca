From Verif Require Import Common ListLemmas RealUtil BiquadModel DesignModel DesignSpec DesignProofs DesignProofs2 DesignProofs3 CascadeModel CascadeSpec CascadeProofs CascadeProofs2 PoleZeroModel PoleZeroSpec PoleZeroProofs PoleZeroProofs2 PoleZeroProofs3 PoleZeroProofs4 PoleZeroProofs5 PolyRoots PoleZeroProofs6 PoleZeroProofs7.
From Coquelicot Require Import Complex.
Local Open Scope R_scope.

(* ---------- Chebyshev polynomials ---------- *)
Notation T := chebyshev_T.
Lemma T_SS n x : T (S (S n)) x = 2 * x * T (S n) x - T n x.
Proof. reflexivity. Qed.
Lemma pair_ind (P : nat -> Prop) : P O -> P 1%nat -> (forall n, P n -> P (S n) -> P (S (S n))) -> forall n, P n.
Proof. intros P0 P1 PS. assert (Q : forall n, P n /\ P (S n)); [|intros n; apply Q]. induction n as [|n [A B]]; auto. Qed.
Lemma T_cassini n x : T (S n) x * T (S n) x + T n x * T n x - 2 * x * T n x * T (S n) x = 1 - x * x.
Proof. induction n as [|n IH]; [cbn; ring|]. rewrite T_SS. rewrite <- IH. ring. Qed.
Lemma T_double n x : T n (2 * x * x - 1) = 2 * T n x * T n x - 1.
Proof.
  induction n as [| |n A B] using pair_ind; [cbn; ring|cbn; ring|]. rewrite !T_SS, A, B. pose proof (T_cassini n x) as C. 
  set (a := T n x) in *. set (b := T (S n) x) in *. 
  replace (2 * (2 * x * b - a) * (2 * x * b - a) - 1) with (2 * (2 * x * x - 1) * (2 * b * b - 1) - (2 * a * a - 1) + 4 * ((b * b + a * a - 2 * x * a * b) - (1 - x * x))) by ring. rewrite C. ring.
Qed.
Lemma T_cos n a : T n (cos a) = cos (INR n * a).
Proof.
  induction n as [| |n A B] using pair_ind; [cbn; now rewrite Rmult_0_l, cos_0|cbn; now rewrite Rmult_1_l|]. rewrite T_SS, A, B.
  rewrite !S_INR. replace ((INR n + 1 + 1) * a) with (INR n * a + a + a) by ring. replace ((INR n + 1) * a) with (INR n * a + a) by ring. replace (cos (INR n * a)) with (cos (INR n * a + a - a)) by (f_equal; ring). rewrite (cos_plus (INR n * a + a)), (cos_minus (INR n * a + a)). ring.
Qed.
Lemma T_opp n x : T n (- x) = (-1) ^ n * T n x.
Proof. induction n as [| |n A B] using pair_ind; [cbn; ring|cbn; ring|]. rewrite !T_SS, A, B. cbn [pow]. ring. Qed.
Lemma T_sq_opp n x : T n (- x) * T n (- x) = T n x * T n x.
Proof.
  rewrite T_opp. replace ((-1) ^ n * T n x * ((-1) ^ n * T n x)) with ((-1) ^ n * (-1) ^ n * (T n x * T n x)) by ring.
  rewrite <- Rpow_mult_distr. replace (-1 * -1) with 1 by ring. rewrite pow1. ring.
Qed.
Lemma T_inside n x : -1 <= x <= 1 -> T n x * T n x <= 1.
Proof. intros H. rewrite <- (cos_acos x H), T_cos. pose proof (COS_bound (INR n * acos x)) as B. nra. Qed.
Lemma T_grow n x : 1 <= x -> 1 <= T n x <= T (S n) x.
Proof. intros H. induction n as [|n IH]; [cbn; lra|]. rewrite T_SS. nra. Qed.
Lemma T_incr n x y : 1 <= x -> x < y -> (0 <= T n y - T n x <= T (S n) y - T (S n) x /\ 0 < T (S n) y - T (S n) x).
Proof.
  intros H1 H2. induction n as [|n (A & B)]; [cbn; lra|].
  assert (Q : T (S n) y - T (S n) x <= T (S (S n)) y - T (S (S n)) x); [|lra].
  rewrite !T_SS. destruct (T_grow n x H1) as [G1 G2]. destruct (T_grow n y ltac:(lra)) as [G3 G4].
  assert (0 <= (y - x) * T (S n) y) by (apply Rmult_le_pos; lra). assert (0 <= (x - 1) * (T (S n) y - T (S n) x)) by (apply Rmult_le_pos; lra). nra.
Qed.
Lemma T_1 n : T n 1 = 1.
Proof. induction n as [| |n A B] using pair_ind; [reflexivity|reflexivity|]. rewrite T_SS, A, B. ring. Qed.
Lemma T_0 n : T n 0 * T n 0 = if Nat.even n then 1 else 0.
Proof. induction n as [| |n A B] using pair_ind; [cbn; ring|cbn; ring|]. rewrite T_SS. cbn [Nat.even]. rewrite <- A. ring. Qed.

(* the same over the complex numbers *)
Fixpoint CT (n : nat) (x : C) : C :=
  match n with
  | O => RtoC 1
  | S m => match m with O => x | S k => Cminus (Cmult (Cmult (RtoC 2) x) (CT m x)) (CT k x) end
  end.
Lemma CT_SS n x : CT (S (S n)) x = Cminus (Cmult (Cmult (RtoC 2) x) (CT (S n) x)) (CT n x).
Proof. reflexivity. Qed.
Lemma CT_real n x : CT n (RtoC x) = RtoC (T n x).
Proof. induction n as [| |n A B] using pair_ind; [reflexivity|reflexivity|]. rewrite CT_SS, T_SS, A, B, RtoC_minus, !RtoC_mult. reflexivity. Qed.
(* T_n((e + 1/e) / 2) = (e^n + 1/e^n) / 2 *)
Lemma CT_joukowski n e f : Cmult e f = RtoC 1 -> Cmult (RtoC 2) (CT n (Cmult (RtoC (/ 2)) (Cplus e f))) = Cplus (cpow e n) (cpow f n).
Proof.
  intros H. assert (D : Cmult (RtoC 2) (RtoC (/ 2)) = RtoC 1) by (rewrite <- RtoC_mult; f_equal; field).
  induction n as [| |n A B] using pair_ind.
  - cbn [CT cpow]. apply injective_projections; cbn; ring.
  - cbn [CT cpow]. rewrite Cmult_assoc, D. ring.
  - rewrite CT_SS. set (x := Cmult (RtoC (/ 2)) (Cplus e f)) in *.
    replace (Cmult (RtoC 2) (Cminus (Cmult (Cmult (RtoC 2) x) (CT (S n) x)) (CT n x))) with (Cminus (Cmult (Cmult (RtoC 2) x) (Cmult (RtoC 2) (CT (S n) x))) (Cmult (RtoC 2) (CT n x))) by ring.
    rewrite A, B. unfold x. rewrite Cmult_assoc, D. cbn [cpow].
    replace (Cplus (Cmult e (Cmult e (cpow e n))) (Cmult f (Cmult f (cpow f n)))) with (Cminus (Cmult (Cplus e f) (Cplus (Cmult e (cpow e n)) (Cmult f (cpow f n)))) (Cmult (Cmult e f) (Cplus (cpow e n) (cpow f n)))) by ring. rewrite H. ring.
Qed.
(* as a polynomial in y, T_n(2 y - 1) has the leading coefficient 2^(2 n - 1) *)
Definition arg (y : C) : C := Cminus (Cmult (RtoC 2) y) (RtoC 1).
Lemma leading_poly n c f : leading n c f -> poly_lt (S n) f.
Proof. intros H. apply poly_ext with (g := fun x => Cplus (Cminus (f x) (Cmult c (cpow x n))) (Cmult c (cpow x n))); [intros x; ring|]. apply poly_add; [apply poly_weaken with n; [lia|exact H]|apply poly_scale, poly_pow]. Qed.
Lemma T_arg_leading n : leading (S n) (RtoC (2 * 4 ^ n)) (fun y => CT (S n) (arg y)).
Proof.
  induction n as [| |n A B] using pair_ind.
  - unfold leading. apply poly_ext with (g := fun _ => RtoC (-1)); [|apply poly_const; lia]. intros x. unfold arg. cbn [CT cpow pow]. rewrite Rmult_1_r, RtoC_m1. ring.
  - unfold leading. apply poly_ext with (g := fun y => Cplus (RtoC 1) (Cmult (RtoC (-8)) (cpow y 1))).
    + intros x. unfold arg. cbn [CT cpow pow]. apply injective_projections; cbn; ring.
    + apply poly_add; [apply poly_const; lia|apply poly_scale, poly_pow].
  - unfold leading. apply poly_ext with (g := fun y => Cminus (Cplus (Cmult (RtoC 4) (Cmult y (Cminus (CT (S (S n)) (arg y)) (Cmult (RtoC (2 * 4 ^ S n)) (cpow y (S (S n))))))) (Cmult (RtoC (-2)) (CT (S (S n)) (arg y)))) (CT (S n) (arg y))).
    + intros x. rewrite (CT_SS (S n)). set (a := CT (S (S n)) (arg x)). set (b := CT (S n) (arg x)). replace (RtoC (2 * 4 ^ S (S n))) with (Cmult (RtoC 4) (RtoC (2 * 4 ^ S n))) by (rewrite <- RtoC_mult; f_equal; cbn [pow]; ring).
      cbn [cpow]. unfold arg. replace (RtoC (-2)) with (Copp (RtoC 2)) by (apply injective_projections; cbn; ring). replace (RtoC 4) with (Cmult (RtoC 2) (RtoC 2)) by (apply injective_projections; cbn; ring). ring.
    + apply poly_sub; [apply poly_add|].
      * apply poly_scale, poly_shift. exact B.
      * apply poly_scale. eapply leading_poly. exact B.
      * apply poly_weaken with (S (S n)); [lia|]. eapply leading_poly. exact A.
Qed.

(* ---------- Chebyshev prototypes ---------- *)
(* 1 + eps^2 T_n(sqrt y)^2 *)
Definition G (n : nat) (eps : R) (y : C) : C := Cplus (RtoC 1) (Cmult (RtoC (eps * eps / 2)) (Cplus (CT n (arg y)) (RtoC 1))).
Lemma G_real n eps x : G n eps (RtoC (x * x)) = RtoC (1 + eps * eps * (T n x * T n x)).
Proof.
  unfold G, arg. rewrite <- RtoC_mult, <- RtoC_minus, CT_real. replace (2 * (x * x) - 1) with (2 * x * x - 1) by ring. rewrite T_double, <- RtoC_plus, <- RtoC_mult, <- RtoC_plus. f_equal. field.
Qed.
Definition lead (n : nat) (eps : R) : R := eps * eps * 4 ^ (n - 1).
Lemma G_leading n eps : (1 <= n)%nat -> leading n (RtoC (lead n eps)) (G n eps).
Proof.
  intros H. destruct n as [|n]; [lia|]. unfold leading, lead. replace (S n - 1)%nat with n by lia.
  apply poly_ext with (g := fun y => Cplus (RtoC (1 + eps * eps / 2)) (Cmult (RtoC (eps * eps / 2)) (Cminus (CT (S n) (arg y)) (Cmult (RtoC (2 * 4 ^ n)) (cpow y (S n)))))).
  - intros x. unfold G. replace (RtoC (eps * eps * 4 ^ n)) with (Cmult (RtoC (eps * eps / 2)) (RtoC (2 * 4 ^ n))) by (rewrite <- RtoC_mult; f_equal; field). rewrite RtoC_plus. ring.
  - apply poly_add; [apply poly_const; lia|]. apply poly_scale. exact (T_arg_leading n).
Qed.
Lemma lead_pos n eps : 0 < eps -> 0 < lead n eps.
Proof. intros H. unfold lead. apply Rmult_lt_0_compat; [nra|apply pow_lt; lra]. Qed.
(* the root of G *)
Definition theta (n : nat) (i : Z) : R := chebyshev_theta (Z.of_nat n) i.
Definition pole1 (mu : R) (n : nat) (i : Z) : C := (- (sinh mu * cos (theta n i)), cosh mu * sin (theta n i)).
Lemma exp_sinh_cosh x : exp x = cosh x + sinh x /\ exp (- x) = cosh x - sinh x.
Proof. unfold cosh, sinh. split; field. Qed.
Lemma cosh2 x : cosh x * cosh x = 1 + sinh x * sinh x.
Proof.
  unfold cosh, sinh. assert (E : exp x * exp (- x) = 1) by (rewrite <- exp_plus; replace (x + - x) with 0 by ring; apply exp_0).
  replace ((exp x + exp (- x)) / 2 * ((exp x + exp (- x)) / 2)) with (((exp x - exp (- x)) / 2 * ((exp x - exp (- x)) / 2)) + exp x * exp (- x)) by field. rewrite E. ring.
Qed.
Lemma exp_pow x n : exp x ^ n = exp (INR n * x).
Proof. induction n as [|n IH]; [cbn; now rewrite Rmult_0_l, exp_0|]. cbn [pow]. rewrite IH, <- exp_plus, S_INR. f_equal. ring. Qed.
Lemma odd_cis k : (Z.rem k 2 <> 0)%Z -> cis (IZR k * PI) = RtoC (-1).
Proof.
  intros H. destruct (Z.Even_or_Odd k) as [[m ->]|[m ->]].
  - exfalso. apply H. rewrite Z.mul_comm. apply Z.rem_mul. lia.
  - rewrite plus_IZR, mult_IZR. replace ((2 * IZR m + IZR 1) * PI) with (PI + 2 * IZR m * PI) by ring. destruct m as [|p|p].
    + rewrite Rmult_0_r, Rmult_0_l, Rplus_0_r. apply cis_pi.
    + replace (IZR (Z.pos p)) with (INR (Pos.to_nat p)) by now rewrite INR_IZR_INZ, positive_nat_Z. now rewrite cis_period, cis_pi.
    + rewrite <- (cis_period _ (Pos.to_nat p)). rewrite INR_IZR_INZ, positive_nat_Z. replace (IZR (Z.neg p)) with (- IZR (Z.pos p)) by (rewrite <- opp_IZR; reflexivity).
      replace (PI + 2 * - IZR (Z.pos p) * PI + 2 * IZR (Z.pos p) * PI) with PI by ring. apply cis_pi.
Qed.
Lemma pole1_root n eps i : (1 <= n)%nat -> 0 < eps -> (Z.rem (Z.of_nat n - i) 2 <> 0)%Z -> G n eps (nsq (pole1 (arcsinh (1 / eps) / INR n) n i)) = RtoC 0.
Proof.
  intros H HE HI. set (a := arcsinh (1 / eps)). set (mu := a / INR n). assert (HN : INR n <> 0) by (apply not_0_INR; lia).
  set (th := theta n i). set (e := Cmult (RtoC (exp mu)) (cis (- th))). set (f := Cmult (RtoC (exp (- mu))) (cis th)).
  assert (EF : Cmult e f = RtoC 1).
  { unfold e, f. replace (Cmult (Cmult (RtoC (exp mu)) (cis (- th))) (Cmult (RtoC (exp (- mu))) (cis th))) with (Cmult (Cmult (RtoC (exp mu)) (RtoC (exp (- mu)))) (Cmult (cis (- th)) (cis th))) by ring.
    rewrite <- RtoC_mult, <- exp_plus, cis_add. replace (mu + - mu) with 0 by ring. replace (- th + th) with 0 by ring. rewrite exp_0. unfold cis. rewrite cos_0, sin_0. apply injective_projections; cbn; ring. }
  assert (EP : pole1 mu n i = Cmult (RtoC (/ 2)) (Cminus f e)).
  { unfold pole1, e, f, cis. fold th. rewrite cos_neg, sin_neg. unfold sinh, cosh. apply injective_projections; cbn; field. }
  assert (EA : arg (nsq (pole1 mu n i)) = Cmult (RtoC (/ 2)) (Cplus (Copp (Cmult e e)) (Copp (Cmult f f)))).
  { unfold arg, nsq. rewrite EP. replace (RtoC 1) with (Cmult e f). assert (D : Cmult (RtoC 2) (RtoC (/ 2)) = RtoC 1) by (rewrite <- RtoC_mult; f_equal; field). assert (HH : Cplus (RtoC (/ 2)) (RtoC (/ 2)) = RtoC 1) by (rewrite <- RtoC_plus; f_equal; field). set (h := RtoC (/ 2)) in *. clearbody h. clearbody e f. set (w := RtoC 2) in *. clearbody w.
    replace (Cminus (Cmult w (Copp (Cmult (Cmult h (Cminus f e)) (Cmult h (Cminus f e))))) (Cmult e f)) with
      (Cplus (Cmult (Cmult w h) (Cplus (Cmult h (Cplus (Copp (Cmult e e)) (Copp (Cmult f f)))) (Cmult (Cplus h h) (Cmult e f)))) (Copp (Cmult e f))) by ring. rewrite D, HH. ring. }
  assert (EN : Cmult (Copp (Cmult e e)) (Copp (Cmult f f)) = RtoC 1) by (replace (Cmult (Copp (Cmult e e)) (Copp (Cmult f f))) with (Cmult (Cmult e f) (Cmult e f)) by ring; rewrite EF; ring).
  pose proof (CT_joukowski n _ _ EN) as J. rewrite <- EA in J.
  assert (TH : INR n * th = PI * IZR i / 2) by (unfold th, theta, chebyshev_theta; rewrite <- INR_IZR_INZ; field; exact HN).
  assert (MU : INR n * mu = a) by (unfold mu; field; exact HN).
  assert (PE : cpow (Copp (Cmult e e)) n = RtoC (- exp (2 * a))).
  { unfold e. replace (Copp (Cmult (Cmult (RtoC (exp mu)) (cis (- th))) (Cmult (RtoC (exp mu)) (cis (- th))))) with (Cmult (RtoC (exp (mu + mu))) (Cmult (Cmult (RtoC (-1)) (cis (- th))) (cis (- th)))) by (rewrite RtoC_m1, exp_plus, RtoC_mult; ring).
    rewrite cpow_mult, cpow_RtoC, exp_pow, <- cis_pi, !cis_add, cis_pow. replace (INR n * (PI + - th + - th)) with (IZR (Z.of_nat n - i) * PI) by (rewrite minus_IZR, <- INR_IZR_INZ; replace (INR n * (PI + - th + - th)) with (INR n * PI - 2 * (INR n * th)) by ring; rewrite TH; field).
    rewrite odd_cis by exact HI. rewrite <- RtoC_mult. f_equal. replace (INR n * (mu + mu)) with (2 * (INR n * mu)) by ring. rewrite MU. ring. }
  assert (PF : cpow (Copp (Cmult f f)) n = RtoC (- exp (- (2 * a)))).
  { unfold f. replace (Copp (Cmult (Cmult (RtoC (exp (- mu))) (cis th)) (Cmult (RtoC (exp (- mu))) (cis th)))) with (Cmult (RtoC (exp (- mu + - mu))) (Cmult (Cmult (RtoC (-1)) (cis th)) (cis th))) by (rewrite RtoC_m1, exp_plus, RtoC_mult; ring).
    rewrite cpow_mult, cpow_RtoC, exp_pow, <- cis_pi, !cis_add, cis_pow. replace (INR n * (PI + th + th)) with (IZR (Z.of_nat n + i) * PI) by (rewrite plus_IZR, <- INR_IZR_INZ; replace (INR n * (PI + th + th)) with (INR n * PI + 2 * (INR n * th)) by ring; rewrite TH; field).
    rewrite odd_cis. 2:{ intros X. apply HI. apply Z.rem_divide in X; [|lia]. apply Z.rem_divide; [lia|]. destruct X as [k K]. exists (k - i)%Z. lia. } rewrite <- RtoC_mult. f_equal. replace (INR n * (- mu + - mu)) with (- (2 * (INR n * mu))) by ring. rewrite MU. ring. }
  rewrite PE, PF in J. assert (SA : sinh a = 1 / eps) by apply sinh_arcsinh.
  assert (EX : exp (2 * a) + exp (- (2 * a)) = 2 + 4 / (eps * eps)).
  { replace (2 * a) with (a + a) by ring. replace (- (a + a)) with (- a + - a) by ring. rewrite !exp_plus. destruct (exp_sinh_cosh a) as [-> ->].
    replace ((cosh a + sinh a) * (cosh a + sinh a) + (cosh a - sinh a) * (cosh a - sinh a)) with (2 * (cosh a * cosh a) + 2 * (sinh a * sinh a)) by ring. rewrite cosh2, SA. field. lra. }
  assert (CTV : CT n (arg (nsq (pole1 mu n i))) = RtoC (- (1 + 2 / (eps * eps)))).
  { rewrite <- RtoC_plus in J. apply (f_equal (Cmult (RtoC (/ 2)))) in J. rewrite Cmult_assoc, <- !RtoC_mult in J. replace (/ 2 * 2) with 1 in J by field. rewrite Cmult_1_l in J. rewrite J. f_equal.
    replace (/ 2 * (- exp (2 * a) + - exp (- (2 * a)))) with (- (exp (2 * a) + exp (- (2 * a))) / 2) by field. rewrite EX. field. lra. }
  unfold G. rewrite CTV, <- RtoC_plus, <- RtoC_mult, <- RtoC_plus. f_equal. field. lra.
Qed.
