(* C41: the portable complex functions.  ex is the exponent that frexp chooses; the results do
   not depend on it.  The field operations are those of Coquelicot's complex numbers. *)
From Verif Require Import Common RealUtil ComplexModel ComplexProofs.
From Coquelicot Require Import Complex.
From Coq Require Import Psatz.
Local Open Scope R_scope.

Theorem C41_arithmetic (w z : C) (x : R) :
  cadd w z = Cplus w z /\ csub w z = Cminus w z /\ cmul w z = Cmult w z /\ cneg z = Copp z /\ cconj z = Cconj z /\
  cmul_real z x = Cmult z (RtoC x) /\ csquare z = Cmult z z /\ RtoC (cabs2 z) = Cmult z (Cconj z).
Proof.
  destruct w as [u v], z as [a b]. unfold cadd, csub, cmul, cneg, cconj, cmul_real, csquare, cabs2. cbn [fst snd].
  repeat split; apply injective_projections; cbn; ring.
Qed.
Print Assumptions C41_arithmetic.
Theorem C41_division ex (w z : C) :
  (z <> RtoC 0 -> exists q, cdiv ex w z = Ok q /\ Cmult q z = w) /\ (z = RtoC 0 -> cdiv ex w z = Undef).
Proof.
  split.
  - intros NZ. exists (Cdiv w z). split; [now apply cdiv_ok|]. field. exact NZ.
  - intros ->. unfold cdiv, ldexp. cbn [RtoC fst snd]. cbv zeta. rewrite !Rmult_0_l, Rplus_0_l.
    rewrite (proj2 (Reqb_true_iff 0 0) eq_refl). reflexivity.
Qed.
Print Assumptions C41_division.
Theorem C41_abs ex (z : C) : cabs ex z = Cmod z.
Proof. exact (cabs_Cmod ex z). Qed.
Print Assumptions C41_abs.
(* the principal square root *)
Theorem C41_sqrt ex (z : C) : let s := csqrt ex z in
  Cmult s s = z /\ 0 <= fst s /\ (fst s = 0 -> 0 <= snd s).
Proof. cbv zeta. destruct (csqrt_spec ex z) as (A & B & D). split; [|split; assumption]. exact A. Qed.
Print Assumptions C41_sqrt.
(* Exp is a homomorphism that extends the real exponential and the unit circle. *)
Theorem C41_exp (w z : C) (x : R) :
  cexp (Cplus w z) = Cmult (cexp w) (cexp z) /\ cexp (RtoC x) = RtoC (exp x) /\ cexp (0, x) = (cos x, sin x) /\
  Cmod (cexp z) = exp (fst z).
Proof.
  destruct w as [u v], z as [a b]. unfold cexp. cbn [fst snd Cplus RtoC]. repeat split.
  - rewrite exp_plus, cos_plus, sin_plus. apply injective_projections; cbn; ring.
  - rewrite cos_0, sin_0. apply injective_projections; cbn; ring.
  - rewrite exp_0. apply injective_projections; cbn; ring.
  - unfold Cmod. cbn [fst snd]. pose proof (sin2_cos2 b) as SC. unfold Rsqr in SC.
    replace ((exp a * cos b) ^ 2 + (exp a * sin b) ^ 2) with (exp a * exp a * (sin b * sin b + cos b * cos b)) by ring.
    rewrite SC, Rmult_1_r. apply sqrt_square. left. apply exp_pos.
Qed.
Print Assumptions C41_exp.
Theorem C41_log ex (z : C) :
  (z <> RtoC 0 -> exists l, clog ex z = Ok l /\ cexp l = z /\ - PI < snd l <= PI) /\ (z = RtoC 0 -> clog ex z = Undef).
Proof.
  split; [apply clog_ok|]. intros ->. unfold clog. rewrite cabs_Cmod, Cmod_0, (proj2 (Reqb_true_iff 0 0) eq_refl). reflexivity.
Qed.
Print Assumptions C41_log.
(* the documented definitions of the hyperbolic and trigonometric functions *)
Theorem C41_hyperbolic (z : C) : let i := (0, 1) : C in
  Cmult (RtoC 2) (ccosh z) = Cplus (cexp z) (cexp (Copp z)) /\
  Cmult (RtoC 2) (csinh z) = Cminus (cexp z) (cexp (Copp z)) /\
  Cmult (RtoC 2) (ccos z) = Cplus (cexp (Cmult i z)) (cexp (Copp (Cmult i z))) /\
  Cmult (RtoC 2) (Cmult i (csin z)) = Cminus (cexp (Cmult i z)) (cexp (Copp (Cmult i z))).
Proof.
  destruct z as [a b]. cbv zeta. unfold ccosh, csinh, ccos, csin, cexp. cbn [fst snd Cmult Copp].
  replace (0 * a - 1 * b) with (- b) by ring. replace (0 * b + 1 * a) with a by ring. rewrite !cos_neg, !sin_neg, !Ropp_involutive.
  unfold cosh, sinh. repeat split; apply injective_projections; cbn; field.
Qed.
Print Assumptions C41_hyperbolic.
Theorem C41_identities (z : C) :
  Cminus (Cmult (ccosh z) (ccosh z)) (Cmult (csinh z) (csinh z)) = RtoC 1 /\
  Cplus (Cmult (ccos z) (ccos z)) (Cmult (csin z) (csin z)) = RtoC 1.
Proof.
  destruct z as [a b]. unfold ccosh, csinh, ccos, csin. cbn [fst snd].
  assert (H : forall x, cosh x * cosh x - sinh x * sinh x = 1).
  { intros x. unfold cosh, sinh. pose proof (exp_neg x). transitivity (exp x * exp (- x)); [field|exact H]. }
  assert (T : forall x, sin x * sin x + cos x * cos x = 1) by (intros x; pose proof (sin2_cos2 x) as S; exact S).
  split; apply injective_projections; cbn; try ring.
  - transitivity ((cosh a * cosh a - sinh a * sinh a) * (sin b * sin b + cos b * cos b)); [|rewrite H, T; ring].
    ring_simplify. assert (S2 : forall x, sin x ^ 2 = 1 - cos x ^ 2) by (intros x; pose proof (T x); lra).
    assert (H2 : forall x, sinh x ^ 2 = cosh x ^ 2 - 1) by (intros x; pose proof (H x); lra).
    rewrite !S2, !H2. ring.
  - transitivity ((cosh b * cosh b - sinh b * sinh b) * (sin a * sin a + cos a * cos a)); [|rewrite H, T; ring].
    ring_simplify. assert (S2 : forall x, sin x ^ 2 = 1 - cos x ^ 2) by (intros x; pose proof (T x); lra).
    assert (H2 : forall x, sinh x ^ 2 = cosh x ^ 2 - 1) by (intros x; pose proof (H x); lra).
    rewrite !S2, !H2. ring.
Qed.
Print Assumptions C41_identities.
(* the inverse functions are right inverses with values in the principal strip *)
Theorem C41_acosh ex (z : C) : exists w, cacosh ex z = Ok w /\ ccosh w = z /\ 0 <= fst w /\ - PI <= snd w <= PI.
Proof. exact (cacosh_ok ex z). Qed.
Print Assumptions C41_acosh.
Theorem C41_asinh ex (z : C) : exists w, casinh ex z = Ok w /\ csinh w = z /\ - (PI / 2) <= snd w <= PI / 2.
Proof. exact (casinh_ok ex z). Qed.
Print Assumptions C41_asinh.
Theorem C41_acos ex (z : C) : exists w, cacos ex z = Ok w /\ ccos w = z /\ 0 <= fst w <= PI.
Proof. exact (cacos_ok ex z). Qed.
Print Assumptions C41_acos.
Theorem C41_asin ex (z : C) : exists w, casin ex z = Ok w /\ csin w = z /\ - (PI / 2) <= fst w <= PI / 2.
Proof. exact (casin_ok ex z). Qed.
Print Assumptions C41_asin.

(* the square root of -4 is 2i: the branch z.real < 0, z.imag = 0 *)
Example C41_sqrt_example : csqrt (fun _ => 3%Z) (-4, 0) = (0, 2).
Proof.
  destruct (csqrt_spec (fun _ => 3%Z) (-4, 0)) as (A & B & D). destruct (csqrt (fun _ => 3%Z) (-4, 0)) as [x y]. cbn [fst snd] in *.
  unfold cmul in A. cbn [fst snd] in A. injection A as A1 A2.
  assert (X : x = 0) by (destruct (Req_dec x 0); [assumption|assert (y = 0) by nra; nra]). specialize (D X). rewrite X in *. f_equal. nra.
Qed.
