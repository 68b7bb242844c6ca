(* The complex functions. *)
From Coq Require Import ZArith Reals Lra Lia List Bool.
From Coquelicot Require Import Coquelicot.
From Verif Require Import Common RealUtil CInt ComplexModel ComplexProofs EllipticModel EllipticSpec EllipticProofs EllipticProofs2.
Import ListNotations.
Local Open Scope R_scope.
Local Notation C := Complex.C.

(* real arguments *)
Lemma cosh_0' : cosh 0 = 1.
Proof. unfold cosh. rewrite Ropp_0, exp_0. field. Qed.
Lemma sinh_0' : sinh 0 = 0.
Proof. unfold sinh. rewrite Ropp_0. field. Qed.
Lemma csin_real a : csin (a, 0) = (sin a, 0).
Proof. unfold csin. cbn [fst snd]. rewrite cosh_0', sinh_0'. f_equal; ring. Qed.
Lemma csqrt_real ex z : 0 < z -> csqrt ex (z, 0) = (sqrt z, 0).
Proof.
  intros P. unfold csqrt. cbn [fst snd]. destruct (Reqb_spec z 0) as [E|E]; [lra|]. rewrite cabs_Cmod, Rltb_true by exact P.
  replace (Cmod (z, 0)) with (Rabs z) by (rewrite <- Cmod_R; reflexivity). rewrite Rabs_pos_eq by lra. replace ((z + z) / 2) with z by field.
  f_equal. unfold Rdiv. ring.
Qed.
Lemma cosh_gt x : x <> 0 -> 1 < cosh x.
Proof.
  intros N. unfold cosh. pose proof (exp_neg x) as E. pose proof (exp_pos x) as P. pose proof (exp_pos (- x)) as Q.
  assert (exp x <> exp (- x)). { intros H. apply exp_inv in H. lra. }
  assert (0 < (exp x - exp (- x)) * (exp x - exp (- x))) by (apply Rsqr_pos_lt; lra). nra.
Qed.
Lemma casin_sin ex a b : - (PI / 2) < a < PI / 2 -> casin ex (csin (a, b)) = Ok (a, b).
Proof.
  intros A. destruct (casin_ok ex (csin (a, b))) as ((a', b') & E & S & B). rewrite E. f_equal. cbn [fst] in B. unfold csin in S. cbn [fst snd] in S.
  injection S as S1 S2. assert (C : 0 < cos a) by (apply cos_gt_0; lra). assert (C' : 0 <= cos a') by (apply cos_ge_0; lra).
  assert (H1 : sin a' * sin a' + cos a' * cos a' = 1) by (pose proof (sin2_cos2 a'); unfold Rsqr in *; lra).
  assert (H2 : sin a * sin a + cos a * cos a = 1) by (pose proof (sin2_cos2 a); unfold Rsqr in *; lra).
  assert (D : forall x, cosh x * cosh x - sinh x * sinh x = 1). { intros x. unfold cosh, sinh. pose proof (exp_neg x). nra. }
  pose proof (D b) as D1. pose proof (D b') as D2. pose proof (cosh_pos b). pose proof (cosh_pos b').
  (* cosh^2 b and sin^2 a are determined by the modulus of sin and cos *)
  set (S := sin a * cosh b) in *. set (Tt := cos a * sinh b) in *.
  assert (M1 : S * S + Tt * Tt = cosh b * cosh b - cos a * cos a).
  { unfold S, Tt. replace (sin a * cosh b * (sin a * cosh b) + cos a * sinh b * (cos a * sinh b)) with ((sin a * sin a) * (cosh b * cosh b) + (cos a * cos a) * (sinh b * sinh b)) by ring.
    replace (sinh b * sinh b) with (cosh b * cosh b - 1) by lra. replace (sin a * sin a) with (1 - cos a * cos a) by lra. ring. }
  assert (M2 : S * S + Tt * Tt = cosh b' * cosh b' - cos a' * cos a').
  { rewrite <- S1, <- S2. replace (sin a' * cosh b' * (sin a' * cosh b') + cos a' * sinh b' * (cos a' * sinh b')) with ((sin a' * sin a') * (cosh b' * cosh b') + (cos a' * cos a') * (sinh b' * sinh b')) by ring.
    replace (sinh b' * sinh b') with (cosh b' * cosh b' - 1) by lra. replace (sin a' * sin a') with (1 - cos a' * cos a') by lra. ring. }
  assert (N1 : Tt * Tt = cos a * cos a * (cosh b * cosh b - 1)) by (unfold Tt; replace (cosh b * cosh b - 1) with (sinh b * sinh b) by lra; ring).
  assert (N2 : Tt * Tt = cos a' * cos a' * (cosh b' * cosh b' - 1)) by (rewrite <- S2; replace (cosh b' * cosh b' - 1) with (sinh b' * sinh b') by lra; ring).
  set (c := cos a * cos a) in *. set (c' := cos a' * cos a') in *. set (h := cosh b * cosh b) in *. set (h' := cosh b' * cosh b') in *.
  assert (0 < c <= 1) by (pose proof (Rle_0_sqr (sin a)) as Z; unfold Rsqr in Z; split; [unfold c; nra|lra]). assert (0 <= c' <= 1) by (pose proof (Rle_0_sqr (sin a')) as Z; unfold Rsqr in Z; split; [unfold c'; nra|lra]).
  assert (1 <= h). { pose proof (Rle_0_sqr (sinh b)) as Z. unfold Rsqr in Z. lra. }
  assert (1 <= h'). { pose proof (Rle_0_sqr (sinh b')) as Z. unfold Rsqr in Z. lra. }
  assert (HC : h - h' = c - c') by lra.
  assert (EQ : c = c').
  { assert (Z : (c - c') * (h - 1 + c') = 0).
    { replace ((c - c') * (h - 1 + c')) with (c * (h - 1) - c' * (h' - 1) + c' * (h' - h) + c' * (c - c')) by ring. rewrite <- N1, <- N2. replace (h' - h) with (c' - c) by lra. ring. }
    apply Rmult_integral in Z as [Z|Z]; [lra|]. assert (c' = 0 /\ h = 1) as (Z1 & Z2) by lra. exfalso. nra. }
  assert (CC : cos a' = cos a) by (unfold c, c' in EQ; nra).
  assert (SH : sinh b' = sinh b). { rewrite CC in S2. unfold Tt in S2. apply Rmult_eq_reg_l in S2; lra. }
  assert (BB : b' = b) by (rewrite <- (arcsinh_sinh b'), SH; apply arcsinh_sinh). rewrite BB in *. assert (SA : sin a' = sin a). { unfold S in S1. apply Rmult_eq_reg_r in S1; lra. }
  f_equal. rewrite <- (asin_sin a'), SA by lra. apply asin_sin. lra.
Qed.
Lemma casin_real ex x : -1 <= x <= 1 -> casin ex (x, 0) = Ok (asin x, 0).
Proof.
  intros X. destruct (casin_ok ex (x, 0)) as ((a, b) & E & S & B). rewrite E. f_equal. cbn [fst] in B. unfold csin in S. cbn [fst snd] in S. injection S as S1 S2.
  assert (B0 : b = 0).
  { destruct (Req_dec b 0) as [Z|N]; [exact Z|exfalso]. pose proof (cosh_gt b N) as G.
    assert (SN : sinh b <> 0). { intros Z. assert (D : cosh b * cosh b - sinh b * sinh b = 1) by (unfold cosh, sinh; pose proof (exp_neg b); nra). rewrite Z in D. nra. }
    apply Rmult_integral in S2 as [S2|S2]; [|contradiction]. pose proof (sin2_cos2 a) as Q. unfold Rsqr in Q. rewrite S2 in Q.
    assert (x * x = cosh b * cosh b). { rewrite <- S1. replace (sin a * cosh b * (sin a * cosh b)) with (sin a * sin a * (cosh b * cosh b)) by ring. replace (sin a * sin a) with 1 by lra. ring. }
    nra. }
  rewrite B0, cosh_0', Rmult_1_r in S1. rewrite B0, <- S1. f_equal. symmetry. apply asin_sin. lra.
Qed.
Lemma cdiv_real ex x y : y <> 0 -> cdiv ex (x, 0) (y, 0) = Ok (x / y, 0).
Proof.
  intros N. rewrite cdiv_ok by (intros E; injection E; lra). f_equal. unfold Cdiv, Cmult, Cinv. cbn [fst snd]. apply injective_projections; cbn; field; nra.
Qed.
Lemma descend_is_real ex ks : forall k x, 0 <= k < 1 -> chain k ks -> -1 <= x <= 1 -> descend ex k ks (x, 0) = Ok (descend_all k ks x, 0).
Proof.
  induction ks as [|k1 r IH]; intros k x H C X; cbn [descend descend_all chain] in *; [reflexivity|]. destruct C as (E & C). destruct (landen_range k H) as (R1 & R2).
  replace (csub (1, 0) (csquare (cmul_real (x, 0) k))) with (1 - x * k * (x * k), 0) by (unfold csub, csquare, cmul_real; cbn [fst snd]; f_equal; ring).
  assert (Z : 0 < 1 - x * k * (x * k)) by (assert (0 <= x * x <= 1) by nra; nra). rewrite csqrt_real by exact Z.
  replace (cmul_real (cadd (1, 0) (sqrt (1 - x * k * (x * k)), 0)) (1 / 2 * (1 + k1))) with ((1 + sqrt (1 - x * k * (x * k))) * (1 / 2 * (1 + k1)), 0) by (unfold cmul_real, cadd; cbn [fst snd]; f_equal; ring).
  pose proof (sqrt_pos (1 - x * k * (x * k))). rewrite cdiv_real by (apply Rgt_not_eq; nra). cbn [obind]. fold (descend_real k k1 x).
  apply IH; [lra|exact C|]. rewrite E. now apply descend_real_ok.
Qed.
Fixpoint ascend_all (ks : list R) (y : R) : R := match ks with [] => y | k :: r => gauss k (ascend_all r y) end.
Lemma gauss_abs k y : 0 <= k < 1 -> -1 <= y <= 1 -> -1 <= gauss k y <= 1.
Proof.
  intros K Y. destruct (Rle_dec 0 y) as [H|H]; [pose proof (gauss_range k y K); lra|]. pose proof (gauss_range k (- y) K ltac:(lra)) as G. rewrite gauss_opp in G. lra.
Qed.
Lemma ascend_range ks : forall k y, 0 <= k < 1 -> chain k ks -> -1 <= y <= 1 -> -1 <= ascend_all ks y <= 1.
Proof.
  induction ks as [|k1 r IH]; intros k y K C Y; cbn [ascend_all chain] in *; [exact Y|]. destruct C as (-> & C). destruct (landen_range k K). apply gauss_abs; [lra|]. apply (IH (landen_step k)); [lra|exact C|exact Y].
Qed.
Lemma ascend_is_real ex ks : forall k y, 0 <= k < 1 -> chain k ks -> -1 <= y <= 1 -> ascend ex ks (y, 0) = Ok (ascend_all ks y, 0).
Proof.
  induction ks as [|k1 r IH]; intros k y K C Y; cbn [ascend ascend_all chain] in *; [reflexivity|]. destruct C as (E & C). destruct (landen_range k K). 
  rewrite (IH k1 y) by (try exact C; try exact Y; lra). cbn [obind]. set (w := ascend_all r y).
  replace (cadd (1, 0) (cmul_real (csquare (w, 0)) k1)) with (1 + k1 * (w * w), 0) by (unfold cadd, cmul_real, csquare; cbn [fst snd]; f_equal; ring).
  assert (0 < 1 + k1 * (w * w)) by nra. rewrite cdiv_real by lra. cbn [obind]. unfold cmul_real, gauss. cbn [fst snd]. f_equal. f_equal; [field; lra|ring].
Qed.
Lemma ascend_F ks : forall k y, 0 <= k < 1 -> chain k ks -> -1 <= y <= 1 ->
  F (asin (ascend_all ks y)) (k * k) = product ks * F (asin y) (final k ks * final k ks).
Proof.
  induction ks as [|k1 r IH]; intros k y K C Y; cbn [ascend_all chain product final] in *; [ring|]. destruct C as (E & C). destruct (landen_range k K).
  assert (K1 : 0 <= k1 < 1) by lra. pose proof (ascend_range r k1 y K1 C Y) as A. rewrite <- (up_landen k K), <- E, gauss_F by assumption.
  rewrite (IH k1 y K1 C Y). ring.
Qed.
(* the two recursions are inverse to each other *)
Lemma descend_gauss k y : 0 <= k < 1 -> -1 <= y <= 1 -> descend_real k (landen_step k) (gauss (landen_step k) y) = y.
Proof.
  intros K Y. destruct (landen_range k K) as (R1 & R2). pose proof (up_landen k K) as U. unfold descend_real. set (k1 := landen_step k) in *.
  assert (Y2 : 0 <= y * y <= 1) by nra. assert (D : 0 < 1 + k1 * (y * y)) by nra.
  replace (gauss k1 y * k * (gauss k1 y * k)) with (gauss k1 y * gauss k1 y * (k * k)) by ring. rewrite <- U.
  replace (sqrt (1 - gauss k1 y * gauss k1 y * up k1)) with ((1 - k1 * (y * y)) / (1 + k1 * (y * y))).
  - unfold gauss. field. repeat split; nra.
  - symmetry. replace (1 - gauss k1 y * gauss k1 y * up k1) with ((1 - k1 * (y * y)) / (1 + k1 * (y * y)) * ((1 - k1 * (y * y)) / (1 + k1 * (y * y)))) by (unfold gauss, up; field; split; lra).
    apply sqrt_square. apply Rle_mult_inv_pos; nra.
Qed.
Lemma descend_ascend ks : forall k y, 0 <= k < 1 -> chain k ks -> -1 <= y <= 1 -> descend_all k ks (ascend_all ks y) = y.
Proof.
  induction ks as [|k1 r IH]; intros k y K C Y; cbn [ascend_all descend_all chain] in *; [reflexivity|]. destruct C as (-> & C). destruct (landen_range k K).
  rewrite descend_gauss; [|exact K|apply (ascend_range r (landen_step k)); [lra|exact C|exact Y]]. apply IH; [lra|exact C|exact Y].
Qed.
(* for complex numbers, too *)
Lemma one_plus_root ex z : Cplus (RtoC 1) (csqrt ex z) <> RtoC 0.
Proof.
  intros E. destruct (csqrt_spec ex z) as (_ & P & _). destruct (csqrt ex z) as [a b]. unfold Cplus, RtoC in E. cbn [fst snd] in *. injection E as E1 _. lra.
Qed.
Lemma Cinv_nz (z : C) : z <> RtoC 0 -> Cinv z <> RtoC 0.
Proof. intros N E. apply N. transitivity (Cmult z (Cmult (Cinv z) z)); [field; exact N|]. rewrite E. ring. Qed.
Lemma descend_step ex k (w : C) : 0 <= k < 1 -> let k1 := landen_step k in
  exists w1 : C, cdiv ex w (cmul_real (cadd (1, 0) (csqrt ex (csub (1, 0) (csquare (cmul_real w k))))) (1 / 2 * (1 + k1))) = Ok w1 /\
    exists q : C, cdiv ex w1 (cadd (1, 0) (cmul_real (csquare w1) k1)) = Ok q /\ cmul_real q (1 + k1) = w.
Proof.
  intros K. cbv zeta. destruct (landen_range k K) as (R1 & R2). pose proof (up_landen k K) as U. set (k1 := landen_step k) in *.
  set (z := csub _ _). destruct (csqrt_spec ex z) as (SS & _ & _). pose proof (one_plus_root ex z) as N. set (s := csqrt ex z) in *. clearbody s.
  assert (SS' : Cmult s s = Cminus (RtoC 1) (Cmult (RtoC (up k1)) (Cmult w w))).
  { rewrite U. transitivity z; [rewrite <- SS; reflexivity|]. unfold z. unfold csub, csquare, cmul_real, Cminus, Cplus, Copp, Cmult, RtoC. destruct w. cbn [fst snd]. apply injective_projections; cbn; ring. }
  clear SS. clearbody z.
  assert (N1 : RtoC (1 + k1) <> RtoC 0) by (intros E; injection E; lra).
  assert (N1' : (RtoC 1 + RtoC k1 <> RtoC 0)%C) by (rewrite <- RtoC_plus; exact N1).
  assert (D : cmul_real (cadd (1, 0) s) (1 / 2 * (1 + k1)) = Cmult (Cplus (RtoC 1) s) (Cdiv (RtoC (1 + k1)) (RtoC (1 + 1)))).
  { unfold cmul_real, cadd, Cdiv, Cinv, Cplus, Cmult, RtoC. destruct s. cbn [fst snd]. apply injective_projections; cbn; field. }
  assert (N2 : RtoC (1 + 1) <> RtoC 0) by (intros E; injection E; lra).
  assert (DN : Cmult (Cplus (RtoC 1) s) (Cdiv (RtoC (1 + k1)) (RtoC (1 + 1))) <> RtoC 0).
  { apply Cmult_neq_0; [exact N|]. unfold Cdiv. apply Cmult_neq_0; [exact N1|]. now apply Cinv_nz. }
  rewrite D, cdiv_ok by exact DN. set (w1 := Cdiv w _). exists w1. split; [reflexivity|].
  assert (UU : RtoC (up k1) = Cdiv (Cmult (Cmult (RtoC (1 + 1)) (RtoC (1 + 1))) (RtoC k1)) (Cmult (RtoC (1 + k1)) (RtoC (1 + k1)))).
  { rewrite <- !RtoC_mult. unfold Cdiv. rewrite <- RtoC_inv by nra. rewrite <- RtoC_mult. f_equal. }
  assert (N2' : (RtoC 1 + RtoC 1 <> RtoC 0)%C) by (rewrite <- RtoC_plus; exact N2).
  assert (E1 : cadd (1, 0) (cmul_real (csquare w1) k1) = Cdiv (RtoC (1 + 1)) (Cplus (RtoC 1) s)).
  { transitivity (Cplus (RtoC 1) (Cmult (RtoC k1) (Cmult w1 w1))).
    - unfold cadd, cmul_real, csquare, Cplus, Cmult, RtoC. destruct w1. cbn [fst snd]. apply injective_projections; cbn; ring.
    - unfold w1. replace (Cmult (RtoC k1) (Cmult (w / ((RtoC 1 + s) * (RtoC (1 + k1) / RtoC (1 + 1)))) (w / ((RtoC 1 + s) * (RtoC (1 + k1) / RtoC (1 + 1)))))%C)
        with (Cdiv (Cmult (RtoC (up k1)) (Cmult w w)) (Cmult (RtoC 1 + s) (RtoC 1 + s)))%C.
      + assert (SW : (RtoC (up k1) * (w * w))%C = (RtoC 1 - s * s)%C :> C) by (rewrite SS'; ring). rewrite SW, RtoC_plus.
        assert (Q : (RtoC 1 + (RtoC 1 - s * s) / ((RtoC 1 + s) * (RtoC 1 + s)))%C = ((RtoC 1 + RtoC 1) / (RtoC 1 + s))%C :> C) by (field; exact N). exact Q.
      + rewrite UU. rewrite !RtoC_plus. field. repeat split; assumption. }
  assert (N3 : Cdiv (RtoC (1 + 1)) (Cplus (RtoC 1) s) <> RtoC 0).
  { unfold Cdiv. apply Cmult_neq_0; [exact N2|]. now apply Cinv_nz. }
  eexists. split; [rewrite E1; apply cdiv_ok; exact N3|].
  transitivity (Cmult (Cdiv w1 (Cdiv (RtoC (1 + 1)) (Cplus (RtoC 1) s))) (RtoC (1 + k1))).
  - unfold cmul_real, Cmult, RtoC. destruct (Cdiv w1 _). cbn [fst snd]. apply injective_projections; cbn; ring.
  - change (@eq C (Cmult (Cdiv w1 (Cdiv (RtoC (1 + 1)) (Cplus (RtoC 1) s))) (RtoC (1 + k1))) w). unfold w1. rewrite !RtoC_plus. field. repeat split; assumption.
Qed.
Lemma descend_inverse ex ks : forall k (w : C), 0 <= k < 1 -> chain k ks -> exists w', descend ex k ks w = Ok w' /\ ascend ex ks w' = Ok w.
Proof.
  induction ks as [|k1 r IH]; intros k w K C; cbn [descend ascend chain] in *; [exists w; split; reflexivity|]. destruct C as (E & C). destruct (landen_range k K).
  destruct (descend_step ex k w K) as (w1 & D & q & Q & W). rewrite <- E in *. rewrite D. cbn [obind]. destruct (IH k1 w1 ltac:(lra) C) as (w' & D' & A).
  exists w'. split; [exact D'|]. rewrite A. cbn [obind]. rewrite Q. cbn [obind]. f_equal. exact W.
Qed.
