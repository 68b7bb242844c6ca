From Coq Require Import Reals Lra Lia List Bool Psatz.
From Coquelicot Require Import Coquelicot.
From Verif Require Import Common CInt RealUtil BiquadModel DesignSpec CascadeModel PeakModel PeakSpec.
Import ListNotations.
Local Open Scope R_scope.

Section Peak.
Context (c : coeffs R).

Definition Nn (y : R) : R := 4 * (b0 c * b2 c) * y * y + 2 * (b0 c * b1 c + b1 c * b2 c) * y + ((b0 c - b2 c) ^ 2 + b1 c ^ 2).
Definition Dn (y : R) : R := 4 * (a0 c * a2 c) * y * y + 2 * (a0 c * a1 c + a1 c * a2 c) * y + ((a0 c - a2 c) ^ 2 + a1 c ^ 2).
Definition Fn (y : R) : R := Nn y / Dn y.
Definition s2 : R := fst (fst (slope c)).
Definition s1 : R := snd (fst (slope c)).
Definition s0 : R := snd (slope c).
Definition Pn (y : R) : R := s2 * y * y + s1 * y + s0.

Lemma quad_mod (u v w x y : R) : x * x + y * y = 1 ->
  Cmod (RtoC u * (x, y) * (x, y) + RtoC v * (x, y) + RtoC w)%C ^ 2
  = 4 * (u * w) * x * x + 2 * (u * v + v * w) * x + ((u - w) ^ 2 + v ^ 2).
Proof.
  intros H. unfold Cmod. rewrite pow2_sqrt by (apply Rplus_le_le_0_compat; apply pow2_ge_0).
  set (z := (RtoC u * (x, y) * (x, y) + RtoC v * (x, y) + RtoC w)%C).
  assert (Y2 : y * y = 1 - x * x) by lra.
  assert (Re : fst z = u * (2 * x * x - 1) + v * x + w).
  { transitivity (u * (x * x - y * y) + v * x + w); [cbn; ring|rewrite Y2; ring]. }
  assert (Im : snd z = y * (2 * u * x + v)) by (cbn; ring).
  rewrite Re, Im. replace ((y * (2 * u * x + v)) ^ 2) with ((y * y) * (2 * u * x + v) ^ 2) by ring.
  rewrite Y2. ring.
Qed.

Lemma num_mod w : Cmod (numerator c (cos w, sin w)) ^ 2 = Nn (cos w).
Proof. unfold numerator. apply quad_mod. pose proof (sin2_cos2 w). unfold Rsqr in H. lra. Qed.
Lemma den_mod w : Cmod (denominator c (cos w, sin w)) ^ 2 = Dn (cos w).
Proof. unfold denominator. apply quad_mod. pose proof (sin2_cos2 w). unfold Rsqr in H. lra. Qed.

Hypothesis CF : circle_free c.

Lemma den_pos y : -1 <= y <= 1 -> 0 < Dn y.
Proof.
  intros H. rewrite <- (cos_acos y) by lra. rewrite <- den_mod.
  apply pow_lt. apply Cmod_gt_0. apply CF.
Qed.
Lemma num_nonneg y : -1 <= y <= 1 -> 0 <= Nn y.
Proof. intros H. rewrite <- (cos_acos y) by lra. rewrite <- num_mod. apply pow_le, Cmod_ge_0. Qed.
Lemma F_nonneg y : -1 <= y <= 1 -> 0 <= Fn y.
Proof.
  intros H. unfold Fn. apply Rmult_le_pos; [now apply num_nonneg|].
  left. apply Rinv_0_lt_compat. now apply den_pos.
Qed.

Definition G (w : R) : R := sqrt (Fn (cos w)).

Lemma G_nonneg w : 0 <= G w.
Proof. apply sqrt_pos. Qed.

Lemma Cmod_quot w : Cmod (numerator c (cos w, sin w) / denominator c (cos w, sin w))%C = G w.
Proof.
  rewrite Cmod_div by apply CF. unfold G, Fn. rewrite <- num_mod, <- den_mod.
  pose proof (Cmod_ge_0 (numerator c (cos w, sin w))). pose proof (proj1 (Cmod_gt_0 _) (CF w)).
  set (n := Cmod (numerator c _)) in *. set (d := Cmod (denominator c _)) in *.
  replace (n ^ 2 / d ^ 2) with ((n / d) ^ 2) by (field; lra).
  rewrite sqrt_pow2; [reflexivity|]. apply Rmult_le_pos; [lra|]. left. now apply Rinv_0_lt_compat.
Qed.

Lemma gain_magnitude_eq w : gain_magnitude c w = Ok (G w).
Proof.
  unfold gain_magnitude, eval_transfer, unit_polar.
  replace ((RtoC (a0 c) * (cos w, sin w) + RtoC (a1 c)) * (cos w, sin w) + RtoC (a2 c))%C
    with (denominator c (cos w, sin w)) by (unfold denominator; ring).
  replace ((RtoC (b0 c) * (cos w, sin w) + RtoC (b1 c)) * (cos w, sin w) + RtoC (b2 c))%C
    with (numerator c (cos w, sin w)) by (unfold numerator; ring).
  rewrite <- Cmod_quot. pose proof (CF w) as N. set (d := denominator c _) in *. 
  destruct (Reqb_spec (fst d) 0) as [E1|E1]; [destruct (Reqb_spec (snd d) 0) as [E2|E2]|]; cbn [andb negb oguard obind]; try reflexivity.
  exfalso. apply N. apply injective_projections; assumption.
Qed.
Lemma gain_at_iff w g : gain_at c w g <-> g = G w.
Proof.
  unfold gain_at, has_value. rewrite <- Cmod_quot. split.
  - intros (h & (_ & <-) & <-). reflexivity.
  - intros ->. eexists. split; [split; [apply CF|reflexivity]|reflexivity].
Qed.

Lemma F_derive y : -1 <= y <= 1 -> is_derive Fn y (2 * Pn y / Dn y ^ 2).
Proof.
  intros H. pose proof (den_pos y H) as D. unfold Fn, Nn, Dn in *. auto_derive.
  - lra.
  - unfold Pn, s2, s1, s0, slope. cbn [fst snd]. field. cbn in *. lra.
Qed.
Lemma F_continuity y : -1 <= y <= 1 -> continuity_pt Fn y.
Proof.
  intros H. apply continuity_pt_filterlim. apply (ex_derive_continuous Fn). eexists. now apply F_derive.
Qed.

Lemma F_max : exists y, -1 <= y <= 1 /\ forall x, -1 <= x <= 1 -> Fn x <= Fn y.
Proof.
  destruct (continuity_ab_maj Fn (-1) 1 ltac:(lra)) as (y & M & B).
  { intros z Hz. now apply F_continuity. }
  exists y. split; [exact B|]. intros x Hx. now apply M.
Qed.

Lemma F_interior_max y : -1 < y < 1 -> (forall x, -1 <= x <= 1 -> Fn x <= Fn y) -> Pn y = 0.
Proof.
  intros H M. pose proof (F_derive y ltac:(lra)) as D.
  apply is_derive_Reals in D. pose proof (den_pos y ltac:(lra)) as DP.
  assert (E : derive_pt Fn y (exist _ _ D) = 0).
  { apply (deriv_maximum Fn (-1) 1 y); [lra|lra|]. intros x A B. apply M. lra. }
  cbn in E. set (d := Dn y) in *. 
  assert (d * (d * 1) <> 0) by nra.
  assert (E' : 2 * Pn y = 2 * Pn y / (d * (d * 1)) * (d * (d * 1))) by (field; lra).
  rewrite E in E'. lra.
Qed.

Lemma F_rolle x y : -1 <= x -> x < y -> y <= 1 -> Fn x = Fn y -> exists m, x < m < y /\ Pn m = 0.
Proof.
  intros A B D E. destruct (MVT_cor2 Fn (fun y => 2 * Pn y / Dn y ^ 2) x y B) as (m & M1 & M2).
  { intros z Hz. apply is_derive_Reals, F_derive. lra. }
  exists m. split; [exact M2|]. rewrite E, Rminus_diag_eq in M1 by reflexivity.
  pose proof (den_pos m ltac:(lra)) as DP. set (d := Dn m) in *.
  assert (Z : 2 * Pn m / d ^ 2 = 0).
  { apply Rmult_eq_reg_r with (y - x); [lra|lra]. }
  assert (E' : 2 * Pn m = 2 * Pn m / d ^ 2 * d ^ 2) by (field; lra).
  rewrite Z in E'. lra.
Qed.

Lemma F_constant : s2 = 0 -> s1 = 0 -> s0 = 0 -> forall x y, -1 <= x <= 1 -> -1 <= y <= 1 -> Fn x = Fn y.
Proof.
  intros E2 E1 E0.
  assert (A : forall x y, -1 <= x -> x < y -> y <= 1 -> Fn x = Fn y).
  { intros x y X1 X2 X3. destruct (MVT_cor2 Fn (fun y => 2 * Pn y / Dn y ^ 2) x y X2) as (m & M1 & M2).
    { intros z Hz. apply is_derive_Reals, F_derive. lra. }
    assert (Z : Pn m = 0) by (unfold Pn; rewrite E2, E1, E0; ring). rewrite Z in M1. unfold Rdiv in M1. rewrite Rmult_0_r, !Rmult_0_l in M1. lra. }
  intros x y Hx Hy. destruct (Rtotal_order x y) as [L|[->|L]]; [apply A; lra|reflexivity|symmetry; apply A; lra].
Qed.

(* a quadratic with three roots *)
Lemma three_roots x m y : x < m < y -> Pn x = 0 -> Pn m = 0 -> Pn y = 0 -> s2 = 0 /\ s1 = 0 /\ s0 = 0.
Proof.
  unfold Pn. generalize s2 s1 s0. intros p q r (L1 & L2) A B D.
  assert (E1 : p * (x + m) + q = 0) by (apply Rmult_eq_reg_r with (m - x); [nra|lra]).
  assert (E2 : p * (m + y) + q = 0) by (apply Rmult_eq_reg_r with (y - m); [nra|lra]).
  assert (p = 0) by (apply Rmult_eq_reg_r with (y - x); [nra|lra]). subst p.
  assert (q = 0) by lra. subst q. repeat split; lra.
Qed.
End Peak.
