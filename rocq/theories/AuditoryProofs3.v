(* The design of the auditory filterbank. *)
From Coq Require Import ZArith Reals Lra Lia List Bool Psatz Sorted.
From Coquelicot Require Import Coquelicot.
From Verif Require Import Common CInt ListLemmas RealUtil BiquadModel FirModel DesignModel DesignSpec DesignProofs CascadeModel CascadeSpec
  PeakModel PeakSpec PeakProofs3 AuditoryModel AuditorySpec AuditoryProofs AuditoryProofs2.
Import ListNotations.
Local Open Scope R_scope.
Local Notation C := Complex.C.

Lemma check_ok {A} p allow rate (k : outcome A) : valid_parameters p allow rate -> check_parameters p allow rate k = k.
Proof.
  intros (V1 & V2 & V3 & V4 & V5 & V6 & V7 & V8). unfold check_parameters.
  rewrite !Rltb_true, !Rleb_true by lra. cbn [ocheck].
  destruct (use_all_channels p); cbn [orb ocheck].
  - destruct allow; cbn [negb orb ocheck]; [|reflexivity]. destruct (V8 eq_refl). rewrite !Rltb_true by lra. reflexivity.
  - destruct (V7 eq_refl) as (A1 & A2 & A3). rewrite (proj2 (Z.leb_le _ _) A1), (proj2 (Z.ltb_lt _ _) A2), (proj2 (Z.ltb_lt _ _) A3). cbn [ocheck].
    destruct allow; cbn [negb orb ocheck]; [|reflexivity]. destruct (V8 eq_refl). rewrite !Rltb_true by lra. reflexivity.
Qed.
Lemma check_inv {A} p allow rate (k : outcome A) v : check_parameters p allow rate k = Ok v -> valid_parameters p allow rate.
Proof.
  unfold check_parameters, ocheck.
  repeat match goal with |- (if ?b then _ else _) = _ -> _ => let E := fresh "E" in destruct b eqn:E; [|discriminate] end.
  intros _. repeat match goal with H : Rltb ?a ?b = true |- _ => destruct (Rltb_spec a b); [clear H|discriminate] | H : Rleb ?a ?b = true |- _ => destruct (Rleb_spec a b); [clear H|discriminate] end.
  unfold valid_parameters. repeat match goal with |- _ /\ _ => split end; try lra; intros U; rewrite U in *; cbn [orb negb] in *.
  - repeat split; lia.
  - repeat match goal with H : Rltb ?a ?b = true |- _ => destruct (Rltb_spec a b); [clear H|discriminate] end. lra.
Qed.
Lemma check_fail {A} p allow rate (k : outcome A) : ~ valid_parameters p allow rate -> check_parameters p allow rate k = CheckFail.
Proof.
  intros N. destruct (check_parameters p allow rate (Ok tt)) as [u| |] eqn:E.
  - exfalso. apply N. eapply check_inv, E.
  - revert E. unfold check_parameters, ocheck. repeat match goal with |- context [if ?b then _ else _] => destruct b; try reflexivity end. discriminate.
  - revert E. unfold check_parameters, ocheck. repeat match goal with |- context [if ?b then _ else _] => destruct b; try reflexivity end. discriminate.
Qed.

(* ---- pole frequencies ---- *)
Lemma bandwidth_erb f : auditory_bandwidth_hz f = erb f.
Proof. unfold auditory_bandwidth_hz, break_frequency_hz, ear_quality_factor, break_frequency_hz, erb. field. Qed.
Lemma loop_ok p fuel : 0 < step_erbs p -> 0 < min_pole_frequency p -> forall f, f <= INR fuel * (step_erbs p * (247 / 10)) ->
  exists fs, pole_loop p fuel f = Ok fs /\ erb_scale (min_pole_frequency p) (step_erbs p) f fs.
Proof.
  intros S0 M0. induction fuel as [|fuel IH]; intros f F; cbn [pole_loop]; destruct (Rltb_spec (min_pole_frequency p) f) as [L|L].
  - cbn [INR] in F. lra.
  - exists []. split; [reflexivity|]. cbn. lra.
  - rewrite S_INR in F. rewrite bandwidth_erb. destruct (IH (f - step_erbs p * erb f)) as (fs & E & H).
    + assert (step_erbs p * (247 / 10) <= step_erbs p * erb f) by (apply Rmult_le_compat_l; [lra|unfold erb; lra]). lra.
    + rewrite E. cbn [obind]. exists (f :: fs). split; [reflexivity|]. cbn. auto.
  - exists []. split; [reflexivity|]. cbn. lra.
Qed.
Lemma poles_ok p rate : 0 < step_erbs p -> 0 < min_pole_frequency p ->
  exists fs, pole_frequencies p rate = Ok fs /\ erb_scale (min_pole_frequency p) (step_erbs p) (highest_frequency p rate) fs.
Proof.
  intros S0 M0. apply loop_ok; [exact S0|exact M0|].
  set (f := highest_frequency p rate). assert (Q : 0 < step_erbs p * (247 / 10)) by lra. set (q := step_erbs p * (247 / 10)) in *.
  destruct (archimed (f / q)) as [A _]. rewrite INR_IZR_INZ.
  assert (B : IZR (up (f / q)) <= IZR (Z.of_nat (Z.to_nat (up (f / q))))) by (apply IZR_le; lia).
  apply Rle_trans with (f / q * q); [right; field; lra|]. apply Rmult_le_compat_r; lra.
Qed.
Lemma erb_det lo s : forall fs f fs', erb_scale lo s f fs -> erb_scale lo s f fs' -> fs = fs'.
Proof.
  induction fs as [|g fs IH]; intros f [|g' fs'] H H'; cbn in *; [reflexivity|lra|lra|].
  destruct H as (-> & _ & H), H' as (-> & _ & H'). f_equal. eapply IH; eassumption.
Qed.
Lemma erb_range lo s : 0 < s -> 0 < lo -> forall fs f, erb_scale lo s f fs ->
  Forall (fun q => lo < q <= f) fs /\ StronglySorted (fun a b => b <= a) fs.
Proof.
  intros S0 L0. induction fs as [|g fs IH]; intros f H; [split; constructor|]. destruct H as (-> & L & H).
  destruct (IH _ H) as [A B]. assert (0 < s * erb f) by (apply Rmult_lt_0_compat; [exact S0|unfold erb; lra]).
  split; constructor; try lra; try exact B; eapply Forall_impl; try exact A; cbn; intros; lra.
Qed.

(* ---- the resonator ---- *)
Lemma quad_z (w k zeta : R) (z : C) : w <> 0 -> (z + RtoC 1)%C <> RtoC 0 ->
  let s := (RtoC k * (z - RtoC 1) / (z + RtoC 1))%C in let x := k / w in
  (s * s / RtoC (w * w) + RtoC (2 * zeta / w) * s + RtoC 1)%C =
  ((RtoC (x * x + 2 * zeta * x + 1) * (z * z) + RtoC (2 * (1 - x * x)) * z + RtoC (x * x - 2 * zeta * x + 1)) / ((z + RtoC 1) * (z + RtoC 1)))%C.
Proof.
  intros W Z s x. assert (WC : RtoC w <> RtoC 0) by (intros E; apply W; now apply RtoC_inj).
  unfold s, x. unfold Rdiv. replace 2 with (1 + 1) by ring. repeat (rewrite RtoC_plus || rewrite RtoC_minus || rewrite RtoC_mult || rewrite RtoC_inv by (try apply Rmult_integral_contrapositive_currified; assumption)).
  field. split; assumption.
Qed.
Lemma res_is pole zeta rate g : 0 < pole -> pole < rate / 2 -> 0 < zeta -> g <> 0 ->
  is_resonator pole zeta rate (adjust_stage g (res (compute_K pole rate / (2 * PI * pole)) zeta)).
Proof.
  intros P0 P1 Z0 G. pose proof (compute_K_pos pole rate P0 P1) as K. pose proof PI_RGT_0 as PP.
  set (w := 2 * PI * pole). assert (W : 0 < w) by (unfold w; nra). set (k := compute_K pole rate) in *.
  set (x := k / w). assert (X : 0 < x) by (now apply Rdiv_lt_0_compat).
  assert (D : 0 < res_den x zeta) by (unfold res_den; nra).
  assert (DC : RtoC (res_den x zeta) <> RtoC 0) by (intros E; apply RtoC_inj in E; lra).
  assert (RD : forall a, RtoC (a / res_den x zeta) = (RtoC a / RtoC (res_den x zeta))%C) by (intros a; unfold Rdiv; rewrite RtoC_mult, RtoC_inv by lra; reflexivity).
  exists g, k. split; [exact G|]. split; [exact K|]. split.
  - intros L. unfold k, compute_K. destruct (Rltb_spec pole (rate * / 10000000)) as [B|_]; [lra|].
    destruct (half_angle pole rate P0 P1) as (_ & _ & _ & _ & T). field. lra.
  - intros z Z D0 s. change (denominator (adjust_stage g (res x zeta)) z) with (denominator (res x zeta) z) in D0.
    assert (Z1 : (z + RtoC 1)%C <> RtoC 0).
    { intros E. apply Z. replace z with (z + RtoC 1 - RtoC 1)%C by ring. rewrite E. change (RtoC (-1)) with (RtoC (- (1))). rewrite RtoC_opp. ring. }
    assert (QP : quadratic_factor pole zeta s = (RtoC (res_den x zeta) * denominator (res x zeta) z / ((z + RtoC 1) * (z + RtoC 1)))%C).
    { unfold quadratic_factor. fold w. unfold s. cbv zeta. rewrite (quad_z w k zeta z) by (auto; lra). fold x. f_equal.
      unfold denominator, res. cbn [a0 a1 a2]. rewrite !RD. change (x * x + 2 * zeta * x + 1) with (res_den x zeta). field. exact DC. }
    assert (QZ : quadratic_factor (pole * sqrt 2) (zeta / sqrt 2) s = (RtoC (res_den x zeta) * numerator (res x zeta) z / ((z + RtoC 1) * (z + RtoC 1)))%C).
    { unfold quadratic_factor. replace (2 * PI * (pole * sqrt 2)) with (w * sqrt 2) by (unfold w; ring). unfold s. cbv zeta.
      pose proof sqrt2_pos as S2. pose proof sqrt2_sq as SS.
      rewrite (quad_z (w * sqrt 2) k (zeta / sqrt 2) z) by (auto; nra). f_equal.
      assert (XX : k / (w * sqrt 2) * (k / (w * sqrt 2)) = x * x / 2).
      { unfold x. transitivity (k * k / (w * w * (sqrt 2 * sqrt 2))); [field; lra|]. rewrite SS. field. lra. }
      assert (XZ : 2 * (zeta / sqrt 2) * (k / (w * sqrt 2)) = zeta * x).
      { unfold x. transitivity (2 * zeta * k / (w * (sqrt 2 * sqrt 2))); [field; lra|]. rewrite SS. field. lra. }
      rewrite XX, XZ. unfold numerator, res. cbn [b0 b1 b2]. rewrite !RD. field. exact DC. }
    split.
    + rewrite QP. intros E. apply D0. assert (E2 : (RtoC (res_den x zeta) * denominator (res x zeta) z)%C = RtoC 0).
      { replace (RtoC (res_den x zeta) * denominator (res x zeta) z)%C with (RtoC (res_den x zeta) * denominator (res x zeta) z / ((z + RtoC 1) * (z + RtoC 1)) * ((z + RtoC 1) * (z + RtoC 1)))%C by (field; auto).
        rewrite E. ring. }
      replace (denominator (res x zeta) z) with (RtoC (res_den x zeta) * denominator (res x zeta) z / RtoC (res_den x zeta))%C by (field; exact DC).
      rewrite E2. field. exact DC.
    + apply has_value_scale; [exact G|]. split; [exact D0|]. unfold resonance. rewrite QP, QZ. field. repeat split; auto.
Qed.
