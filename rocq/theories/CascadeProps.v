(* C23: AppendBiquad and Simplify preserve the transfer function.
   C24: IsStable decides stability. *)
From Verif Require Import Common RealUtil BiquadModel DesignSpec CascadeModel CascadeSpec CascadeProofs CascadeProofs2.
From Coquelicot Require Import Complex.
From Coq Require Import Psatz.
Local Open Scope R_scope.

(* The algorithm with its tolerance set to zero is exact for every cascade.  The claim with
   the tolerance 1e-10 of the code is refuted below. *)
Theorem C23_simplify_zero_tolerance_partial cs : cs <> [] -> Forall (fun c => a0 c <> 0) cs ->
  exists cs', simplify 0 cs = Ok cs' /\ same_response cs cs' /\ (1 <= length cs' <= length cs)%nat.
Proof. intros HN H. destruct (simplify_exact cs HN H) as (cs' & A & _ & B & C & _). now exists cs'. Qed.
Print Assumptions C23_simplify_zero_tolerance_partial.

(* With the tolerance of the code: exact for every cascade built by any number of AppendBiquad
   calls from well scaled stages. *)
Theorem C23_append_well_scaled_partial cs l : cs <> [] -> Forall well_scaled cs -> Forall well_scaled l ->
  exists cs', appends tolerance cs l = Ok cs' /\ Forall well_scaled cs' /\ same_response (cs ++ l) cs'.
Proof.
  intros HN HC HL.
  destruct (appends_of tolerance well_scaled) with (l := l) (cs := cs) as (cs' & A & B & C & _); auto.
  - intros c1 N1 F1. destruct (simplify_scaled c1 N1 F1) as (c2 & X1 & X2 & X3 & X4 & _). exists c2. auto.
  - now exists cs'.
Qed.
Print Assumptions C23_append_well_scaled_partial.

Example C23_well_scaled_example :
  well_scaled identity_coeffs /\
  well_scaled {| b0 := / 4; b1 := / 2; b2 := / 4; a0 := 1; a1 := - / 2; a2 := / 3 |} /\
  well_scaled {| b0 := 1; b1 := -1; b2 := 0; a0 := 1; a1 := - 9 / 10; a2 := 0 |}.
Proof.
  unfold well_scaled, separated. cbn [identity_coeffs a0 a1 a2 b0 b1 b2].
  assert (P : forall x, 0 < x -> Rabs x = x) by (intros; apply Rabs_pos_eq; lra).
  assert (N : forall x, x < 0 -> Rabs x = - x) by (intros; now apply Rabs_left).
  rewrite !Rabs_R0, !(P 1), !(P (/ 4)), !(P (/ 2)), !(P (/ 3)), !(N (- 1)), !(N (- / 2)), !(N (-9 / 10)) by lra.
  repeat split; intros; try lra; try (left; split; [reflexivity|]; try (left; reflexivity); right; lra).
Qed.

(* The loops of Simplify end with their condition false, within the fuel of the model, and
   never read outside a vector, whatever the stages are. *)
Theorem C23_simplify_complete tol cs : 0 <= tol ->
  exists cs1 cs2, merge_pairs tol vec_b set_b (length cs) cs = Ok cs1 /\ find_pair tol vec_b cs1 = None /\
    merge_pairs tol vec_a set_a (length cs1) cs1 = Ok cs2 /\ find_pair tol vec_a cs2 = None /\
    simplify tol cs = Ok (merge_gains tol (length cs2) cs2) /\
    ((length (merge_gains tol (length cs2) cs2) <= 1)%nat \/ find_zero_order tol (merge_gains tol (length cs2) cs2) = None).
Proof. exact (simplify_complete tol cs). Qed.
Print Assumptions C23_simplify_complete.

(* A lowpass for a very low corner frequency has numerator coefficients below 1e-10; appending
   any biquad with constant denominator divides its gain at DC by four. *)
Theorem C23_append_refuted : exists cs c cs' z h h',
  Forall stable (cs ++ [c]) /\ append_biquad tolerance cs c = Ok cs' /\
  cascade_value (cs ++ [c]) z h /\ cascade_value cs' z h' /\ Cmod z = 1 /\ h = Cmult (RtoC 4) h' /\ h' <> RtoC 0.
Proof.
  exists [tiny_lowpass], short_fir. eexists. exists (RtoC 1), (RtoC (28 / 100000000000)), (RtoC (7 / 100000000000)).
  assert (ST : forall c r, a0 c <> 0 -> is_stable c = Ok r -> r = true -> stable c).
  { intros c r H E R. destruct (is_stable_exact c H) as (r' & E' & [X _]). rewrite E in E'. injection E' as <-. auto. }
  split; [|split; [exact append_tiny|]].
  - constructor; [|constructor; [|constructor]].
    + apply (ST _ (forallb (fun k => negb (Rleb 1 (Rabs k))) [(-1 / 1 - / 4 / 1 * (-1 / 1)) * (1 / (1 - / 4 / 1 * (/ 4 / 1))); / 4 / 1])); [cbn; lra| |].
      * unfold is_stable, make_ladder. cbn [length vec_b vec_a tiny_lowpass negb Nat.eqb nth a0 a1 a2 b0 b1 b2].
        destruct (Reqb_spec 1 0) as [E|_]; [lra|]. reflexivity.
      * cbn [forallb]. replace ((-1 / 1 - / 4 / 1 * (-1 / 1)) * (1 / (1 - / 4 / 1 * (/ 4 / 1)))) with (- (4 / 5)) by field.
        replace (/ 4 / 1) with (/ 4) by field. rewrite Rabs_Ropp, !Rabs_pos_eq by lra.
        rewrite (Rleb_false 1 (4 / 5)), (Rleb_false 1 (/ 4)) by lra. reflexivity.
    + split; [cbn; lra|]. intros z E. unfold denominator in E. cbn [short_fir a0 a1 a2] in E.
      assert (Z : z = RtoC 0).
      { destruct (Ceq_dec z (RtoC 0)) as [Z|Z]; [exact Z|exfalso].
        assert (E' : Cmult z z = RtoC 0) by (rewrite <- E; ring). exact (Cmult_neq_0 z z Z Z E'). }
      rewrite Z, Cmod_0. lra.
  - rewrite !cascade_value_iff. unfold num, den. cbn [app cprod fold_right]. rewrite !numerator_ev, !denominator_ev.
    unfold ev. cbn [vec_a vec_b nth a0 a1 a2 b0 b1 b2 tiny_lowpass short_fir].
    assert (NE : forall x y : C, fst x <> fst y -> x <> y) by (intros x y H E; apply H; now rewrite E).
    split; [split; [apply NE; cbn; lra|apply injective_projections; cbn; field]|].
    split; [split; [apply NE; cbn; lra|apply injective_projections; cbn; field]|].
    split; [now rewrite Cmod_1|]. split; [apply injective_projections; cbn; field|apply NE; cbn; lra].
Qed.
Print Assumptions C23_append_refuted.

(* C24 *)
Theorem C24_biquad_is_stable_exact c : a0 c <> 0 -> exists r, is_stable c = Ok r /\ (r = true <-> stable c).
Proof. exact (is_stable_exact c). Qed.
Print Assumptions C24_biquad_is_stable_exact.
Theorem C24_zero_leading_coefficient c : a0 c = 0 -> is_stable c = CheckFail.
Proof.
  intros H. unfold is_stable, make_ladder. cbn [vec_a vec_b length Nat.eqb negb nth]. rewrite H.
  rewrite (proj2 (Reqb_true_iff 0 0) eq_refl). reflexivity.
Qed.
Print Assumptions C24_zero_leading_coefficient.

(* A cascade declared stable has only stable stages. *)
Theorem C24_cascade_sound cs : cascade_is_stable cs = Ok true -> Forall stable cs.
Proof. exact (cascade_stable_sound cs). Qed.
Print Assumptions C24_cascade_sound.
(* AsPolynomialRatio multiplies out the cascade. *)
Theorem C24_polynomial_ratio cs b a z h : as_polynomial_ratio cs = Ok (b, a) -> z <> RtoC 0 ->
  (cascade_value cs z h <-> peval a (Cinv z) <> RtoC 0 /\ Cdiv (peval b (Cinv z)) (peval a (Cinv z)) = h).
Proof. exact (polynomial_ratio_value cs b a z h). Qed.
Print Assumptions C24_polynomial_ratio.
(* A stage whose numerator is zero makes the product read before the start of a vector. *)
Theorem C24_cascade_zero_numerator_refuted : exists cs, Forall stable cs /\ cascade_is_stable cs = Undef.
Proof.
  exists [{| b0 := 0; b1 := 0; b2 := 0; a0 := 1; a1 := 0; a2 := 0 |}]. split.
  - constructor; [|constructor]. split; [cbn; lra|]. intros z E. unfold denominator in E. cbn [a0 a1 a2] in E.
    assert (Z : z = RtoC 0).
    { destruct (Ceq_dec z (RtoC 0)) as [Z|Z]; [exact Z|exfalso].
      assert (E' : Cmult z z = RtoC 0) by (rewrite <- E; ring). exact (Cmult_neq_0 z z Z Z E'). }
    rewrite Z, Cmod_0. lra.
  - unfold cascade_is_stable, as_polynomial_ratio. cbn [map product_of]. unfold vec_b at 1. cbn [b0 b1 b2].
    replace (convolve [0; 0; 0] [1]) with (@Undef (list R)); [reflexivity|].
    unfold convolve. assert (P : product [0; 0; 0] [1] = [0; 0; 0]) by (cbn; repeat f_equal; ring). rewrite P.
    cbn [rev app drop_zeros]. rewrite Rabs_R0, (proj2 (Reqb_true_iff 0 0) eq_refl). reflexivity.
Qed.
Print Assumptions C24_cascade_zero_numerator_refuted.

Example C24_example : exists r, is_stable {| b0 := 1; b1 := 0; b2 := 0; a0 := 2; a1 := 1; a2 := 1 |} = Ok r /\ r = true.
Proof.
  destruct (C24_biquad_is_stable_exact {| b0 := 1; b1 := 0; b2 := 0; a0 := 2; a1 := 1; a2 := 1 |}) as (r & E & H); [cbn; lra|].
  exists r. split; [exact E|].
  unfold is_stable, make_ladder in E. cbn [length vec_b vec_a negb Nat.eqb nth a0 a1 a2 b0 b1 b2] in E.
  destruct (Reqb_spec 2 0) as [X|_]; [lra|]. cbn in E. injection E as <-.
  replace ((1 / 2 - 1 / 2 * (1 / 2)) * (1 / (1 - 1 / 2 * (1 / 2)))) with (/ 3) by field.
  rewrite !Rabs_pos_eq by lra. rewrite (Rleb_false 1 (/ 3)), (Rleb_false 1 (1 / 2)) by lra. reflexivity.
Qed.
