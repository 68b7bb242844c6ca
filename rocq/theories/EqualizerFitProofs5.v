(* A case in which the fit returns: one peak, fitted at frequency zero to any target. *)
From Verif Require Import Common RealUtil CInt BiquadModel DesignModel DesignSpec DesignProofs CascadeModel CascadeSpec EqualizerModel EqualizerSpec EqualizerProofs
  DecibelsModel NelderMeadModel PoleZeroProofs18 EqualizerFitModel EqualizerFitSpec EqualizerFitProofs EqualizerFitProofs2 EqualizerFitProofs3 EqualizerFitProofs4.
From Coquelicot Require Import Complex.
Local Open Scope R_scope.

Definition one_peak (f q a g : R) : equalizer :=
  {| gain_db := g; stages := [({| type := Peak; frequency_hz := f; quality_factor := q; stage_gain_db := a |}, true)] |}.
Lemma one_peak_designs f q a g : 0 < f < 4 -> 2 <= q -> 1 <= db_to_linear a <= 16 / 5 ->
  exists c, designs 8 (stages (one_peak f q a g)) = Ok [c] /\ second_order c /\ has_value c (RtoC 1) (RtoC 1) /\
    get_coefficients (one_peak f q a g) 8 = Ok (adjust_gain (db_to_linear g) [c]).
Proof.
  intros Hf Hq Ha. assert (V : valid_design 8 f q) by (unfold valid_design; lra).
  destruct (peak_props 8 f q (db_to_linear a) V ltac:(lra)) as (c & E & _ & H1 & _).
  assert (D : designs 8 (stages (one_peak f q a g)) = Ok [c]).
  { cbn [one_peak stages designs]. unfold design_stage. cbn [type frequency_hz quality_factor stage_gain_db]. unfold peak_symmetric. rewrite Rltb_false by lra. rewrite E. reflexivity. }
  assert (S : second_order c) by (eapply peak_second_order; [exact Hq|apply Ha|exact E]).
  exists c. split; [exact D|]. split; [exact S|]. split; [exact H1|].
  apply (coefficients_so 8 (one_peak f q a g) [c] ltac:(lra) D). repeat constructor; apply S.
Qed.
Lemma circle_zero : on_circle 0 8 = RtoC 1.
Proof. unfold on_circle. replace (2 * PI * 0 / 8) with 0 by field. rewrite cos_0, sin_0. reflexivity. Qed.

Definition one_pass : convergence := {| inner_iterations := 1; threshold_db := 0 |}.
Definition small_settings : fit_settings :=
  {| min_frequency := 1; max_frequency := 3; min_quality := 2; max_quality := 5; max_evaluations := 40; rms_tol := / 10; rms_stddev_tol := 0; inner := one_pass |}.

Lemma one_peak_fits ldlt t f q a g : solves_spd ldlt -> 0 < f < 4 -> 2 <= q ->
  match_gains ldlt [0] [t] 8 one_pass (one_peak f q a g) = Ok (one_peak f q 0 (6 * (6 * t / (36 + / 10000)))) /\
  exists r, rms_error [0] [t] 8 (one_peak f q 0 (6 * (6 * t / (36 + / 10000)))) = Ok r.
Proof.
  intros HL Hf Hq. split.
  - destruct (one_peak_designs f q 6 0 Hf Hq six_db) as (c & _ & _ & HV & HC).
    assert (HC' : get_coefficients (one_peak f q 6 0) 8 = Ok [c]).
    { rewrite HC. f_equal. rewrite db_zero. cbn [adjust_gain]. f_equal. destruct c. unfold set_b, vec_b. cbn. rewrite !Rmult_1_r. reflexivity. }
    unfold match_gains. cbn [length Nat.eqb ocheck num_enabled one_peak stages filter snd Nat.add repeat]. 
    unfold set_gains at 1. cbn [length num_stages one_peak stages Nat.eqb Nat.add ocheck obind combine map fst snd with_gain last].
    change (Z.to_nat (inner_iterations one_pass)) with 1%nat. cbn [gains_loop length Nat.sub]. unfold set_gain_db. cbn [stages].
    unfold with_gain. cbn [type frequency_hz quality_factor stage_gain_db].
    change {| gain_db := 0; stages := [({| type := Peak; frequency_hz := f; quality_factor := q; stage_gain_db := 6 |}, true)] |} with (one_peak f q 6 0).
    rewrite HC'. cbn [obind length Nat.eqb Nat.leb orb oguard firstn last each]. unfold matrix_row. cbn [each].
    assert (ES : stage_db 8 0 c = Ok 0).
    { rewrite (stage_db_intro 8 0 c (RtoC 1)); [|rewrite circle_zero; exact HV|intros E; apply (f_equal fst) in E; cbn in E; lra].
      rewrite Cmod_1. unfold log10. rewrite ln_1. f_equal. field. assert (ln 1 < ln 10) by (apply ln_increasing; lra). rewrite ln_1 in *. lra. }
    rewrite ES. cbn [obind app].
    set (rows := [[0; 6]]). pose proof (gramian_spd 2 rows) as SPD.
    assert (LP : length (projected 2 rows [t]) = 2%nat) by reflexivity.
    destruct (HL 2%nat _ _ SPD LP) as [LX EQ]. pose proof (EQ 0%nat ltac:(lia)) as E0. pose proof (EQ 1%nat ltac:(lia)) as E1. clear EQ.
    destruct (ldlt (gramian 2 rows) (projected 2 rows [t])) as [|x0 [|x1 [|]]]; try discriminate LX.
    unfold entry, gramian, projected, rows in E0, E1. cbn in E0, E1.
    assert (X0 : x0 = 0) by lra. assert (X1 : x1 = 6 * t / (36 + / 10000)) by (subst x0; apply (Rmult_eq_reg_r (36 + / 10000)); [|lra]; replace (6 * t / (36 + / 10000) * (36 + / 10000)) with (6 * t) by (field; lra); lra).
    subst x0. cbn [vmap2]. unfold set_gains. cbn [length num_stages one_peak stages Nat.eqb Nat.add ocheck obind combine map fst snd with_gain last].
    unfold with_gain. cbn [type frequency_hz quality_factor stage_gain_db one_pass threshold_db]. rewrite X1, Rmult_0_l, Rltb_false.
    + unfold one_peak. f_equal. f_equal. ring.
    + apply Rnot_lt_le. intros L. unfold largest_change in L. apply fold_max_lt in L. lra.
  - destruct (one_peak_designs f q 0 (6 * (6 * t / (36 + / 10000))) Hf Hq) as (c & _ & _ & HV & HC); [rewrite db_zero; lra|].
    set (k := 6 * (6 * t / (36 + / 10000))) in *.
    assert (P : 0 < db_to_linear k) by (unfold db_to_linear, Rpower; apply exp_pos).
    assert (HV' : cascade_value (adjust_gain (db_to_linear k) [c]) (on_circle 0 8) (Cmult (RtoC (db_to_linear k)) (RtoC 1))).
    { apply adjust_value; [discriminate|]. rewrite circle_zero. exists (RtoC 1), (RtoC 1). split; [exact HV|]. split; [reflexivity|]. apply injective_projections; cbn; ring. }
    unfold rms_error, gain_magnitudes. rewrite HC. cbn [obind each]. rewrite (value_combined 8 0 _ 1 _ HV'). cbn [obind].
    rewrite Cmod_mult, !Cmod_R, (Rabs_pos_eq (db_to_linear k)), (Rabs_pos_eq 1) by lra.
    unfold amplitude_to_db_array. cbn [map_outcome]. unfold on_positive, oguard. rewrite Rltb_true by lra. cbn [obind length Nat.eqb negb]. eexists. reflexivity.
Qed.
