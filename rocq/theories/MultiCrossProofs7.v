From Verif Require Import Common ListLemmas RealUtil BiquadModel DesignModel DesignSpec DesignProofs DesignProofs2 DesignProofs3 CascadeModel CascadeSpec CascadeProofs CascadeProofs2 ComplexModel PoleZeroModel PoleZeroSpec PoleZeroProofs PoleZeroProofs4 PoleZeroProofs6 PoleZeroProofs7 PoleZeroProofs16 PoleZeroProofs17 PoleZeroProofs18 PoleZeroProofs25 LadderModel LadderProofs LadderProofs2 MultiCrossModel MultiCrossSpec MultiCrossProofs MultiCrossProofs2 MultiCrossProofs3 MultiCrossProofs4 MultiCrossProofs6.
From Coquelicot Require Import Complex.
Local Open Scope R_scope.

(* ---------- Init succeeds when the coefficients can be designed ---------- *)
Lemma traverse_total {A B} (f : A -> outcome B) l : (forall a, In a l -> exists b, f a = Ok b) -> exists r, traverse f l = Ok r.
Proof.
  induction l as [|a l IH]; intros H; cbn [traverse]; [eauto|]. destruct (H a (or_introl eq_refl)) as [b ->]. cbn [obind]. destruct IH as [r ->]; [intros x Hx; apply H; now right|]. cbn [obind]. eauto.
Qed.
Lemma ladder_init_total eps sm nch b a k v : make_ladder b a = Ok (k, v) -> (1 <= nch)%nat -> a0 sm <> 0 -> k <> [] -> length v = S (length k) -> exists f, ladder_init_tf eps sm nch b a = Ok f.
Proof.
  intros E N H NK LV. unfold ladder_init_tf. rewrite E. cbn [obind fst snd]. unfold ladder_init. replace (1 <=? nch)%nat with true by lia. replace (length k =? 0)%nat with false by (destruct k; [contradiction|reflexivity]). rewrite LV, Nat.eqb_refl. cbn [negb ocheck].
  assert (L1 : length (force_stability eps k) = length k) by (unfold force_stability; apply map_length).
  assert (LT : forall l, length (tail_products l) = S (length l)) by (induction l as [|x l IH]; cbn [tail_products length]; auto).
  assert (L2 : length (convert_tap_gains (force_stability eps k) v) = length v) by (unfold convert_tap_gains; rewrite map_length, combine_length, LT, L1; lia).
  unfold smoother_init, biquad_init. rewrite L1, L2, LV. replace (1 <=? length k)%nat with true by (destruct k; [contradiction|reflexivity]). replace (1 <=? S (length k))%nat with true by reflexivity. destruct (Reqb_spec (a0 sm) 0); [contradiction|]. cbn [negb ocheck obind].
  unfold ladder_reset, smoother_reset, biquad_reset, set_steady_state. cbn [reflection_smoother tap_gains_smoother reflection_target tap_gains_target rows with_rows reflection state fb1 fb2]. rewrite !repeat_length, L1, L2, LV. replace (1 <=? length k)%nat with true by (destruct k; [contradiction|reflexivity]). replace (1 <=? S (length k))%nat with true by reflexivity. cbn [ocheck obind rows with_rows]. rewrite !repeat_length, !Nat.eqb_refl. cbn [oguard obind]. eauto.
Qed.
Lemma section_init eps sm nch c : (1 <= nch)%nat -> a0 sm <> 0 -> a0 c <> 0 -> exists f, ladder_init_tf eps sm nch (vec_b c) (vec_a c) = Ok f.
Proof.
  intros N H A. destruct (is_stable_biquad c A) as (k1 & E & _). eapply ladder_init_total; [exact E|exact N|exact H|discriminate|]. cbn. reflexivity.
Qed.
Definition proper_bank (d : bank) : Prop := Forall (Forall (fun c => a0 c <> 0)) (lowpass_coeffs d) /\ Forall (Forall (fun c => a0 c <> 0)) (highpass_coeffs d) /\ Forall (Forall (fun c => a0 c <> 0)) (allpass_coeffs d).
Lemma splitter_init_ok eps sm type order nb nch fs freqs d : (1 < nb)%Z -> (1 <= nch)%nat -> a0 sm <> 0 -> design_bank type order (Z.to_nat nb) fs freqs = Ok d -> proper_bank d ->
  exists s, splitter_init eps sm type order nb nch fs freqs = Ok s /\ sp_bank s = d /\ sp_bands s = Z.to_nat nb /\ sp_channels s = nch.
Proof.
  intros NB NC A E (PL & PH & PA). unfold splitter_init. replace (1 <? nb)%Z with true by lia. cbn [ocheck]. cbv zeta. rewrite E. cbn [obind].
  assert (T : forall css, Forall (Forall (fun c => a0 c <> 0)) css -> exists fl, traverse (init_cascade eps sm nch) css = Ok fl).
  { intros css F. apply traverse_total. intros cs Hcs. rewrite Forall_forall in F. specialize (F cs Hcs). unfold init_cascade. apply traverse_total. intros c Hc. rewrite Forall_forall in F. apply section_init; auto. }
  destruct (T _ PL) as [lp EL]. destruct (T _ PH) as [hp EH]. destruct (T _ PA) as [ap EA]. rewrite EL, EH, EA. cbn [obind].
  destruct (init_cascades_fresh _ _ _ _ _ EL) as [FL _]. destruct (init_cascades_fresh _ _ _ _ _ EH) as [FH _]. destruct (init_cascades_fresh _ _ _ _ _ EA) as [FA _].
  unfold splitter_reset. cbn [highpass_filters lowpass_filters allpass_filters]. rewrite (reset_fed _ _ (fresh_fed _ FH)), (reset_fed _ _ (fresh_fed _ FL)), (reset_fed _ _ (fresh_fed _ FA)). cbn [obind]. eexists. split; [reflexivity|]. auto.
Qed.
Lemma scaled_proper type order nb fs freqs d : design_bank type order nb fs freqs = Ok d -> all_scaled d -> proper_bank d.
Proof.
  intros E H. destruct (design_ok _ _ _ _ _ _ E H) as [(SL & SH & SA & _) _]. assert (W : forall cs, Forall well_scaled cs -> Forall (fun c => a0 c <> 0) cs) by (intros cs; apply Forall_impl; unfold well_scaled; tauto).
  split; [|split]; [revert SL|revert SH|revert SA]; apply Forall_impl; intros cs HC; apply W; auto. apply HC.
Qed.

(* ---------- two bands ---------- *)
Lemma two_bands_design type order fs f lo hi : crossover type order f fs = Ok (lo, hi) -> design_bank type order 2 fs [f] = Ok {| lowpass_coeffs := [lo]; highpass_coeffs := [hi]; allpass_coeffs := []; appended := [] |}.
Proof. intros E. unfold design_bank. cbn [length Nat.eqb Nat.sub is_sorted ocheck traverse]. rewrite E. reflexivity. Qed.

(* ---------- three bands ---------- *)
Lemma append_identity c : append_biquad tolerance [identity_coeffs] c = Ok [c].
Proof.
  unfold append_biquad, simplify. cbn [app length].
  assert (T : 0 < tolerance) by (unfold tolerance; lra).
  assert (FO : forall l, l = [1; 0; 0] -> first_order tolerance l = false) by (intros l ->; unfold first_order; cbn [nth]; rewrite (Rltb_false tolerance) by (rewrite Rabs_R0; lra); apply andb_false_r).
  assert (ZO : forall l, l = [1; 0; 0] -> zero_order tolerance l = true) by (intros l ->; unfold zero_order; cbn [nth]; rewrite Rabs_R0, Rleb_true by lra; reflexivity).
  assert (MP : forall poly set fuel, poly identity_coeffs = [1; 0; 0] -> merge_pairs tolerance poly set fuel [identity_coeffs; c] = Ok [identity_coeffs; c]).
  { intros poly set fuel E. destruct fuel; cbn [merge_pairs]; [reflexivity|]. unfold find_pair. cbn [find_from]. rewrite (FO _ E). destruct (first_order tolerance (poly c)); reflexivity. }
  rewrite MP by reflexivity. cbn [obind length]. rewrite MP by reflexivity. cbn [obind length merge_gains]. cbn [Nat.ltb Nat.leb]. unfold find_zero_order. cbn [find_from]. rewrite (ZO (vec_a identity_coeffs) eq_refl), (ZO (vec_b identity_coeffs) eq_refl). cbn [nth Nat.eqb firstn skipn app].
  destruct (Reqb_spec (b0 identity_coeffs / a0 identity_coeffs) 1) as [_|N]; [reflexivity|]. exfalso. apply N. cbn. field.
Qed.
Lemma simplify_single c : simplify tolerance [c] = Ok [c].
Proof.
  unfold simplify. cbn [length].
  assert (MP : forall poly set fuel, merge_pairs tolerance poly set fuel [c] = Ok [c]) by (intros poly set fuel; destruct fuel; cbn [merge_pairs]; [reflexivity|]; unfold find_pair; cbn [find_from]; destruct (first_order tolerance (poly c)); reflexivity).
  rewrite MP. cbn [obind length]. rewrite MP. reflexivity.
Qed.
Lemma low_value n fs f g lo hi h : (1 <= n)%nat -> (Z.of_nat n <= 50000)%Z -> fine_crossover n fs f -> crossover Linkwitz_Riley_crossover (2 * Z.of_nat n) f fs = Ok (lo, hi) -> - (fs / 2) < g < fs / 2 ->
  analog_value (butterworth n) (0, tan (PI * g / fs) / tan (PI * f / fs)) h -> cascade_value lo (on_circle g fs) (Cmult h h).
Proof.
  intros H HN (HG & HG' & HC) E0 G A. destruct (crossover_range _ _ _ _ _ E0) as (H1 & H2 & _). pose proof (tan_pos f fs H1 H2) as TP.
  destruct (double_lowpass n fs f H HN H1 H2 HC HG) as (lo1 & EL & LD & lo2 & CL & RL & NEL & _ & WL).
  destruct (double_highpass n fs f H HN H1 H2 HC HG') as (hi1 & EH & LD' & hi2 & CH & RH & NEH & _ & WH).
  destruct (butterworth_lowpass_prototype n H) as (L & _ & _). destruct (lowpass_response _ fs f L H1 H2 (butterworth_tame n _ H HN TP)) as (lo0 & EL0 & _ & VL & _). rewrite <- butterworth_is in EL0 by exact H. rewrite EL in EL0. injection EL0 as <-.
  set (hi3 := if Nat.odd n then adjust_gain (-1) hi2 else hi2).
  assert (E : crossover Linkwitz_Riley_crossover (2 * Z.of_nat n) f fs = Ok (lo2, hi3)).
  { unfold crossover, make_linkwitz_riley, make_butterworth. rewrite (Rltb_true 0 f), (Rltb_true f (fs / 2)) by assumption. replace (0 <? 2 * Z.of_nat n)%Z with true by lia. cbn [ocheck].
    replace (Z.rem (2 * Z.of_nat n) 2) with 0%Z by (rewrite Z.mul_comm, Z.rem_mul; lia). replace (Z.quot (2 * Z.of_nat n) 2) with (Z.of_nat n) by (rewrite Z.mul_comm, Z.quot_mul; lia). cbn [Z.eqb ocheck].
    rewrite EL, EH. cbn [obind fst]. rewrite (append_copies_of _ lo1 hi1 lo2 hi2); [|exact CL|rewrite LD, <- LD'; exact CH]. cbn [obind fst snd]. rewrite rem_odd by exact H. unfold hi3. destruct (Nat.odd n); reflexivity. }
  rewrite E0 in E. injection E as -> _. apply RL; [apply circle_neq_0|]. apply cascade_value_app. exists h, h. split; [now apply VL|]. split; [now apply VL|reflexivity].
Qed.
Lemma abs_sin_le x : - PI <= x < PI -> Rabs (sin x) <= Rabs x.
Proof.
  intros [A B]. destruct (Rtotal_order x 0) as [L|[-> |L]].
  - rewrite (Rabs_left x) by exact L. replace (sin x) with (- sin (- x)) by (rewrite sin_neg; ring). rewrite Rabs_Ropp. rewrite Rabs_pos_eq by (apply sin_ge_0; lra). left. apply sin_lt_x. lra.
  - rewrite sin_0, Rabs_R0. lra.
  - rewrite (Rabs_pos_eq x) by lra. rewrite Rabs_pos_eq by (apply sin_ge_0; lra). left. apply sin_lt_x. exact L.
Qed.
Lemma phase_of_ratio l x : l <> RtoC 0 -> x = Cmult (RtoC (Cmod x)) (cis (carg (Cmult l x) - carg l)).
Proof.
  intros N. pose proof (polar l) as P1. pose proof (polar (Cmult l x)) as P2. rewrite Cmod_mult in P2. set (a := carg l) in *. set (b := carg (Cmult l x)) in *.
  assert (E : Cmult l x = Cmult l (Cmult (RtoC (Cmod x)) (cis (b - a)))).
  { transitivity (Cmult (Cmult (RtoC (Cmod l)) (cis a)) (Cmult (RtoC (Cmod x)) (cis (b - a)))); [|now rewrite <- P1]. rewrite P2. replace b with (a + (b - a)) at 1 by ring. rewrite cis_plus, RtoC_mult. ring. }
  transitivity (Cmult (Cinv l) (Cmult l x)); [field; exact N|]. rewrite E. field. exact N.
Qed.
Lemma accept_phase fs f phase : 0 < f -> f < fs / 2 -> - PI <= phase < PI -> (exists c, allpass_minimal fs f phase = Ok c) <-> / 100000 < Rabs (sin phase).
Proof.
  intros H1 H2 HR. split.
  - intros [c E]. unfold allpass_minimal, allpass in E. apply ocheck_ok in E as [_ E]. apply ocheck_ok in E as [_ E]. apply ocheck_ok in E as [A3 _]. destruct (Rltb_spec (/ 100000) (Rabs (sin phase))); [assumption|discriminate].
  - intros H. destruct (full_angle f fs H1 H2) as (S2 & _). pose proof (abs_sin_le phase HR) as AS.
    assert (0 < infimal_group_delay fs f phase) by (unfold infimal_group_delay; apply Rdiv_lt_0_compat; [|exact S2]; apply Rdiv_lt_0_compat; lra).
    destruct (allpass_props fs f phase (minimum_group_delay fs f phase)) as (c' & E & _); [|now exists c'].
    unfold valid_allpass. repeat split; auto; try lra. fold (infimal_group_delay fs f phase). unfold minimum_group_delay. lra.
Qed.
Lemma reject_phase fs f phase : f < fs / 2 -> Rabs (sin phase) <= / 100000 -> allpass_minimal fs f phase = CheckFail.
Proof.
  intros H2 H. unfold allpass_minimal, allpass. rewrite (Rltb_true f (fs / 2)) by exact H2. cbn [ocheck]. destruct (Rltb _ (Rabs phase)); cbn [ocheck]; [|reflexivity]. rewrite Rltb_false by lra. reflexivity.
Qed.
Section Three.
Variables (n : nat) (fs f0 f1 : R) (h : C).
Hypothesis (H : (1 <= n)%nat) (HN : (Z.of_nat n <= 50000)%Z).
Hypothesis (P0 : 0 < f0) (P1 : f0 <= f1) (P2 : f1 < fs / 2).
Hypothesis (F0 : fine_crossover n fs f0) (F1 : fine_crossover n fs f1).
Hypothesis HV : analog_value (butterworth n) (0, tan (PI * f0 / fs) / tan (PI * f1 / fs)) h.
Let order : Z := (2 * Z.of_nat n)%Z.

Lemma three_crossovers : exists lo0 hi0 lo1 hi1 l, crossover Linkwitz_Riley_crossover order f0 fs = Ok (lo0, hi0) /\ crossover Linkwitz_Riley_crossover order f1 fs = Ok (lo1, hi1) /\
  Forall well_scaled lo0 /\ Forall well_scaled hi0 /\ Forall well_scaled lo1 /\ Forall well_scaled hi1 /\
  cascade_value lo0 (on_circle f0 fs) l /\ cascade_value hi0 (on_circle f0 fs) l /\ l <> RtoC 0 /\ cascade_value lo1 (on_circle f0 fs) (Cmult h h).
Proof.
  destruct (linkwitz_riley_flat n fs f0 H HN P0 ltac:(lra)) as (lo0 & hi0 & E0 & _ & _ & V0); try apply F0.
  destruct (linkwitz_riley_flat n fs f1 H HN ltac:(lra) P2) as (lo1 & hi1 & E1 & _ & _ & _); try apply F1.
  destruct (V0 f0 ltac:(lra)) as (l & l' & A & B & _ & _ & D). destruct (D eq_refl) as [<- M]. exists lo0, hi0, lo1, hi1, l.
  destruct (linkwitz_riley_scaled n fs f0 lo0 hi0 H HN F0 E0) as [W1 W2]. destruct (linkwitz_riley_scaled n fs f1 lo1 hi1 H HN F1 E1) as [W3 W4].
  split; [exact E0|]. split; [exact E1|]. split; [exact W1|]. split; [exact W2|]. split; [exact W3|]. split; [exact W4|]. split; [exact A|]. split; [exact B|]. split; [intros Q; rewrite Q, Cmod_0 in M; lra|].
  apply (low_value n fs f1 f0 lo1 hi1); auto. lra.
Qed.
Lemma value_nonzero : h <> RtoC 0.
Proof.
  intros Q. destruct (butterworth_axis n (tan (PI * f0 / fs) / tan (PI * f1 / fs)) H) as (h' & A & M). destruct A as [N ->]. destruct HV as [_ E]. rewrite Q in E. rewrite <- E, Cmod_0 in M.
  assert (0 < / sqrt (1 + (tan (PI * f0 / fs) / tan (PI * f1 / fs)) ^ (2 * n))); [|lra]. apply Rinv_0_lt_compat, sqrt_lt_R0. rewrite pow_mult. assert (0 <= ((tan (PI * f0 / fs) / tan (PI * f1 / fs)) ^ 2) ^ n) by (apply pow_le, pow2_ge_0). lra.
Qed.
Lemma three_bands : exists phase, - PI <= phase < PI /\ Cmult h h = Cmult (RtoC (Cmod (Cmult h h))) (cis phase) /\
  exists lo0 hi0 lo1 hi1, crossover Linkwitz_Riley_crossover order f0 fs = Ok (lo0, hi0) /\ crossover Linkwitz_Riley_crossover order f1 fs = Ok (lo1, hi1) /\
  Forall well_scaled lo0 /\ Forall well_scaled hi0 /\ Forall well_scaled lo1 /\ Forall well_scaled hi1 /\
  design_bank Linkwitz_Riley_crossover order 3 fs [f0; f1] =
    obind (allpass_minimal fs f0 phase) (fun c => Ok {| lowpass_coeffs := [lo0; lo1]; highpass_coeffs := [hi0; hi1]; allpass_coeffs := [[c]]; appended := [c] |}).
Proof.
  destruct three_crossovers as (lo0 & hi0 & lo1 & hi1 & l & E0 & E1 & W1 & W2 & W3 & W4 & A & B & NL & D).
  set (d0 := {| lowpass_coeffs := [lo0; lo1]; highpass_coeffs := [hi0; hi1]; allpass_coeffs := [[identity_coeffs]]; appended := [] |}).
  assert (SB : scaled_bank 3 d0).
  { repeat split; cbn [lowpass_coeffs highpass_coeffs allpass_coeffs d0]; auto. constructor; [exact unit_identity|constructor]. }
  destruct (band_coefficients_ok 3 d0 0 SB) as (cs & C1 & _ & V1). destruct (band_coefficients_ok 3 d0 1 SB) as (cs' & C2 & _ & V2).
  pose proof (circle_neq_0 f0 fs) as Z0.
  assert (A1 : cascade_value cs (on_circle f0 fs) l).
  { apply V1; [exact Z0|]. unfold band_sections. cbn [Nat.sub Nat.ltb Nat.leb nth lowpass_coeffs highpass_coeffs allpass_coeffs d0 firstn concat app]. apply cascade_value_app. exists l, (RtoC 1). split; [exact A|]. split; [|ring]. apply identity_value; [exact Z0|reflexivity]. }
  assert (A2 : cascade_value cs' (on_circle f0 fs) (Cmult l (Cmult h h))).
  { apply V2; [exact Z0|]. unfold band_sections. cbn [Nat.sub Nat.ltb Nat.leb nth lowpass_coeffs highpass_coeffs allpass_coeffs d0 firstn concat app]. rewrite !app_nil_r. apply cascade_value_app. exists (Cmult h h), l. split; [exact D|]. split; [exact B|ring]. }
  set (delta := carg (Cmult l (Cmult h h)) - carg l). exists (wrap_angle delta). split; [apply wrap_range|].
  split. { unfold cis. destruct (wrap_trig delta) as [-> ->]. fold (cis delta). now apply phase_of_ratio. }
  exists lo0, hi0, lo1, hi1. split; [exact E0|]. split; [exact E1|]. split; [exact W1|]. split; [exact W2|]. split; [exact W3|]. split; [exact W4|].
  unfold design_bank. cbn [length Nat.eqb Nat.sub is_sorted ocheck traverse]. rewrite (Rleb_true f0 f1) by exact P1. cbn [andb ocheck]. rewrite E0. cbn [obind]. rewrite E1. cbn [obind map fst snd repeat].
  fold d0. change (correction_order 2) with [0%nat]. cbn [correct_all]. unfold correct. cbn [nth]. rewrite C1. cbn [obind]. rewrite (proj2 (phase_response_ok cs f0 fs (carg l))) by eauto. cbn [obind]. rewrite C2. cbn [obind]. rewrite (proj2 (phase_response_ok cs' f0 fs (carg (Cmult l (Cmult h h))))) by eauto. cbn [obind]. fold delta.
  destruct (allpass_minimal fs f0 (wrap_angle delta)) as [c| |]; cbn [obind]; try reflexivity. cbn [allpass_coeffs d0 nth]. rewrite append_identity. cbn [obind allpass_coeffs lowpass_coeffs highpass_coeffs appended d0 app]. change (splice 0 [[c]] [[identity_coeffs]]) with [[c]]. cbn [traverse]. rewrite simplify_single. reflexivity.
Qed.
Lemma three_accept : (exists d, design_bank Linkwitz_Riley_crossover order 3 fs [f0; f1] = Ok d /\ proper_bank d) <-> / 100000 < Rabs (snd (Cmult h h)) / Cmod (Cmult h h).
Proof.
  destruct three_bands as (phase & HR & HX & lo0 & hi0 & lo1 & hi1 & _ & _ & W1 & W2 & W3 & W4 & E). pose proof value_nonzero as NZ.
  assert (M : 0 < Cmod (Cmult h h)) by (rewrite Cmod_mult; apply Cmod_gt_0 in NZ; now apply Rmult_lt_0_compat).
  assert (SN : Rabs (snd (Cmult h h)) / Cmod (Cmult h h) = Rabs (sin phase)).
  { rewrite HX at 1. set (m := Cmod _) in *. unfold cis, RtoC, Cmult. cbn [fst snd]. replace (m * sin phase + 0 * cos phase) with (m * sin phase) by ring. rewrite Rabs_mult, (Rabs_pos_eq m) by lra. field. lra. }
  rewrite SN, <- (accept_phase fs f0 phase P0 ltac:(lra) HR). split.
  - intros (d & ED & _). rewrite E in ED. apply obind_inv in ED as (c & EC & _). eauto.
  - intros [c EC]. rewrite E, EC. cbn [obind]. eexists. split; [reflexivity|]. assert (W : forall cs, Forall well_scaled cs -> Forall (fun c => a0 c <> 0) cs) by (intros cs; apply Forall_impl; unfold well_scaled; tauto).
    unfold proper_bank. cbn [lowpass_coeffs highpass_coeffs allpass_coeffs]. repeat split; repeat constructor; auto. destruct (allpass_minimal_form _ _ _ _ EC) as [_ ->]. lra.
Qed.
Lemma three_reject : Rabs (snd (Cmult h h)) / Cmod (Cmult h h) <= / 100000 -> design_bank Linkwitz_Riley_crossover order 3 fs [f0; f1] = CheckFail.
Proof.
  destruct three_bands as (phase & HR & HX & lo0 & hi0 & lo1 & hi1 & _ & _ & W1 & W2 & W3 & W4 & E). pose proof value_nonzero as NZ.
  assert (M : 0 < Cmod (Cmult h h)) by (rewrite Cmod_mult; apply Cmod_gt_0 in NZ; now apply Rmult_lt_0_compat).
  assert (SN : Rabs (snd (Cmult h h)) / Cmod (Cmult h h) = Rabs (sin phase)).
  { rewrite HX at 1. set (m := Cmod _) in *. unfold cis, RtoC, Cmult. cbn [fst snd]. replace (m * sin phase + 0 * cos phase) with (m * sin phase) by ring. rewrite Rabs_mult, (Rabs_pos_eq m) by lra. field. lra. }
  rewrite SN. intros Q. rewrite E, (reject_phase fs f0 phase ltac:(lra) Q). reflexivity.
Qed.
End Three.
