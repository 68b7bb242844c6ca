From Verif Require Import Common ListLemmas RealUtil BiquadModel DesignModel DesignSpec DesignProofs DesignProofs2 DesignProofs3 CascadeModel CascadeSpec CascadeProofs CascadeProofs2 PoleZeroModel PoleZeroSpec EqualizerSpec EqualizerProofs PoleZeroProofs PoleZeroProofs7 PoleZeroProofs16 PoleZeroProofs17 PoleZeroProofs18 MultiCrossModel MultiCrossSpec MultiCrossProofs MultiCrossProofs2 MultiCrossProofs3.
From Coquelicot Require Import Complex.
Local Open Scope R_scope.

Lemma adjust_scaled cs : Forall well_scaled cs -> Forall well_scaled (adjust_gain (-1) cs).
Proof.
  intros H. destruct H as [|c cs (H1 & H2 & H3 & H4 & H5) HT]; cbn [adjust_gain]; constructor; [|exact HT]. unfold well_scaled, separated in *. cbn [set_b map vec_b nth b0 b1 b2 a0 a1 a2].
  assert (A : forall x, Rabs (x * -1) = Rabs x) by (intros x; rewrite Rabs_mult, (Rabs_left (-1)) by lra; ring). rewrite !A.
  split; [destruct H1 as [[-> H1]|H1]; [left; split; [ring|destruct H1 as [-> |H1]; [left; ring|now right]]|now right]|]. split; [exact H2|]. split; [exact H3|]. split; [|exact H5].
  intros Q1 Q2. apply H4; lra.
Qed.
Lemma linkwitz_riley_scaled n fs f lo hi : (1 <= n)%nat -> (Z.of_nat n <= 50000)%Z -> fine_crossover n fs f -> crossover Linkwitz_Riley_crossover (2 * Z.of_nat n) f fs = Ok (lo, hi) -> Forall well_scaled lo /\ Forall well_scaled hi.
Proof.
  intros H HN (HG & HG' & HC) E0. destruct (crossover_range _ _ _ _ _ E0) as (H1 & H2 & _).
  destruct (double_lowpass n fs f H HN H1 H2 HC HG) as (lo1 & EL & LD & lo2 & CL & RL & NEL & _ & WL).
  destruct (double_highpass n fs f H HN H1 H2 HC HG') as (hi1 & EH & LD' & hi2 & CH & RH & NEH & _ & WH).
  set (hi3 := if Nat.odd n then adjust_gain (-1) hi2 else hi2).
  assert (E : crossover Linkwitz_Riley_crossover (2 * Z.of_nat n) f fs = Ok (lo2, hi3)).
  { unfold crossover, make_linkwitz_riley, make_butterworth. rewrite (Rltb_true 0 f), (Rltb_true f (fs / 2)) by assumption. replace (0 <? 2 * Z.of_nat n)%Z with true by lia. cbn [ocheck].
    replace (Z.rem (2 * Z.of_nat n) 2) with 0%Z by (rewrite Z.mul_comm, Z.rem_mul; lia). replace (Z.quot (2 * Z.of_nat n) 2) with (Z.of_nat n) by (rewrite Z.mul_comm, Z.quot_mul; lia). cbn [Z.eqb ocheck].
    rewrite EL, EH. cbn [obind fst]. rewrite (append_copies_of _ lo1 hi1 lo2 hi2); [|exact CL|rewrite LD, <- LD'; exact CH]. cbn [obind fst snd]. rewrite rem_odd by exact H. unfold hi3. destruct (Nat.odd n); reflexivity. }
  rewrite E0 in E. injection E as -> ->. split; [exact WL|]. unfold hi3. destruct (Nat.odd n); [now apply adjust_scaled|exact WH].
Qed.
Lemma butterworth_scaled n fs f lo hi : (1 <= n)%nat -> (Z.of_nat n <= 50000)%Z -> fine_crossover n fs f -> crossover Butterworth_crossover (Z.of_nat n) f fs = Ok (lo, hi) -> Forall well_scaled lo /\ Forall well_scaled hi.
Proof.
  intros H HN (HG & HG' & HC) E0. destruct (crossover_range _ _ _ _ _ E0) as (H1 & H2 & _).
  destruct (double_lowpass n fs f H HN H1 H2 HC HG) as (lo1 & EL & LD & lo2 & CL & RL & NEL & WL & _).
  destruct (double_highpass n fs f H HN H1 H2 HC HG') as (hi1 & EH & LD' & hi2 & CH & RH & NEH & WH & _).
  unfold crossover, make_butterworth in E0. rewrite (Rltb_true 0 f), (Rltb_true f (fs / 2)) in E0 by assumption. replace (0 <? Z.of_nat n)%Z with true in E0 by lia. cbn [ocheck] in E0. rewrite EL, EH in E0. cbn [obind fst snd] in E0.
  destruct (Z.rem (Z.of_nat n - 2) 4 =? 0)%Z; cbn [fst snd] in E0; injection E0 as <- <-; split; auto. now apply adjust_scaled.
Qed.
Lemma allpass_minimal_form fs f phase c : allpass_minimal fs f phase = Ok c -> b2 c = 1 /\ a0 c = 1.
Proof. unfold allpass_minimal, allpass. intros E. repeat (apply ocheck_ok in E as [_ E]). cbv zeta in E. repeat (match type of E with oguard ?b _ = _ => destruct b; [|discriminate E]; cbn [oguard] in E | ocheck ?b _ = _ => apply ocheck_ok in E as [_ E] | (let _ := _ in _) = _ => cbv zeta in E end). injection E as <-. split; reflexivity. Qed.
Lemma allpass_scaled fs f phase c : allpass_minimal fs f phase = Ok c -> / 10000000000 < Rabs (a2 c) -> well_scaled c.
Proof.
  intros E H. destruct (allpass_minimal_form _ _ _ _ E) as [B A]. apply so_scaled; [|rewrite A; lra]. pose proof tol_is as T. split; [rewrite B, Rabs_R1; lra|lra].
Qed.
Lemma appended_form nb fs freqs ls : forall d d', correct_all nb fs freqs d ls = Ok d' -> Forall (fun c => exists f p, allpass_minimal fs f p = Ok c) (appended d) -> Forall (fun c => exists f p, allpass_minimal fs f p = Ok c) (appended d').
Proof.
  induction ls as [|l ls IH]; intros d d' E H; cbn [correct_all] in E; [injection E as <-; exact H|]. apply obind_inv in E as (d1 & E1 & E). apply (IH d1 d' E). unfold correct in E1. cbv zeta in E1.
  do 2 (apply obind_inv in E1 as (? & _ & E1)). apply obind_inv in E1 as (c & EC & E1). apply obind_inv in E1 as (? & _ & E1). injection E1 as <-. cbn [appended]. apply Forall_app. split; [exact H|]. repeat constructor. eauto.
Qed.
Lemma appended_scaled type order nb fs freqs d : design_bank type order nb fs freqs = Ok d -> clear_allpass d -> Forall well_scaled (appended d).
Proof.
  intros E H. destruct (design_inv _ _ _ _ _ _ E) as (_ & _ & _ & _ & lh & d0 & d1 & _ & E0 & EC & _ & _ & _ & EA & _). unfold clear_allpass in H. rewrite EA in *.
  assert (F : Forall (fun c => exists f p, allpass_minimal fs f p = Ok c) (appended d1)) by (apply (appended_form _ _ _ _ _ _ EC); rewrite E0; constructor).
  rewrite Forall_forall in *. intros c Hc. destruct (F c Hc) as (f & p & EE). exact (allpass_scaled _ _ _ _ EE (H c Hc)).
Qed.
Lemma crossovers_scaled type order n nb fs freqs d : (forall f lo hi, fine_crossover n fs f -> crossover type order f fs = Ok (lo, hi) -> Forall well_scaled lo /\ Forall well_scaled hi) ->
  Forall (fine_crossover n fs) freqs -> design_bank type order nb fs freqs = Ok d -> clear_allpass d -> all_scaled d.
Proof.
  intros K F E H. pose proof (appended_scaled _ _ _ _ _ _ E H) as A. destruct (design_inv _ _ _ _ _ _ E) as (_ & _ & _ & _ & lh & d0 & d1 & X & _ & _ & _ & _ & _ & _ & EL & EH). unfold all_scaled. rewrite EL, EH.
  assert (Y : Forall (fun p => Forall well_scaled (fst p) /\ Forall well_scaled (snd p)) lh).
  { clear -X F K. induction X as [|f [lo hi] freqs lh E _ IH]; constructor; [exact (K f lo hi (Forall_inv F) E)|exact (IH (Forall_inv_tail F))]. }
  split; [|split; [|exact A]]; clear -Y; induction Y as [|p lh H _ IH]; cbn [map]; constructor; tauto.
Qed.
Lemma linkwitz_riley_design_scaled n nb fs freqs d : (1 <= n)%nat -> (Z.of_nat n <= 50000)%Z -> Forall (fine_crossover n fs) freqs -> design_bank Linkwitz_Riley_crossover (2 * Z.of_nat n) nb fs freqs = Ok d -> clear_allpass d -> all_scaled d.
Proof. intros H HN. apply crossovers_scaled. intros f lo hi F E. exact (linkwitz_riley_scaled n fs f lo hi H HN F E). Qed.
Lemma butterworth_design_scaled n nb fs freqs d : (1 <= n)%nat -> (Z.of_nat n <= 50000)%Z -> Forall (fine_crossover n fs) freqs -> design_bank Butterworth_crossover (Z.of_nat n) nb fs freqs = Ok d -> clear_allpass d -> all_scaled d.
Proof. intros H HN. apply crossovers_scaled. intros f lo hi F E. exact (butterworth_scaled n fs f lo hi H HN F E). Qed.
