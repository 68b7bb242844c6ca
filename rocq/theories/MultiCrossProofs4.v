From Verif Require Import Common ListLemmas NthLemmas RealUtil BiquadModel CascadeModel LadderModel LadderSpec LadderProofs LadderProofs2 MultiCrossModel MultiCrossSpec MultiCrossProofs MultiCrossProofs3.
Local Open Scope R_scope.

Section Signal.
Variable eps : R.
Variable sm : coeffs R.

(* ---------- Reset ---------- *)
Definition like (f f' : ladder) : Prop :=
  reflection f' = reflection f /\ scattering f' = scattering f /\ tap_gains f' = tap_gains f /\
  reflection_smoother f' = reflection_smoother f /\ tap_gains_smoother f' = tap_gains_smoother f /\
  reflection_target f' = reflection_target f /\ tap_gains_target f' = tap_gains_target f /\
  length (state f') = length (state f) /\ smoothing_samples f' = smoothing_samples f.
Lemma like_refl f : like f f.
Proof. repeat split. Qed.
Lemma like_trans f g h : like f g -> like g h -> like f h.
Proof. unfold like. intuition congruence. Qed.
Lemma map_const_length {A B} (x : B) (l l' : list A) : length l' = length l -> map (fun _ => x) l' = map (fun _ => x) l.
Proof. revert l'. induction l as [|a l IH]; intros [|a' l'] H; cbn in *; try discriminate; auto. f_equal. apply IH. lia. Qed.
Lemma like_reset f f' : like f f' -> ladder_reset f' = ladder_reset f.
Proof.
  intros (A1 & A2 & A3 & A4 & A5 & A6 & A7 & A8 & A9). unfold ladder_reset. rewrite A1, A2, A3, A4, A5, A6, A7. do 2 (destruct (smoother_reset _ _); cbn [obind]; [|reflexivity|reflexivity]).
  now rewrite (map_const_length _ (state f) (state f') A8).
Qed.
Lemma smoother_reset_twice s v s' : smoother_reset s v = Ok s' -> smoother_reset s' v = Ok s'.
Proof.
  unfold smoother_reset, biquad_reset, set_steady_state. intros E. apply obind_inv in E as (r & E1 & E). apply ocheck_ok in E1 as [L E1]. injection E1 as <-. cbn [rows with_rows] in E. rewrite repeat_length in E.
  destruct (Nat.eqb_spec (length v) (length (rows s))) as [LE|]; [|discriminate]. cbn [oguard] in E. injection E as <-. cbn [rows with_rows fb1 fb2]. rewrite map_length, LE, L. cbn [ocheck obind oguard rows with_rows fb1 fb2]. rewrite repeat_length, Nat.eqb_refl. reflexivity.
Qed.
Lemma init_settled nch k v f : ladder_init eps sm nch k v = Ok f -> ladder_reset f = Ok f /\ smoothing_samples f = O /\ length (state f) = nch.
Proof.
  unfold ladder_init. intros E. do 3 apply ocheck_ok in E as [_ E]. cbv zeta in E. apply obind_inv in E as (rs & _ & E). apply obind_inv in E as (ts & _ & E).
  unfold ladder_reset in E. cbn [reflection scattering tap_gains reflection_smoother tap_gains_smoother reflection_target tap_gains_target state] in E.
  apply obind_inv in E as (rs' & E1 & E). apply obind_inv in E as (ts' & E2 & E). injection E as <-. split; [|split; [reflexivity|cbn [state]; now rewrite map_length, repeat_length]].
  unfold ladder_reset. cbn [reflection scattering tap_gains reflection_smoother tap_gains_smoother reflection_target tap_gains_target state]. rewrite (smoother_reset_twice _ _ _ E1), (smoother_reset_twice _ _ _ E2). cbn [obind].
  do 2 f_equal. apply map_const_length. now rewrite map_length.
Qed.
Lemma sample_like f fr f' out : smoothing_samples f = O -> ladder_sample eps f fr = Ok (f', out) -> like f f'.
Proof.
  intros Z E. unfold ladder_sample, smooth in E. rewrite Z in E. cbn [obind] in E. apply ocheck_ok in E as [L E]. apply Nat.eqb_eq in L. injection E as <- _. cbn [reflection]. 
  unfold like. cbn [reflection scattering tap_gains reflection_smoother tap_gains_smoother reflection_target tap_gains_target state smoothing_samples]. repeat split. rewrite map_length, combine_length. lia.
Qed.
Lemma run_like x : forall f f' y, smoothing_samples f = O -> run_ladder eps f x = Ok (f', y) -> like f f'.
Proof.
  unfold run_ladder. induction x as [|fr x IH]; intros f f' y Z E; cbn [run] in E; [injection E as <- _; apply like_refl|].
  apply obind_inv in E as ([f1 o] & E1 & E). apply obind_inv in E as ([f2 os] & E2 & E). injection E as <- _. cbn [fst] in *. pose proof (sample_like _ _ _ _ Z E1) as L1.
  apply (like_trans _ f1); [exact L1|]. apply (IH f1 f2 os); [|exact E2]. destruct L1 as (_ & _ & _ & _ & _ & _ & _ & _ & ->). exact Z.
Qed.
(* filters as Init leaves them, and filters that have only been fed since *)
Definition fresh (f : ladder) : Prop := ladder_reset f = Ok f /\ smoothing_samples f = O.
Definition fed_only (f f' : ladder) : Prop := fresh f /\ like f f'.
Lemma fed_settled f f' : fed_only f f' -> smoothing_samples f' = O.
Proof. intros [[_ Z] (_ & _ & _ & _ & _ & _ & _ & _ & ->)]. exact Z. Qed.
Lemma run_cascade_fed x : forall fl fl' fl2 y, Forall2 fed_only fl fl' -> run_cascade eps fl' x = Ok (fl2, y) -> Forall2 fed_only fl fl2.
Proof.
  intros fl fl' fl2 y H. revert x fl2 y. induction H as [|f f' fl fl' H1 _ IH]; intros x fl2 y E; cbn [run_cascade] in E; [injection E as <- _; constructor|].
  apply obind_inv in E as ([g o] & E1 & E). apply obind_inv in E as ([gl os] & E2 & E). injection E as <- _. cbn [fst snd] in *. constructor; [|now apply (IH o gl os)].
  split; [apply H1|]. apply (like_trans _ f'); [apply H1|]. apply (run_like x f' g o); [now apply (fed_settled f)|exact E1].
Qed.
Lemma run_stages_fed : forall hp0 hp, Forall2 (Forall2 fed_only) hp0 hp -> forall lp0 lp, Forall2 (Forall2 fed_only) lp0 lp -> length hp = length lp -> forall x h l b, run_stages eps hp lp x = Ok (h, l, b) -> Forall2 (Forall2 fed_only) hp0 h /\ Forall2 (Forall2 fed_only) lp0 l.
Proof.
  induction 1 as [|h0 h1 hp0 hp H1 _ IH]; intros lp0 lp HL EQ x h l b E; cbn [run_stages] in E.
  - destruct HL; [|discriminate EQ]. injection E as <- <- _. split; constructor.
  - destruct HL as [|l0 l1 lp0 lp HL1 HL]; [discriminate EQ|]. apply obind_inv in E as ([rh yh] & E1 & E). apply obind_inv in E as ([rl yl] & E2 & E). apply obind_inv in E as ([[hh ll] bb] & E3 & E). cbn [fst snd] in *. injection E as <- <- _.
    destruct (IH lp0 lp HL ltac:(cbn in EQ; lia) _ _ _ _ E3) as [A B]. split; constructor; auto; eapply run_cascade_fed; eauto.
Qed.
Lemma run_allpass_fed : forall ap0 ap, Forall2 (Forall2 fed_only) ap0 ap -> forall bands a b, (length ap <= length bands)%nat -> run_allpass eps ap bands = Ok (a, b) -> Forall2 (Forall2 fed_only) ap0 a /\ length b = length bands.
Proof.
  induction 1 as [|a0 a1 ap0 ap H1 _ IH]; intros bands a b L E; cbn [run_allpass] in E; [injection E as <- <-; split; [constructor|reflexivity]|].
  destruct bands as [|b0 bands]; [cbn in L; lia|]. apply obind_inv in E as ([r y] & E1 & E). apply obind_inv in E as ([r' y'] & E2 & E). cbn [fst snd] in *. injection E as <- <-.
  destruct (IH bands _ _ ltac:(cbn in L; lia) E2) as [A B]. split; [constructor; [eapply run_cascade_fed; eauto|exact A]|cbn [length]; lia].
Qed.
Lemma run_stages_length : forall hp lp x h l b, length hp = length lp -> run_stages eps hp lp x = Ok (h, l, b) -> length b = S (length hp) /\ length h = length hp /\ length l = length lp.
Proof.
  induction hp as [|h0 hp IH]; intros [|l0 lp] x h l b EQ E; cbn [run_stages length] in *; try lia; [injection E as <- <- <-; auto|].
  apply obind_inv in E as (rh & E1 & E). apply obind_inv in E as (rl & E2 & E). apply obind_inv in E as ([[hh ll] bb] & E3 & E). cbn [fst snd] in *. injection E as <- <- <-.
  destruct (IH lp _ _ _ _ ltac:(lia) E3) as (A & B & C). cbn [length]. lia.
Qed.
Lemma reset_fed l l' : Forall2 (Forall2 fed_only) l l' -> reset_cascades l' = Ok l.
Proof.
  intros H. unfold reset_cascades. apply traverse_spec. induction H as [|c c' l l' H1 _ IH]; constructor; [|exact IH]. apply traverse_spec. clear IH l l'. induction H1 as [|f f' c c' H _ IH]; constructor; [|exact IH].
  rewrite (like_reset f f'); [apply H|apply H].
Qed.

(* the filters of a splitter after Init *)
Definition fed_splitter (s s' : splitter) : Prop :=
  sp_bands s' = sp_bands s /\ sp_channels s' = sp_channels s /\ sp_rate s' = sp_rate s /\ sp_bank s' = sp_bank s /\
  Forall2 (Forall2 fed_only) (highpass_filters s) (highpass_filters s') /\ Forall2 (Forall2 fed_only) (lowpass_filters s) (lowpass_filters s') /\
  Forall2 (Forall2 fed_only) (allpass_filters s) (allpass_filters s') /\ length (highpass_filters s) = length (lowpass_filters s) /\ (length (allpass_filters s) <= length (highpass_filters s))%nat.
Lemma Forall2_len {A B} (P : A -> B -> Prop) l l' : Forall2 P l l' -> length l = length l'.
Proof. induction 1; cbn; lia. Qed.
Lemma fed_block s s' x s2 y : fed_splitter s s' -> split_block eps s' x = Ok (s2, y) -> fed_splitter s s2.
Proof.
  intros (A1 & A2 & A3 & A4 & H & L & A & E1 & E2) E. unfold split_block in E. apply obind_inv in E as ([[h l] b] & R & E). apply obind_inv in E as ([a b'] & R' & E). cbn [fst snd] in *. injection E as <- <-.
  pose proof (Forall2_len _ _ _ H) as N1. pose proof (Forall2_len _ _ _ L) as N2. pose proof (Forall2_len _ _ _ A) as N3.
  assert (N4 : length (highpass_filters s') = length (lowpass_filters s')) by lia. destruct (run_stages_length _ _ _ _ _ _ N4 R) as (LB & _). destruct (run_stages_fed _ _ H _ _ L N4 _ _ _ _ R) as [RH RL].
  destruct (run_allpass_fed _ _ A b a b' ltac:(lia) R') as [RA _]. repeat split; cbn [sp_bands sp_channels sp_rate sp_bank highpass_filters lowpass_filters allpass_filters]; auto.
Qed.
Lemma fed_reset s s' : fed_splitter s s' -> splitter_reset s' = Ok s.
Proof.
  intros (A1 & A2 & A3 & A4 & H & L & A & _). unfold splitter_reset. rewrite (reset_fed _ _ H), (reset_fed _ _ L), (reset_fed _ _ A). cbn [obind]. rewrite A1, A2, A3, A4. now destruct s.
Qed.
Lemma init_fresh nch c f : ladder_init_tf eps sm nch (vec_b c) (vec_a c) = Ok f -> fresh f.
Proof. intros E. unfold ladder_init_tf in E. apply obind_inv in E as (kv & _ & E). apply init_settled in E. split; tauto. Qed.
Lemma init_cascades_fresh nch css fl : traverse (init_cascade eps sm nch) css = Ok fl -> Forall (Forall fresh) fl /\ length fl = length css.
Proof.
  intros E. apply traverse_spec in E. induction E as [|cs f css fl E _ [IH IL]]; [split; constructor|]. split; [|cbn; lia]. constructor; [|exact IH]. unfold init_cascade in E. apply traverse_spec in E. clear -E. induction E as [|c f cs fl E _ IH]; constructor; [|exact IH]. exact (init_fresh _ _ _ E).
Qed.
Lemma fresh_fed l : Forall (Forall fresh) l -> Forall2 (Forall2 fed_only) l l.
Proof. induction 1 as [|c l H _ IH]; constructor; [|exact IH]. clear IH. induction H as [|f c H _ IH]; constructor; [|exact IH]. split; [exact H|apply like_refl]. Qed.
Lemma correct_length nb fs freqs ls : forall d d', Forall (fun l => (l < length (allpass_coeffs d))%nat) ls -> correct_all nb fs freqs d ls = Ok d' -> length (allpass_coeffs d') = length (allpass_coeffs d).
Proof.
  induction ls as [|l ls IH]; intros d d' F E; cbn [correct_all] in E; [now injection E as <-|]. apply obind_inv in E as (d1 & E1 & E).
  unfold correct in E1. cbv zeta in E1. do 4 (apply obind_inv in E1 as (? & _ & E1)). injection E1 as <-. apply IH in E; cbn [allpass_coeffs] in *; rewrite MultiCrossProofs2.splice_one_length in * by exact (Forall_inv F); [exact E|exact (Forall_inv_tail F)].
Qed.
Lemma splitter_parts type order nb nch fs freqs s : splitter_init eps sm type order nb nch fs freqs = Ok s ->
  (1 < nb)%Z /\ sp_bands s = Z.to_nat nb /\ sp_channels s = nch /\ design_bank type order (Z.to_nat nb) fs freqs = Ok (sp_bank s) /\
  traverse (init_cascade eps sm nch) (lowpass_coeffs (sp_bank s)) = Ok (lowpass_filters s) /\
  traverse (init_cascade eps sm nch) (highpass_coeffs (sp_bank s)) = Ok (highpass_filters s) /\
  traverse (init_cascade eps sm nch) (allpass_coeffs (sp_bank s)) = Ok (allpass_filters s) /\
  length (lowpass_coeffs (sp_bank s)) = (Z.to_nat nb - 1)%nat /\ length (highpass_coeffs (sp_bank s)) = (Z.to_nat nb - 1)%nat /\ length (allpass_coeffs (sp_bank s)) = (Z.to_nat nb - 2)%nat /\
  fed_splitter s s.
Proof.
  unfold splitter_init. intros E. apply ocheck_ok in E as [B E]. cbv zeta in E. apply obind_inv in E as (d & ED & E). apply obind_inv in E as (lp & EL & E). apply obind_inv in E as (hp & EH & E). apply obind_inv in E as (ap & EA & E).
  destruct (init_cascades_fresh _ _ _ EL) as [FL NL]. destruct (init_cascades_fresh _ _ _ EH) as [FH NH]. destruct (init_cascades_fresh _ _ _ EA) as [FA NA].
  destruct (MultiCrossProofs2.design_inv _ _ _ _ _ _ ED) as (_ & _ & L1 & L2 & lh & d0 & d1 & _ & E0 & EC & ES & _).
  assert (L3 : length (allpass_coeffs d) = (Z.to_nat nb - 2)%nat).
  { apply traverse_spec in ES. apply Forall2_len in ES. rewrite <- ES. assert (L0 : length (allpass_coeffs d0) = (Z.to_nat nb - 2)%nat) by (rewrite E0; apply repeat_length). rewrite <- L0. apply (correct_length _ _ _ _ _ _ ltac:(rewrite L0; apply MultiCrossProofs2.correction_order_ok) EC). }
  assert (ES' : s = {| sp_bands := Z.to_nat nb; sp_channels := nch; sp_rate := fs; sp_bank := d; highpass_filters := hp; lowpass_filters := lp; allpass_filters := ap |}).
  { unfold splitter_reset in E. cbn [highpass_filters lowpass_filters allpass_filters] in E. rewrite (reset_fed _ _ (fresh_fed _ FH)), (reset_fed _ _ (fresh_fed _ FL)), (reset_fed _ _ (fresh_fed _ FA)) in E. cbn [obind] in E. injection E as <-. reflexivity. }
  rewrite ES'. cbn [sp_bands sp_channels sp_rate sp_bank highpass_filters lowpass_filters allpass_filters]. split; [lia|]. split; [reflexivity|]. split; [reflexivity|]. split; [exact ED|]. split; [exact EL|]. split; [exact EH|]. split; [exact EA|]. split; [exact L1|]. split; [exact L2|]. split; [exact L3|].
  repeat split; cbn [sp_bands sp_channels sp_rate sp_bank highpass_filters lowpass_filters allpass_filters]; try (now apply fresh_fed).
  all: lia.
Qed.
Lemma reset_after_feeding type order nb nch fs freqs s xs s' ys : splitter_init eps sm type order nb nch fs freqs = Ok s -> run (split_block eps) s xs = Ok (s', ys) -> splitter_reset s' = Ok s.
Proof.
  intros I E. apply splitter_parts in I. destruct I as (_ & _ & _ & _ & _ & _ & _ & _ & _ & _ & F). apply fed_reset.
  assert (G : forall xs s1 s' ys, fed_splitter s s1 -> run (split_block eps) s1 xs = Ok (s', ys) -> fed_splitter s s'); [|exact (G _ _ _ _ F E)].
  clear. induction xs as [|x xs IH]; intros s1 s' ys F E; cbn [run] in E; [injection E as <- _; exact F|]. apply obind_inv in E as ([s2 y] & E1 & E). apply obind_inv in E as ([s3 ys'] & E2 & E). injection E as <- _. cbn [fst] in *. apply (IH s2 s3 ys'); [|exact E2]. exact (fed_block _ _ _ _ _ F E1).
Qed.
End Signal.
