From Verif Require Import Common ListLemmas NthLemmas Mealy RealUtil BiquadModel CascadeModel PoleZeroModel LadderModel LadderSpec FixedDelayLineModel FixedDelayLineProofs EnvelopeModel EnvelopeSpec EnvelopeProofs DrcCurveModel DrcModel DrcSpec DrcProofs DrcProps
  MultiCrossModel MultiCrossSpec MultiCrossProofs MultiCrossProofs2 MultiCrossProofs3 MultiCrossProofs4 MultiCrossProofs5 MultiCompModel MultiCompSpec MultiCompProofs MultiCompProofs2.
Local Open Scope R_scope.

Lemma run_cat {S A B} (step : S -> A -> outcome (S * B)) a s b s' outs : run step s (a ++ b) = Ok (s', outs) ->
  exists s1 o1 o2, run step s a = Ok (s1, o1) /\ run step s1 b = Ok (s', o2) /\ outs = o1 ++ o2.
Proof.
  rewrite DrcProofs.run_app. intros E. apply obind_inv in E as ([s1 o1] & E1 & E). cbn [fst snd] in E. unfold omap in E. apply obind_inv in E as ([s2 o2] & E2 & E). injection E as <- <-. eauto 6.
Qed.
Lemma traverse_nth {A B} (f : A -> outcome B) l r da db : traverse f l = Ok r -> length r = length l /\ forall k, (k < length l)%nat -> f (nth k l da) = Ok (nth k r db).
Proof. intros E. apply traverse_spec in E. destruct (Forall2_nth _ _ _ da db E) as [L H]. auto. Qed.

(* ---------- a history of the compressor is a history of every controller ---------- *)
Inductive proj (k : nat) : list mb_op -> list drc_op -> Prop :=
| proj_nil : proj k [] []
| proj_init n m fs a b : proj k a b -> proj k (MInit n m fs :: a) (Init n m fs :: b)
| proj_reset a b : proj k a b -> proj k (MReset :: a) (ResetDrc :: b)
| proj_freqs f a b : proj k a b -> proj k (MSetFrequencies f :: a) b
| proj_set p a b : proj k a b -> proj k (MSetDrc (Z.of_nat k) p :: a) (SetParams p :: b)
| proj_other st p a b : st <> Z.of_nat k -> proj k a b -> proj k (MSetDrc st p :: a) b
| proj_process x v a b : proj k a b -> proj k (MProcess x :: a) (Process v v :: b).
Lemma proj_app k a1 b1 a2 b2 : proj k a1 b1 -> proj k a2 b2 -> proj k (a1 ++ a2) (b1 ++ b2).
Proof. induction 1; intros H2; cbn [app]; try constructor; auto. Qed.
Lemma proj_cat k a1 : forall a2 b, proj k (a1 ++ a2) b -> exists b1 b2, b = b1 ++ b2 /\ proj k a1 b1 /\ proj k a2 b2.
Proof.
  induction a1 as [|o a1 IH]; intros a2 b H; cbn [app] in H; [exists [], b; repeat split; [constructor|exact H]|].
  inversion H; subst; match goal with Q : proj k (a1 ++ a2) _ |- _ => destruct (IH _ _ Q) as (b1 & b2 & -> & P1 & P2) end.
  - exists (Init n m fs :: b1), b2. repeat split; [constructor|]; assumption.
  - exists (ResetDrc :: b1), b2. repeat split; [constructor|]; assumption.
  - exists b1, b2. repeat split; [constructor|]; assumption.
  - exists (SetParams p :: b1), b2. repeat split; [constructor|]; assumption.
  - exists b1, b2. repeat split; [constructor|]; assumption.
  - exists (Process v v :: b1), b2. repeat split; [constructor|]; assumption.
Qed.
Lemma proj_last k a b : proj k a b -> last_set b = last_given k a.
Proof.
  unfold last_set, last_given. generalize (@None drc_params). intros z H. revert z. induction H; intros z; cbn [fold_left]; auto.
  - rewrite Z.eqb_refl. apply IHproj.
  - destruct (Z.eqb_spec st (Z.of_nat k)); [contradiction|]. apply IHproj.
Qed.
Lemma proj_settled k a b : proj k a b -> settled b = mb_settled k a.
Proof.
  intros H. assert (G : forall z, fold_left (fun b o => match o with SetParams _ => false | Process _ _ | ResetDrc => true | Init _ _ _ => b end) b z =
    fold_left (fun a o => match o with MSetDrc st _ => if (st =? Z.of_nat k)%Z then false else a | MProcess _ | MReset => true | _ => a end) a z); [|exact (G true)].
  induction H; intros z; cbn [fold_left]; auto.
  - rewrite Z.eqb_refl. apply IHproj.
  - destruct (Z.eqb_spec st (Z.of_nat k)); [contradiction|]. apply IHproj.
Qed.
Lemma proj_no_init k a b : proj k a b -> no_minit a -> no_init b.
Proof. induction 1; intros N; try (inversion N; subst; contradiction); try constructor; auto; try apply IHproj; exact (Forall_inv_tail N). Qed.

Section Sessions.
Variable eps : R.
Variables (smoothing : coeffs R) (samples_max : nat).
Variable junk : nat -> nat -> list R.
Notation mb_step := (mb_step eps smoothing samples_max junk).
Notation mb_session := (mb_session eps smoothing samples_max junk).

Lemma init_drcs_inv : forall ds b n m fs r, init_drcs junk b ds n m fs = Ok r ->
  length r = length ds /\ forall k, (k < length ds)%nat -> drc_init (junk (b + k)) (nth k ds no_drc) n m fs = Ok (nth k r no_drc).
Proof.
  induction ds as [|d ds IH]; intros b n m fs r E; cbn [init_drcs] in E; [injection E as <-; split; [reflexivity|cbn; lia]|].
  apply obind_inv in E as (d1 & E1 & E). apply obind_inv in E as (r1 & E2 & E). injection E as <-. destruct (IH _ _ _ _ _ E2) as [L H]. split; [cbn; lia|].
  intros [|k] Hk; cbn [nth length] in *; [now rewrite Nat.add_0_r|]. replace (b + S k)%nat with (S b + k)%nat by lia. apply H. lia.
Qed.
Lemma init_drcs_ok : forall ds b n m fs r, length r = length ds -> (forall k, (k < length ds)%nat -> drc_init (junk (b + k)) (nth k ds no_drc) n m fs = Ok (nth k r no_drc)) -> init_drcs junk b ds n m fs = Ok r.
Proof.
  induction ds as [|d ds IH]; intros b n m fs [|d1 r] L H; cbn [length] in L; try lia; cbn [init_drcs]; [reflexivity|].
  pose proof (H 0%nat ltac:(cbn; lia)) as H0. rewrite Nat.add_0_r in H0. cbn [nth] in H0. rewrite H0. cbn [obind]. rewrite (IH (S b) n m fs r); [reflexivity|lia|].
  intros k Hk. specialize (H (S k) ltac:(cbn; lia)). cbn [nth] in H. rewrite <- H. f_equal. f_equal. lia.
Qed.
Lemma design_counts type order nb fs freqs d : design_bank type order nb fs freqs = Ok d -> length (lowpass_coeffs d) = (nb - 1)%nat /\ length (highpass_coeffs d) = (nb - 1)%nat /\ length (allpass_coeffs d) = (nb - 2)%nat.
Proof.
  intros ED. destruct (design_inv _ _ _ _ _ _ ED) as (_ & _ & L1 & L2 & lh & d0 & d1 & _ & E0 & EC & ES & _). split; [exact L1|]. split; [exact L2|].
  apply traverse_spec in ES. apply Forall2_len in ES. rewrite <- ES. assert (L0 : length (allpass_coeffs d0) = (nb - 2)%nat) by (rewrite E0; apply repeat_length). rewrite <- L0.
  apply (correct_length _ _ _ _ _ _ ltac:(rewrite L0; apply correction_order_ok) EC).
Qed.
Lemma init_shaped type order nb nch fs freqs s : splitter_init eps smoothing type order (Z.of_nat nb) nch fs freqs = Ok s -> shaped nb s.
Proof using eps smoothing.
  clear junk samples_max.
  intros E. apply splitter_parts in E. destruct E as (N & B & _ & _ & E1 & E2 & E3 & L1 & L2 & L3 & _). rewrite Nat2Z.id in *.
  apply (traverse_nth _ _ _ [] []) in E1 as [E1 _]. apply (traverse_nth _ _ _ [] []) in E2 as [E2 _]. apply (traverse_nth _ _ _ [] []) in E3 as [E3 _]. unfold shaped. lia.
Qed.
Lemma reset_shaped nb s s' : shaped nb s -> splitter_reset s = Ok s' -> shaped nb s'.
Proof.
  intros (N & B & L1 & L2 & L3) E. unfold splitter_reset, reset_cascades in E. repeat (apply obind_inv in E as (? & ? & E)). injection E as <-.
  repeat match goal with Q : traverse _ _ = Ok _ |- _ => apply (traverse_nth _ _ _ [] []) in Q as [Q _] end. unfold shaped. cbn [sp_bands highpass_filters lowpass_filters allpass_filters]. lia.
Qed.
Lemma change_count samples fl css fl' : change_cascades eps samples fl css = Ok fl' -> length css = length fl -> length fl' = length fl.
Proof. unfold change_cascades. intros E L. apply (traverse_nth _ _ _ ([], []) []) in E as [E _]. rewrite E, combine_length. lia. Qed.
Lemma frequencies_shaped nb type order s freqs s' : shaped nb s -> set_frequencies eps samples_max type order s freqs = Ok s' -> shaped nb s'.
Proof.
  intros (N & B & L1 & L2 & L3) E. unfold set_frequencies in E. apply obind_inv in E as (d & ED & E). apply obind_inv in E as (lp & E1 & E). apply obind_inv in E as (hp & E2 & E). apply obind_inv in E as (ap & E3 & E). injection E as <-.
  rewrite B in ED. destruct (design_counts _ _ _ _ _ _ ED) as (C1 & C2 & C3). apply change_count in E1; [|lia]. apply change_count in E2; [|lia]. apply change_count in E3; [|lia]. unfold shaped. cbn [sp_bands highpass_filters lowpass_filters allpass_filters]. lia.
Qed.

(* what never changes, and the sizes *)
Definition same_setup (c c' : multiband) : Prop := mb_bands c' = mb_bands c /\ mb_order c' = mb_order c /\ mb_type c' = mb_type c /\ mb_freqs c' = mb_freqs c /\ length (mb_drc c') = length (mb_drc c).
Definition well_sized (c : multiband) : Prop := mb_bands c = Z.of_nat (length (mb_drc c)) /\ match mb_splitter c with None => True | Some s => shaped (length (mb_drc c)) s end.
Lemma step_project c o c' out : well_sized c -> mb_step c o = Ok (c', out) -> well_sized c' /\ same_setup c c' /\
  forall k, (k < length (mb_drc c))%nat -> exists dops outs, proj k [o] dops /\ run (drc_step (junk k)) (nth k (mb_drc c) no_drc) dops = Ok (nth k (mb_drc c') no_drc, outs).
Proof.
  intros (WB & WS) E. destruct o as [n m fs| |f|st p|x]; cbn [MultiCompModel.mb_step] in E.
  - unfold omap in E. apply obind_inv in E as (c1 & E & E'). injection E' as <- _. unfold mb_init in E. apply obind_inv in E as (s & E1 & E). apply obind_inv in E as (ds & E2 & E). injection E as <-. destruct (init_drcs_inv _ _ _ _ _ _ E2) as [L H]. rewrite WB in E1.
    split; [split; cbn [mb_bands mb_drc with_parts mb_splitter]; rewrite L; [exact WB|exact (init_shaped _ _ _ _ _ _ _ E1)]|]. split; [repeat split; exact L|]. intros k Hk. exists [Init n m fs], [[]]. split; [repeat constructor|]. cbn [run drc_step with_parts mb_drc]. specialize (H k Hk). cbn [Nat.add] in H. rewrite H. reflexivity.
  - unfold omap in E. apply obind_inv in E as (c1 & E & E'). injection E' as <- _. unfold mb_reset in E. destruct (mb_splitter c) as [s|]; [|discriminate]. apply obind_inv in E as (s' & E1 & E). apply obind_inv in E as (ds & E2 & E). injection E as <-. destruct (traverse_nth _ _ _ no_drc no_drc E2) as [L H].
    split; [split; cbn [mb_bands mb_drc with_parts mb_splitter]; rewrite L; [exact WB|exact (reset_shaped _ _ _ WS E1)]|]. split; [repeat split; exact L|]. intros k Hk. exists [ResetDrc], [[]]. split; [repeat constructor|]. cbn [run drc_step with_parts mb_drc]. rewrite (H k Hk). reflexivity.
  - unfold omap in E. apply obind_inv in E as (c1 & E & E'). injection E' as <- _. unfold mb_set_frequencies in E. destruct (mb_splitter c) as [s|]; [|discriminate]. apply obind_inv in E as (s' & E1 & E). injection E as <-.
    split; [split; cbn [mb_bands mb_drc with_parts mb_splitter]; [exact WB|exact (frequencies_shaped _ _ _ _ _ _ WS E1)]|]. split; [repeat split|]. intros k Hk. exists [], []. split; [repeat constructor|reflexivity].
  - unfold omap in E. apply obind_inv in E as (c1 & E & E'). injection E' as <- _. unfold mb_set_drc in E. apply ocheck_ok in E as [S1 E]. apply ocheck_ok in E as [S2 E]. destruct (nth_error (mb_drc c) (Z.to_nat st)) as [d|] eqn:ND; [|discriminate]. apply obind_inv in E as (d' & E1 & E). injection E as <-.
    assert (HL : length (splice (Z.to_nat st) [d'] (mb_drc c)) = length (mb_drc c)) by (apply splice_one_length; lia).
    split; [split; cbn [mb_bands mb_drc mb_splitter]; rewrite HL; [exact WB|exact WS]|]. split; [repeat split; exact HL|]. intros k Hk. cbn [mb_drc].
    destruct (Z.eq_dec st (Z.of_nat k)) as [->|NE].
    + exists [SetParams p], [[]]. split; [repeat constructor|]. rewrite Nat2Z.id in *. apply nth_error_nth with (d := no_drc) in ND. rewrite ND. cbn [run drc_step]. rewrite E1. unfold omap. cbn [obind fst snd]. do 2 f_equal. symmetry. apply nth_error_nth. rewrite nth_error_splice by (cbn [length]; lia). cbn [length].
      replace (k <? k)%nat with false by lia. replace (k <? k + 1)%nat with true by lia. rewrite Nat.sub_diag. reflexivity.
    + exists [], []. split; [apply proj_other; [exact NE|constructor]|]. cbn [run]. do 2 f_equal. destruct (nth_error (mb_drc c) k) as [dk|] eqn:NK; [|apply nth_error_None in NK; lia]. rewrite (nth_error_nth _ _ no_drc NK). symmetry. apply nth_error_nth. rewrite nth_error_splice by (cbn [length]; lia). cbn [length].
      destruct (Nat.ltb_spec k (Z.to_nat st)); [exact NK|]. replace (k <? Z.to_nat st + 1)%nat with false by lia. exact NK.
  - unfold mb_process in E. destruct (mb_splitter c) as [s|]; [|discriminate]. apply obind_inv in E as ([s1 y] & E1 & E). apply obind_inv in E as ([ds r] & E2 & E). injection E as <- _. cbn [fst snd] in *. destruct (split_lengths eps _ _ _ _ _ WS E1) as (W1 & LY & _). destruct (process_drcs_inv junk _ _ _ _ _ E2 LY) as (L & LO & H).
    split; [split; cbn [mb_bands mb_drc with_parts mb_splitter]; rewrite L; [exact WB|exact W1]|]. split; [repeat split; exact L|]. intros k Hk. exists [Process (nth k y []) (nth k y [])], [nth k r []]. split; [repeat constructor|]. cbn [run drc_step with_parts mb_drc]. specialize (H k Hk). cbn [Nat.add] in H. rewrite H. reflexivity.
Qed.
Lemma setup_trans a b c : same_setup a b -> same_setup b c -> same_setup a c.
Proof. unfold same_setup. intuition congruence. Qed.
Lemma run_project : forall ops c c' outs, well_sized c -> run mb_step c ops = Ok (c', outs) -> well_sized c' /\ same_setup c c' /\
  forall k, (k < length (mb_drc c))%nat -> exists dops o, proj k ops dops /\ run (drc_step (junk k)) (nth k (mb_drc c) no_drc) dops = Ok (nth k (mb_drc c') no_drc, o).
Proof.
  induction ops as [|o ops IH]; intros c c' outs W E; cbn [run] in E.
  - injection E as <- _. split; [exact W|]. split; [repeat split|]. intros k Hk. exists [], []. split; [constructor|reflexivity].
  - apply obind_inv in E as ([c1 o1] & E1 & E). apply obind_inv in E as ([c2 o2] & E2 & E). injection E as <- _. cbn [fst snd] in *. destruct (step_project _ _ _ _ W E1) as (W1 & S1 & P1). destruct (IH _ _ _ W1 E2) as (W2 & S2 & P2).
    split; [exact W2|]. split; [eapply setup_trans; eassumption|]. intros k Hk. destruct (P1 k Hk) as (d1 & r1 & Q1 & R1). destruct S1 as (_ & _ & _ & _ & L1). destruct (P2 k ltac:(lia)) as (d2 & r2 & Q2 & R2). exists (d1 ++ d2), (r1 ++ r2). split; [exact (proj_app k [o] d1 ops d2 Q1 Q2)|].
    rewrite DrcProofs.run_app, R1. cbn [obind fst snd]. rewrite R2. reflexivity.
Qed.
(* the compressor that the constructor makes *)
Lemma make_parts p c : mb_make p = Ok c -> mb_bands c = mp_bands p /\ mb_order c = mp_order p /\ mb_type c = mp_type p /\ mb_freqs c = mp_freqs p /\ mb_splitter c = None /\ length (mb_drc c) = length (mp_drc p) /\
  forall k, (k < length (mp_drc p))%nat -> drc_make (nth k (mp_drc p) default_params) = Ok (nth k (mb_drc c) no_drc).
Proof.
  unfold mb_make. intros E. apply ocheck_ok in E as [_ E]. apply obind_inv in E as (ds & E1 & E). injection E as <-. destruct (traverse_nth _ _ _ default_params no_drc E1) as [L H]. cbn. auto 10.
Qed.
Lemma session_project p ops c outs : mp_bands p = Z.of_nat (length (mp_drc p)) -> mb_session p ops = Ok (c, outs) ->
  exists c0, mb_make p = Ok c0 /\ run mb_step c0 ops = Ok (c, outs) /\ well_sized c0 /\ well_sized c /\ same_setup c0 c /\
  forall k, (k < length (mp_drc p))%nat -> exists dops o, proj k ops dops /\ drc_session (junk k) (nth k (mp_drc p) default_params) dops = Ok (nth k (mb_drc c) no_drc, o).
Proof.
  intros W E. unfold MultiCompModel.mb_session in E. apply obind_inv in E as (c0 & E0 & E). exists c0. split; [exact E0|]. split; [exact E|]. destruct (make_parts _ _ E0) as (A1 & A2 & A3 & A4 & A5 & A6 & A7).
  assert (W0 : well_sized c0) by (split; [rewrite A1, A6; exact W|now rewrite A5]). split; [exact W0|]. destruct (run_project _ _ _ _ W0 E) as (W1 & S1 & P1). split; [exact W1|]. split; [exact S1|]. intros k Hk. destruct (P1 k ltac:(lia)) as (dops & o & Q & R). exists dops, o. split; [exact Q|].
  unfold drc_session. rewrite (A7 k Hk). exact R.
Qed.
End Sessions.
