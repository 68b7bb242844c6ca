(* FitParametricEqualizer: what the search does with the parameters. *)
From Verif Require Import Common RealUtil CInt BiquadModel DesignSpec CascadeSpec EqualizerModel
  DecibelsModel NelderMeadModel NelderMeadSpec NelderMeadProofs NelderMeadProofs2 NelderMeadProofs3 NelderMeadProofs5 NelderMeadProps
  EqualizerFitModel EqualizerFitSpec EqualizerFitProofs EqualizerFitProofs2.
Local Open Scope R_scope.

Lemma get_parameters_ok e x0 : get_parameters e = Ok x0 ->
  (forall s b, In (s, b) (stages e) -> 0 < frequency_hz s) /\
  x0 = map (fun p => ln (frequency_hz (fst p))) (stages e) ++ map (fun p => quality_factor (fst p)) (stages e).
Proof.
  unfold get_parameters. intros H. destruct (each _ (stages e)) as [logs| |] eqn:E in H; try discriminate H. injection H as <-. apply each_forall2 in E.
  assert (X : (forall s b, In (s, b) (stages e) -> 0 < frequency_hz s) /\ logs = map (fun p => ln (frequency_hz (fst p))) (stages e)).
  { induction E as [|[s b] y l r E _ IH]; [split; [intros s b []|reflexivity]|]. unfold on_positive, oguard in E. cbn [fst] in E. destruct (Rltb_spec 0 (frequency_hz s)) as [P|]; [|discriminate E].
    injection E as <-. destruct IH as [I1 ->]. split; [|reflexivity]. intros s' b' [E|E]; [injection E as -> ->; exact P|eapply I1; exact E]. }
  destruct X as [X1 ->]. split; [exact X1|reflexivity].
Qed.
Lemma get_parameters_intro e : (forall s b, In (s, b) (stages e) -> 0 < frequency_hz s) ->
  get_parameters e = Ok (map (fun p => ln (frequency_hz (fst p))) (stages e) ++ map (fun p => quality_factor (fst p)) (stages e)).
Proof.
  intros H. unfold get_parameters. rewrite (each_intro _ _ (map (fun p => ln (frequency_hz (fst p))) (stages e))); [reflexivity|].
  revert H. generalize (stages e). induction l as [|[s b] l IH]; intros H; cbn [map]; constructor.
  - unfold on_positive, oguard. cbn [fst]. rewrite Rltb_true by (eapply H; left; reflexivity). reflexivity.
  - apply IH. intros s' b' Hs. eapply H. right. exact Hs.
Qed.

Lemma set_each_nth l : forall fl ql i s b, length fl = length l -> length ql = length l -> nth_error l i = Some (s, b) ->
  nth_error (set_each l fl ql) i = Some (with_parameters s (exp (nth i fl 0)) (nth i ql 0), b).
Proof.
  induction l as [|[s0 b0] l IH]; intros fl ql i s b Lf Lq H; [destruct i; discriminate H|].
  destruct fl as [|f fl], ql as [|q ql]; try discriminate Lf; try discriminate Lq. destruct i as [|i]; cbn [nth_error set_each nth] in *; [injection H as -> ->; reflexivity|].
  apply IH; auto.
Qed.
Lemma set_each_length l : forall fl ql, length fl = length l -> length ql = length l -> length (set_each l fl ql) = length l.
Proof.
  induction l as [|[s0 b0] l IH]; intros fl ql Lf Lq; [reflexivity|]. destruct fl as [|f fl], ql as [|q ql]; try discriminate Lf; try discriminate Lq. cbn [set_each length] in *. rewrite IH; lia.
Qed.
Lemma set_each_kinds l : forall fl ql, length fl = length l -> length ql = length l ->
  map (fun p : stage * bool => (type (fst p), snd p)) (set_each l fl ql) = map (fun p => (type (fst p), snd p)) l.
Proof.
  induction l as [|[s0 b0] l IH]; intros fl ql Lf Lq; [reflexivity|]. destruct fl as [|f fl], ql as [|q ql]; try discriminate Lf; try discriminate Lq. cbn [set_each length map fst snd with_parameters type] in *. rewrite IH; auto.
Qed.
Lemma set_parameters_ok e x e1 : set_parameters e x = Ok e1 ->
  length x = (2 * num_stages e)%nat /\ kinds_of e1 = kinds_of e /\ num_stages e1 = num_stages e /\
  forall i s b, nth_error (stages e) i = Some (s, b) ->
    nth_error (stages e1) i = Some (with_parameters s (exp (nth i x 0)) (nth (num_stages e + i) x 0), b).
Proof.
  unfold set_parameters, ocheck. destruct (Nat.eqb_spec (length x) (2 * num_stages e)) as [L|]; [|discriminate]. intros H. injection H as <-.
  assert (L1 : length (firstn (num_stages e) x) = length (stages e)) by (rewrite firstn_length; unfold num_stages in *; lia).
  assert (L2 : length (skipn (num_stages e) x) = length (stages e)) by (rewrite skipn_length; unfold num_stages in *; lia).
  split; [exact L|]. split; [apply set_each_kinds; assumption|]. split; [apply set_each_length; assumption|].
  intros i s b Hi. cbn [stages]. rewrite (set_each_nth _ _ _ i s b L1 L2 Hi).
  assert (Hi' : (i < length (stages e))%nat) by (apply nth_error_Some; rewrite Hi; discriminate).
  assert (E1 : nth i (firstn (num_stages e) x) 0 = nth i x 0).
  { rewrite <- (firstn_skipn (num_stages e) x) at 2. rewrite app_nth1 by lia. reflexivity. }
  assert (E2 : nth i (skipn (num_stages e) x) 0 = nth (num_stages e + i) x 0).
  { rewrite <- (firstn_skipn (num_stages e) x) at 2. rewrite app_nth2 by (unfold num_stages in *; lia). f_equal. unfold num_stages in *. lia. }
  rewrite E1, E2. reflexivity.
Qed.
Lemma set_parameters_intro e x : length x = (2 * num_stages e)%nat -> exists e1, set_parameters e x = Ok e1.
Proof. intros L. unfold set_parameters. rewrite (proj2 (Nat.eqb_eq _ _) L). eexists. reflexivity. Qed.

Lemma nth_error_ext_map {B} (F : stage * bool -> B) l1 : forall l2, length l1 = length l2 ->
  (forall i s b s' b', nth_error l1 i = Some (s, b) -> nth_error l2 i = Some (s', b') -> F (s, b) = F (s', b')) -> map F l1 = map F l2.
Proof.
  induction l1 as [|[s1 b1] l1 IH]; intros [|[s2 b2] l2] L H; try discriminate L; [reflexivity|]. cbn [map]. f_equal; [apply (H 0%nat); reflexivity|].
  apply IH; [cbn in L; lia|]. intros i. apply (H (S i)).
Qed.

Definition low_bounds (p : fit_settings) (n : nat) : list (option R) := repeat (Some (ln (min_frequency p))) n ++ repeat (Some (min_quality p)) n.
Definition high_bounds (p : fit_settings) (n : nat) : list (option R) := repeat (Some (ln (max_frequency p))) n ++ repeat (Some (max_quality p)) n.
Lemma nth_repeat_lt {A} (x d : A) n i : (i < n)%nat -> nth i (repeat x n) d = x.
Proof. revert i; induction n as [|n IH]; intros [|i] H; cbn; try lia; [reflexivity|apply IH; lia]. Qed.
Lemma nth_halves {A} (x y d : A) n i : (i < n)%nat -> nth i (repeat x n ++ repeat y n) d = x /\ nth (n + i) (repeat x n ++ repeat y n) d = y.
Proof.
  intros H. rewrite app_nth1 by (rewrite repeat_length; lia). rewrite app_nth2 by (rewrite repeat_length; lia). rewrite repeat_length. split; apply nth_repeat_lt; lia.
Qed.
Lemma nth_error_halves {A} (x y : A) n i : (i < n)%nat -> nth_error (repeat x n ++ repeat y n) i = Some x /\ nth_error (repeat x n ++ repeat y n) (n + i) = Some y.
Proof.
  intros H. assert (L : length (repeat x n ++ repeat y n) = (2 * n)%nat) by (rewrite app_length, !repeat_length; lia).
  split; rewrite (nth_error_nth' _ x) by lia; f_equal; [|rewrite (nth_indep _ x y) by lia]; apply nth_halves; exact H.
Qed.

Section Search.
Variable ldlt : list (list R) -> list R -> list R.
Variables (freqs targets : list R) (fs : R).

(* the state of the searcher before MinimizeObjective *)
Record ready (junk : list (list R)) (p : fit_settings) (e : equalizer) (x0 : list R) (s : searcher) : Prop := {
  r_reach : nm_reachable Fin (2 * num_stages e) s;
  r_low : lower s = low_bounds p (num_stages e); r_high : upper s = high_bounds p (num_stages e);
  r_obj : objective s = Some (search_value ldlt freqs targets fs (inner p) e);
  r_points : points s = x0 :: map (bump x0 (1 / 10)) (seq 0 (2 * num_stages e)) }.

Definition good_junk (n : nat) (junk : list (list R)) : Prop := length junk = (n + 1)%nat /\ forall q, In q junk -> length q = n.

Lemma allb_halves n a b c d : (0 < n)%nat -> allb (vmap2 ordered (repeat (Some a) n ++ repeat (Some b) n) (repeat (Some c) n ++ repeat (Some d) n)) = true <-> c <= a /\ d <= b.
Proof.
  intros Hn. assert (V : forall k (x y : option R) l r, vmap2 ordered (repeat x k ++ l) (repeat y k ++ r) = repeat (ordered x y) k ++ vmap2 ordered l r).
  { induction k as [|k IH]; intros x y l r; cbn [repeat app vmap2]; [reflexivity|]. rewrite IH. reflexivity. }
  rewrite V, <- (app_nil_r (repeat (Some b) n)), <- (app_nil_r (repeat (Some d) n)), V. cbn [vmap2]. rewrite app_nil_r. unfold allb. rewrite forallb_app, andb_true_iff.
  assert (F : forall (t : bool), forallb (fun b => b) (repeat t n) = true <-> t = true).
  { intros t. destruct n; [lia|]. split; [cbn [repeat forallb]; rewrite andb_true_iff; tauto|]. intros ->. apply forallb_forall. intros y Hy. apply repeat_spec in Hy. exact Hy. }
  rewrite !F. cbn [ordered]. split; intros [H1 H2].
  - split; [destruct (Rleb_spec c a); [assumption|discriminate]|destruct (Rleb_spec d b); [assumption|discriminate]].
  - rewrite !Rleb_true by assumption. auto.
Qed.
Lemma bounds_length (p : fit_settings) (a b : R) n : length (repeat (Some a) n ++ repeat (Some b) n) = (2 * n)%nat.
Proof. rewrite app_length, !repeat_length. lia. Qed.

Lemma fit_setup junk p e : good_junk (2 * num_stages e) junk -> (0 < num_stages e)%nat -> forall x0, get_parameters e = Ok x0 ->
  0 < min_frequency p -> min_frequency p < max_frequency p -> min_quality p <= max_quality p ->
  exists s5, exists s4, ready junk p e x0 s4 /\
    minimize Fin (Z.to_nat (max_evaluations p)) (max_evaluations p) (rms_stddev_tol p) (Some (rms_tol p)) s4 = Ok (Some s5) /\
    fit_equalizer ldlt freqs targets fs junk p e =
      obind (each (rms_objective ldlt freqs targets fs (inner p) e) (rev (calls s5))) (fun _ =>
      obind (get_argmin s5) (rms_objective ldlt freqs targets fs (inner p) e)).
Proof.
  intros [J1 J2] Hn x0 HP Hm HM HQ. set (n := num_stages e) in *.
  assert (L0 : length x0 = (2 * n)%nat) by (destruct (get_parameters_ok _ _ HP) as [_ ->]; rewrite app_length, !map_length; unfold n, num_stages; lia).
  assert (N0 : exists s0, nm_new (2 * n) junk = Ok s0 /\ dims s0 = (2 * n)%nat /\ lower s0 = [] /\ upper s0 = []).
  { unfold nm_new. replace (0 <? 2 * n)%nat with true by lia. cbn [ocheck]. eexists. repeat split; reflexivity. }
  destruct N0 as (s0 & E0 & D0 & Lo0 & Hi0).
  assert (E1 : exists s1, set_guess s0 x0 (1 / 10) = Ok s1 /\ dims s1 = (2 * n)%nat /\ lower s1 = [] /\ upper s1 = [] /\ points s1 = x0 :: map (bump x0 (1 / 10)) (seq 0 (2 * n))).
  { unfold set_guess. rewrite L0, D0, Nat.eqb_refl. cbn [ocheck]. unfold is_feasible. rewrite Lo0, Hi0. cbn [andb ocheck]. eexists. split; [reflexivity|]. cbn [with_points dims lower upper points]. auto. }
  destruct E1 as (s1 & E1 & D1 & Lo1 & Hi1 & P1).
  assert (E2 : exists s2, set_lower s1 (low_bounds p n) = Ok s2 /\ dims s2 = (2 * n)%nat /\ lower s2 = low_bounds p n /\ upper s2 = [] /\ points s2 = points s1).
  { unfold set_lower, low_bounds. rewrite (bounds_length p), D1, Nat.eqb_refl. cbn [ocheck]. rewrite Hi1. cbn [ocheck]. eexists. split; [reflexivity|]. cbn [with_bounds dims lower upper points]. auto. }
  destruct E2 as (s2 & E2 & D2 & Lo2 & Hi2 & P2).
  assert (E3 : exists s3, set_upper s2 (high_bounds p n) = Ok s3 /\ dims s3 = (2 * n)%nat /\ lower s3 = low_bounds p n /\ upper s3 = high_bounds p n /\ points s3 = points s1).
  { unfold set_upper, high_bounds. rewrite (bounds_length p), D2, Nat.eqb_refl. cbn [ocheck]. rewrite Lo2.
    assert (EB : (match low_bounds p n with [] => true | lo => allb (vmap2 ordered (repeat (Some (ln (max_frequency p))) n ++ repeat (Some (max_quality p)) n) lo) end) = true).
    { assert (HA : allb (vmap2 ordered (repeat (Some (ln (max_frequency p))) n ++ repeat (Some (max_quality p)) n) (low_bounds p n)) = true).
      { unfold low_bounds. apply allb_halves; [exact Hn|]. split; [left; apply ln_increasing; assumption|exact HQ]. }
      destruct (low_bounds p n) eqn:EL; [reflexivity|exact HA]. }
    rewrite EB. cbn [ocheck]. eexists. split; [reflexivity|]. cbn [with_bounds dims lower upper points]. auto. }
  destruct E3 as (s3 & E3 & D3 & Lo3 & Hi3 & P3).
  set (s4 := set_objective s3 (search_value ldlt freqs targets fs (inner p) e)).
  assert (RE : nm_reachable Fin (2 * n) s4).
  { exists junk, [SetSimplexFromStartingGuess x0 (1 / 10); SetLowerBounds (low_bounds p n); SetUpperBounds (high_bounds p n); SetObjectiveFunction (search_value ldlt freqs targets fs (inner p) e)], s0.
    split; [exact J1|]. split; [exact J2|]. split; [exact E0|]. cbn [nm_history nm_exec]. rewrite E1. cbn [obind]. rewrite E2. cbn [obind]. rewrite E3. reflexivity. }
  destruct (C42_stops Fin (2 * n) s4 (search_value ldlt freqs targets fs (inner p) e) (max_evaluations p) (rms_stddev_tol p) (Some (rms_tol p)) RE eq_refl) as (s5 & E5).
  specialize (E5 _ (Nat.le_refl _)). exists s5, s4. split.
  - constructor; [exact RE|exact Lo3|exact Hi3|reflexivity|]. cbn [s4 set_objective points]. rewrite P3. exact P1.
  - split; [exact E5|]. unfold fit_equalizer. fold n. cbv zeta. rewrite E0. cbn [obind]. rewrite HP. cbn [obind]. rewrite L0, Nat.eqb_refl. cbn [ocheck]. rewrite E1. cbn [obind].
    rewrite (Rltb_true 0 (min_frequency p)), (Rltb_true 0 (max_frequency p)), (Rltb_true (min_frequency p) (max_frequency p)) by lra. cbn [ocheck].
    unfold low_bounds in E2. rewrite E2. cbn [obind]. unfold high_bounds in E3. rewrite E3. cbn [obind]. fold s4. rewrite E5. cbn [obind]. reflexivity.
Qed.
(* a fit that returns got that far *)
Lemma fit_needs junk p e r : fit_equalizer ldlt freqs targets fs junk p e = Ok r ->
  (0 < num_stages e)%nat /\ 0 < min_frequency p /\ min_frequency p < max_frequency p /\ min_quality p <= max_quality p /\ exists x0, get_parameters e = Ok x0.
Proof.
  unfold fit_equalizer. cbv zeta. set (n := num_stages e). unfold nm_new. unfold ocheck at 1. destruct (Nat.ltb_spec 0 (2 * n)) as [Hn|]; [|discriminate]. cbn [obind].
  destruct (get_parameters e) as [x0| |] eqn:EP; try discriminate. cbn [obind]. unfold ocheck at 1. destruct (length x0 =? 2 * n)%nat; [|discriminate].
  destruct (set_guess _ x0 (1 / 10)) as [s1| |] eqn:E1; try discriminate. cbn [obind]. 
  unfold ocheck at 1. destruct (Rltb_spec 0 (min_frequency p)) as [Hm|]; [|discriminate]. unfold ocheck at 1. destruct (Rltb 0 (max_frequency p)); [|discriminate].
  unfold ocheck at 1. destruct (Rltb_spec (min_frequency p) (max_frequency p)) as [HM|]; [|discriminate].
  destruct (set_lower s1 _) as [s2| |] eqn:E2; try discriminate. cbn [obind]. destruct (set_upper s2 _) as [s3| |] eqn:E3; try discriminate. intros _.
  assert (Hn' : (0 < n)%nat) by lia. split; [exact Hn'|]. split; [exact Hm|]. split; [exact HM|]. split; [|exists x0; reflexivity].
  unfold set_lower in E2. apply ocheck_ok in E2 as [_ E2]. apply ocheck_ok in E2 as [_ E2]. injection E2 as <-.
  unfold set_upper in E3. apply ocheck_ok in E3 as [_ E3]. apply ocheck_ok in E3 as [E3 _]. cbn [with_bounds lower] in E3.
  assert (HA : allb (vmap2 ordered (repeat (Some (ln (max_frequency p))) n ++ repeat (Some (max_quality p)) n) (repeat (Some (ln (min_frequency p))) n ++ repeat (Some (min_quality p)) n)) = true).
  { destruct (repeat (Some (ln (min_frequency p))) n ++ repeat (Some (min_quality p)) n) eqn:EL; [|exact E3]. apply (f_equal (@length _)) in EL. rewrite (bounds_length p) in EL. cbn in EL. lia. }
  apply allb_halves in HA; [|exact Hn']. tauto.
Qed.

(* every starting vertex, moved into the bounds, is evaluated *)
Lemma vertex_called junk p e x0 s4 s5 max tol goal fuel v v' : ready junk p e x0 s4 -> minimize Fin fuel max tol goal s4 = Ok (Some s5) ->
  In v (points s4) -> pushed_into (lower s4) (upper s4) v v' -> In v' (calls s5).
Proof.
  intros [RE RL RU RO RP] M Hv Hp. pose proof (reachable_wf _ _ _ RE) as W.
  destruct (search_after _ _ _ _ _ _ _ _ _ W RO M) as [_ _ _ _ _ (new & C) _ _].
  destruct (start_good (search_value ldlt freqs targets fs (inner p) e) _ s4 W) as (_ & _ & C0 & _).
  rewrite C, C0. apply in_or_app. right. apply -> in_rev. apply in_map_iff. exists v. split; [|exact Hv].
  symmetry. apply (pushed_clamp (2 * num_stages e) s4 v v'); [apply (w_pl _ _ W), Hv|apply (w_lo _ _ W)|apply (w_hi _ _ W)|exact Hp].
Qed.
Lemma each_in {A B} (f : A -> outcome B) l ys : each f l = Ok ys -> forall x, In x l -> exists y, f x = Ok y.
Proof.
  intros H. apply each_forall2 in H. induction H as [|a b l r E _ IH]; intros x []; [subst; eauto|auto].
Qed.

(* parameters within the bounds give an equaliser in the ranges *)
Lemma within_ranges p e x e1 : 0 < min_frequency p -> 0 < max_frequency p -> within (low_bounds p (num_stages e)) (high_bounds p (num_stages e)) x -> set_parameters e x = Ok e1 -> in_ranges p e1.
Proof.
  intros Hm HM [W1 W2] H s b Hin. destruct (set_parameters_ok _ _ _ H) as (L & K & N & S).
  apply (In_nth_error) in Hin as (i & Hi). assert (Li : (i < num_stages e)%nat) by (rewrite <- N; apply nth_error_Some; rewrite Hi; discriminate).
  destruct (nth_error (stages e) i) as [[s0 b0]|] eqn:E0; [|apply nth_error_None in E0; unfold num_stages in Li; lia].
  rewrite (S i s0 b0 E0) in Hi. injection Hi as <- <-. cbn [with_parameters frequency_hz quality_factor].
  destruct (nth_error_halves (Some (ln (min_frequency p))) (Some (min_quality p)) (num_stages e) i Li) as [A1 A2].
  destruct (nth_error_halves (Some (ln (max_frequency p))) (Some (max_quality p)) (num_stages e) i Li) as [B1 B2].
  pose proof (W1 _ _ A1) as C1. pose proof (W1 _ _ A2) as C2. pose proof (W2 _ _ B1) as C3. pose proof (W2 _ _ B2) as C4.
  assert (EX : forall a b, a <= b -> exp a <= exp b) by (intros a c [Hac| ->]; [left; apply exp_increasing; exact Hac|right; reflexivity]).
  apply EX in C1, C3. rewrite exp_ln in C1, C3 by assumption. split; split; assumption.
Qed.
(* moving the parameters of e into the ranges *)
Lemma shape_moved p e e0 : 0 < min_frequency p -> 0 < max_frequency p -> (forall s b, In (s, b) (stages e) -> 0 < frequency_hz s) -> moved_into_ranges p e e0 ->
  forall x0 x e1, get_parameters e = Ok x0 -> pushed_into (low_bounds p (num_stages e)) (high_bounds p (num_stages e)) x0 x -> set_parameters e x = Ok e1 -> shape_of e1 = shape_of e0.
Proof.
  intros Hm HM HF [K HR] x0 x e1 HP [PL PV] HS. destruct (get_parameters_ok _ _ HP) as [_ EX].
  destruct (set_parameters_ok _ _ _ HS) as (L & K1 & N1 & S1).
  assert (L0 : length x0 = (2 * num_stages e)%nat) by (rewrite EX, app_length, !map_length; unfold num_stages; lia).
  assert (LEN : length (stages e1) = length (stages e0)).
  { pose proof (kinds_num _ _ K) as X. unfold num_stages in *. congruence. }
  unfold shape_of. apply nth_error_ext_map; [exact LEN|]. intros i s b s' b' H1 H2.
  assert (Li : (i < num_stages e)%nat) by (rewrite <- N1; apply nth_error_Some; rewrite H1; discriminate).
  destruct (nth_error (stages e) i) as [[se be]|] eqn:E0; [|apply nth_error_None in E0; unfold num_stages in Li; lia].
  rewrite (S1 i se be E0) in H1. injection H1 as <- <-. destruct (HR i se be s' b' E0 H2) as [F Q].
  assert (KK : (type s', b') = (type se, be)).
  { assert (X : nth_error (kinds_of e0) i = nth_error (kinds_of e) i) by (rewrite K; reflexivity). unfold kinds_of in X. rewrite !nth_error_map, E0, H2 in X. cbn in X. congruence. }
  injection KK as KT ->. cbn [fst snd with_parameters type frequency_hz quality_factor]. rewrite KT, F, Q.
  assert (Li' : (i < length x0)%nat) by lia. assert (Li'' : (num_stages e + i < length x0)%nat) by lia.
  rewrite (PV i Li'), (PV _ Li''). unfold low_bounds, high_bounds.
  rewrite (proj1 (nth_halves (Some (ln (min_frequency p))) (Some (min_quality p)) None (num_stages e) i Li)), (proj2 (nth_halves (Some (ln (min_frequency p))) (Some (min_quality p)) None (num_stages e) i Li)).
  rewrite (proj1 (nth_halves (Some (ln (max_frequency p))) (Some (max_quality p)) None (num_stages e) i Li)), (proj2 (nth_halves (Some (ln (max_frequency p))) (Some (max_quality p)) None (num_stages e) i Li)).
  cbv zeta.
  assert (X1 : nth i x0 0 = ln (frequency_hz se)).
  { rewrite EX, app_nth1 by (rewrite map_length; exact Li). rewrite (nth_error_nth (map (fun p => ln (frequency_hz (fst p))) (stages e)) i (x := ln (frequency_hz se))); [reflexivity|]. rewrite nth_error_map, E0. reflexivity. }
  assert (X2 : nth (num_stages e + i) x0 0 = quality_factor se).
  { rewrite EX, app_nth2 by (rewrite map_length; unfold num_stages; lia). rewrite map_length. replace (num_stages e + i - length (stages e))%nat with i by (unfold num_stages; lia).
    rewrite (nth_error_nth (map (fun p => quality_factor (fst p)) (stages e)) i (x := quality_factor se)); [reflexivity|]. rewrite nth_error_map, E0. reflexivity. }
  rewrite X1, X2. assert (Pf : 0 < frequency_hz se) by (eapply HF, nth_error_In, E0).
  assert (MAX : forall a c, 0 < a -> 0 < c -> Rmax (ln a) (ln c) = ln (Rmax a c)).
  { intros a c Ha Hc. unfold Rmax. destruct (Rle_dec a c) as [A|A], (Rle_dec (ln a) (ln c)) as [B|B]; try reflexivity.
    - exfalso. apply B. destruct A as [A| ->]; [left; apply ln_increasing; assumption|right; reflexivity].
    - exfalso. apply A. destruct B as [B|B]; [left; apply ln_lt_inv; assumption|right; apply ln_inv; assumption]. }
  assert (MIN : forall a c, 0 < a -> 0 < c -> Rmin (ln a) (ln c) = ln (Rmin a c)).
  { intros a c Ha Hc. unfold Rmin. destruct (Rle_dec a c) as [A|A], (Rle_dec (ln a) (ln c)) as [B|B]; try reflexivity.
    - exfalso. apply B. destruct A as [A| ->]; [left; apply ln_increasing; assumption|right; reflexivity].
    - exfalso. apply A. destruct B as [B|B]; [left; apply ln_lt_inv; assumption|right; apply ln_inv; assumption]. }
  assert (P1 : 0 < Rmax (frequency_hz se) (min_frequency p)) by (apply Rlt_le_trans with (min_frequency p); [assumption|apply Rmax_r]).
  rewrite MAX by assumption. rewrite MIN by assumption. rewrite exp_ln; [reflexivity|]. apply Rmin_glb_lt; assumption.
Qed.
End Search.
