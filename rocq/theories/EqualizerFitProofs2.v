(* The fit of the gains: one pass, the loop, independence of the previous gains. *)
From Verif Require Import Common RealUtil CInt BiquadModel DesignSpec DesignProofs CascadeModel CascadeSpec EqualizerModel EqualizerProps2
  PeakModel DecibelsModel NelderMeadModel NelderMeadProofs NelderMeadProofs3 EqualizerFitModel EqualizerFitSpec EqualizerFitProofs.
From Coquelicot Require Import Complex.
Local Open Scope R_scope.

Lemma each_forall2 {A B} (f : A -> outcome B) l : forall ys, each f l = Ok ys -> Forall2 (fun x y => f x = Ok y) l ys.
Proof.
  induction l as [|x l IH]; intros ys H; cbn [each] in H; [injection H as <-; constructor|].
  destruct (f x) as [y| |] eqn:E; try discriminate H. cbn [obind] in H. destruct (each f l) as [r| |]; try discriminate H. injection H as <-. constructor; auto.
Qed.
Lemma each_intro {A B} (f : A -> outcome B) l ys : Forall2 (fun x y => f x = Ok y) l ys -> each f l = Ok ys.
Proof. induction 1 as [|x y l ys E _ IH]; cbn [each]; [reflexivity|]. rewrite E, IH. reflexivity. Qed.
Lemma forall2_length {A B} (P : A -> B -> Prop) l r : Forall2 P l r -> length l = length r.
Proof. induction 1; cbn [length]; congruence. Qed.
Lemma forall2_nth {A B} (P : A -> B -> Prop) l r : Forall2 P l r -> forall i x d, nth_error l i = Some x -> P x (nth i r d).
Proof. induction 1 as [|a b l r H _ IH]; intros [|i] x d E; cbn in *; try discriminate; [injection E as <-; exact H|apply IH; exact E]. Qed.

(* ---------- the response of a stage ---------- *)
Lemma eval_value c w h : eval_transfer c (unit_polar w) = Ok h -> has_value c (cos w, sin w) h.
Proof.
  unfold eval_transfer, unit_polar, oguard. intros H.
  destruct (negb _) eqn:E in H; [|discriminate H]. injection H as <-.
  assert (ED : ((RtoC (a0 c) * (cos w, sin w) + RtoC (a1 c)) * (cos w, sin w) + RtoC (a2 c))%C = denominator c (cos w, sin w)) by (unfold denominator; ring).
  assert (EN : ((RtoC (b0 c) * (cos w, sin w) + RtoC (b1 c)) * (cos w, sin w) + RtoC (b2 c))%C = numerator c (cos w, sin w)) by (unfold numerator; ring).
  rewrite ED in E. split.
  - intros Z. rewrite Z in E. cbn [RtoC fst snd] in E. rewrite (proj2 (Reqb_true_iff 0 0) eq_refl) in E. discriminate E.
  - rewrite ED, EN. reflexivity.
Qed.
Lemma value_eval c w h : has_value c (cos w, sin w) h -> eval_transfer c (unit_polar w) = Ok h.
Proof.
  intros [HD HE]. unfold eval_transfer, unit_polar.
  replace ((RtoC (a0 c) * (cos w, sin w) + RtoC (a1 c)) * (cos w, sin w) + RtoC (a2 c))%C with (denominator c (cos w, sin w)) by (unfold denominator; ring).
  replace ((RtoC (b0 c) * (cos w, sin w) + RtoC (b1 c)) * (cos w, sin w) + RtoC (b2 c))%C with (numerator c (cos w, sin w)) by (unfold numerator; ring).
  unfold oguard. destruct (Reqb_spec (fst (denominator c (cos w, sin w))) 0) as [E1|E1]; [|cbn; rewrite HE; reflexivity].
  destruct (Reqb_spec (snd (denominator c (cos w, sin w))) 0) as [E2|E2]; [|cbn; rewrite HE; reflexivity].
  exfalso. apply HD. destruct (denominator c (cos w, sin w)) as [x y]. cbn in E1, E2. subst. reflexivity.
Qed.
Lemma stage_db_ok fs f c a : stage_db fs f c = Ok a -> decibels_at fs f c a.
Proof.
  unfold stage_db, gain_magnitude. intros H. destruct (eval_transfer c (unit_polar (2 * PI * f / fs))) as [h| |] eqn:E; try discriminate H.
  cbn [obind] in H. unfold amplitude_to_db, on_positive, oguard in H. destruct (Rltb_spec 0 (Cmod h)) as [P|]; [|discriminate H]. injection H as <-.
  exists h. split; [exact (eval_value _ _ _ E)|]. split; [intros ->; rewrite Cmod_0 in P; lra|]. reflexivity.
Qed.
Lemma stage_db_intro fs f c h : has_value c (on_circle f fs) h -> h <> RtoC 0 -> stage_db fs f c = Ok (20 * log10 (Cmod h)).
Proof.
  intros H N. unfold stage_db, gain_magnitude. rewrite (value_eval c (2 * PI * f / fs) h H). cbn [obind]. unfold amplitude_to_db, on_positive, oguard.
  rewrite Rltb_true by (apply Cmod_gt_0; exact N). reflexivity.
Qed.

(* ---------- shapes ---------- *)
Lemma shape_num e1 e2 : shape_of e1 = shape_of e2 -> num_stages e1 = num_stages e2.
Proof. intros H. apply (f_equal (@length _)) in H. unfold shape_of in H. rewrite !map_length in H. exact H. Qed.
Lemma shape_enabled e1 e2 : shape_of e1 = shape_of e2 -> num_enabled e1 = num_enabled e2.
Proof.
  unfold shape_of, num_enabled. generalize (stages e1) as l1, (stages e2) as l2. induction l1 as [|[s1 b1] l1 IH]; intros [|[s2 b2] l2] H; try discriminate H; [reflexivity|].
  cbn [map fst snd] in H. injection H as _ _ _ Hb H. cbn [filter snd]. rewrite Hb. destruct b2; cbn [length]; rewrite (IH _ H); reflexivity.
Qed.
Lemma shape_kinds e1 e2 : shape_of e1 = shape_of e2 -> kinds_of e1 = kinds_of e2.
Proof.
  intros H. assert (E : forall e, kinds_of e = map (fun q : stage_type * R * R * bool => (fst (fst (fst q)), snd q)) (shape_of e)).
  { intros e. unfold kinds_of, shape_of. rewrite map_map. reflexivity. }
  rewrite !E, H. reflexivity.
Qed.
Lemma kinds_num e1 e2 : kinds_of e1 = kinds_of e2 -> num_stages e1 = num_stages e2.
Proof. intros H. apply (f_equal (@length _)) in H. unfold kinds_of in H. rewrite !map_length in H. exact H. Qed.
Lemma set_gains_shape e1 e2 g : shape_of e1 = shape_of e2 -> set_gains e1 g = set_gains e2 g.
Proof.
  intros H. unfold set_gains. rewrite (shape_num _ _ H). f_equal. do 2 f_equal. revert H. unfold shape_of. generalize (stages e1) as l1, (stages e2) as l2. clear.
  revert g. induction g as [|x g IH]; intros l1 l2 H; [destruct l1, l2; reflexivity|].
  destruct l1 as [|[s1 b1] l1], l2 as [|[s2 b2] l2]; try discriminate H; [reflexivity|]. cbn [map fst snd] in H. injection H as E1 E2 E3 E4 H.
  cbn [combine map fst snd]. rewrite (IH _ _ H). unfold with_gain. rewrite E1, E2, E3, E4. reflexivity.
Qed.
Lemma set_gains_spec e g e' : set_gains e g = Ok e' -> gains_of e' = g /\ shape_of e' = shape_of e /\ length g = S (num_stages e).
Proof. exact (set_gains_ok e g e'). Qed.
Lemma equalizer_eq e1 e2 : shape_of e1 = shape_of e2 -> gains_of e1 = gains_of e2 -> e1 = e2.
Proof.
  destruct e1 as [g1 l1], e2 as [g2 l2]. unfold shape_of, gains_of. cbn [stages gain_db]. intros HS HG.
  assert (HL : length l1 = length l2) by (apply (f_equal (@length _)) in HS; rewrite !map_length in HS; exact HS).
  apply app_inj_tail in HG as [HG ->]. f_equal. clear HL. revert l2 HS HG. induction l1 as [|[s1 b1] l1 IH]; intros [|[s2 b2] l2] HS HG; try discriminate HS; [reflexivity|].
  cbn [map fst snd] in *. injection HS as E1 E2 E3 E4 HS. injection HG as E5 HG. rewrite (IH _ HS HG). destruct s1, s2. cbn in *. subst. reflexivity.
Qed.
Lemma set_gains_enabled e e1 : set_gains e (repeat 6 (1 + num_enabled e)) = Ok e1 -> num_enabled e = num_stages e.
Proof. intros H. apply set_gains_spec in H as (_ & _ & L). rewrite repeat_length in L. lia. Qed.

(* ---------- convergence ---------- *)
Lemma fold_max_lt l t : fold_right Rmax 0 l < t <-> 0 < t /\ forall x, In x l -> x < t.
Proof.
  induction l as [|x l IH]; cbn [fold_right]; [split; [intros H; split; [exact H|intros y []]|tauto]|]. split.
  - intros H. pose proof (Rmax_l x (fold_right Rmax 0 l)). pose proof (Rmax_r x (fold_right Rmax 0 l)).
    destruct (proj1 IH ltac:(lra)) as [Ht Hl]. split; [exact Ht|]. intros y [<-|Hy]; [lra|auto].
  - intros [Ht H]. apply Rmax_lub_lt; [apply H; left; reflexivity|]. apply IH. split; [exact Ht|]. intros y Hy. apply H. right. exact Hy.
Qed.
Lemma change_converged t g g' : length g = length g' -> (largest_change g' g < t <-> converged t g g').
Proof.
  intros L. unfold largest_change, converged. rewrite fold_max_lt. split; intros [Ht H]; split; auto.
  - intros k. destruct (Nat.ltb_spec k (length g)) as [Hk|Hk].
    + apply H. apply in_map_iff. exists (nth k g' 0 - nth k g 0). split; [reflexivity|].
      rewrite <- (vmap2_nth Rminus g' g k 0 0 0) by lia. apply nth_In. unfold vminus. rewrite vmap2_length; lia.
    + rewrite !nth_overflow by lia. rewrite Rminus_0_r, Rabs_R0. exact Ht.
  - intros x Hx. apply in_map_iff in Hx as (y & <- & Hy). apply (In_nth _ _ 0) in Hy as (k & Hk & <-).
    unfold vminus in *. rewrite vmap2_length in Hk by lia. rewrite (vmap2_nth Rminus g' g k 0 0 0) by lia. apply H.
Qed.

Section Gains.
Variable ldlt : list (list R) -> list R -> list R.
Variables (freqs targets : list R) (fs : R).
Hypothesis ldlt_ok : solves_spd ldlt.
Hypothesis same_size : length freqs = length targets.

Lemma gains_loop_run eref threshold : forall it gains e e', shape_of e = shape_of eref -> gains_of e = gains ->
  gains_loop ldlt freqs targets fs it threshold gains e = Ok e' ->
  shape_of e' = shape_of eref /\ fit_run fs freqs targets eref threshold it gains (gains_of e').
Proof.
  induction it as [|it IH]; intros gains e e' HS HG H; cbn [gains_loop] in H.
  - injection H as <-. split; [exact HS|]. rewrite HG. constructor.
  - set (n := (length gains - 1)%nat) in *.
    assert (Ln : length gains = S (num_stages eref)).
    { rewrite <- HG. unfold gains_of. rewrite app_length, map_length. cbn [length]. rewrite <- (shape_num _ _ HS). unfold num_stages. lia. }
    assert (En : n = num_stages eref) by lia.
    destruct (get_coefficients (set_gain_db e 0) fs) as [cs| |] eqn:EC; try discriminate H. cbn [obind] in H. unfold oguard in H.
    destruct ((length freqs =? 0)%nat || (n <=? length cs)%nat)%bool eqn:EB; [|discriminate H].
    destruct (each (matrix_row fs (firstn n cs) (last gains 0)) freqs) as [rows| |] eqn:ER; try discriminate H. cbn [obind] in H.
    apply each_forall2 in ER. pose proof (forall2_length _ _ _ ER) as LR.
    set (x := ldlt (gramian (S n) rows) (projected (S n) rows targets)) in *.
    destruct (ldlt_ok (S n) (gramian (S n) rows) (projected (S n) rows targets) (gramian_spd _ _) (projected_length _ _ _)) as [Lx Hx]. fold x in Lx, Hx.
    destruct (set_gains (set_gain_db e 0) (vmap2 Rmult x gains)) as [e2| |] eqn:E2; try discriminate H. cbn [obind] in H.
    apply set_gains_spec in E2 as (G2 & S2 & L2).
    assert (S2' : shape_of e2 = shape_of eref) by (rewrite S2; exact HS).
    assert (PASS : fit_pass fs freqs targets eref gains (vmap2 Rmult x gains)).
    { exists (set_gain_db e 0), cs, (fun m k => if (k =? n)%nat then last gains 0 else nth k (nth m rows []) 0), (fun k => nth k x 0). cbv zeta. rewrite <- En.
      split; [exact HS|]. split; [rewrite <- HG; unfold gains_of, set_gain_db; cbn [stages gain_db]; rewrite removelast_last; reflexivity|].
      split; [exact EC|]. split.
      { apply orb_true_iff in EB as [EB|EB]; [left; apply length_zero_iff_nil, Nat.eqb_eq; exact EB|right; apply Nat.leb_le; exact EB]. }
      assert (Ncs : freqs = [] \/ (n <= length cs)%nat) by (apply orb_true_iff in EB as [EB|EB]; [left; apply length_zero_iff_nil, Nat.eqb_eq; exact EB|right; apply Nat.leb_le; exact EB]).
      assert (ROW : forall m f, nth_error freqs m = Some f -> matrix_row fs (firstn n cs) (last gains 0) f = Ok (nth m rows [])) by (intros m f Hf; exact (forall2_nth _ _ _ ER m f [] Hf)).
      assert (ROW' : forall m, (m < length freqs)%nat -> length (nth m rows []) = S n /\ nth n (nth m rows []) 0 = last gains 0).
      { intros m Hm. destruct (nth_error freqs m) as [f|] eqn:Ef; [|apply nth_error_None in Ef; lia]. specialize (ROW m f Ef). unfold matrix_row in ROW.
        destruct (each (stage_db fs f) (firstn n cs)) as [row| |] eqn:E; try discriminate ROW. injection ROW as <-. apply each_forall2, forall2_length in E.
        assert (length row = n) by (rewrite <- E, firstn_length; destruct Ncs as [->|]; [cbn in Hm; lia|lia]).
        rewrite app_length, app_nth2 by lia. cbn [length]. replace (n - length row)%nat with 0%nat by lia. split; [lia|reflexivity]. }
      split.
      { intros m k f c Hf Hk Hc. rewrite (proj2 (Nat.eqb_neq k n)) by lia. specialize (ROW m f Hf). unfold matrix_row in ROW.
        destruct (each (stage_db fs f) (firstn n cs)) as [row| |] eqn:E; try discriminate ROW. injection ROW as <-. apply each_forall2 in E.
        assert (Hc' : nth_error (firstn n cs) k = Some c).
        { rewrite <- Hc. rewrite <- (firstn_skipn n cs) at 2. symmetry. apply nth_error_app1. rewrite firstn_length. assert (nth_error cs k <> None) by (rewrite Hc; discriminate). apply nth_error_Some in H0. lia. }
        pose proof (forall2_length _ _ _ E) as LE. assert (Hk' : (k < length row)%nat) by (rewrite <- LE; apply nth_error_Some; rewrite Hc'; discriminate).
        rewrite app_nth1 by exact Hk'. apply stage_db_ok. exact (forall2_nth _ _ _ E k c 0 Hc'). }
      split; [intros m; rewrite Nat.eqb_refl; reflexivity|]. split.
      { pose proof (normal_equations (S n) rows (fun i => nth i targets 0) (fun k => nth k x 0)) as NE.
        assert (HN : forall i, (i < S n)%nat -> sumn (S n) (fun j => entry (gramian (S n) rows) i j * nth j x 0) = sumn (length rows) (fun m => nth i (nth m rows []) 0 * nth m targets 0)).
        { intros i Hi. rewrite Hx by exact Hi. apply projected_nth; [lia|exact Hi]. }
        specialize (NE HN). rewrite LR.
        assert (CE : forall y, cost (length rows) (S n) (fun m k => if (k =? n)%nat then last gains 0 else nth k (nth m rows []) 0) (fun i => nth i targets 0) y
                             = cost (length rows) (S n) (fun m k => nth k (nth m rows []) 0) (fun i => nth i targets 0) y).
        { intros y. unfold cost. f_equal. apply sumn_ext. intros m Hm. do 2 f_equal. apply sumn_ext. intros k _. destruct (Nat.eqb_spec k n) as [->|]; [|reflexivity].
          rewrite (proj2 (ROW' m ltac:(lia))). reflexivity. }
        intros y. rewrite !CE. apply NE. }
      split; [rewrite vmap2_length by lia; lia|]. intros k Hk. apply (vmap2_nth Rmult x gains k 0 0 0); lia. }
    assert (LC : length gains = length (vmap2 Rmult x gains)) by (rewrite vmap2_length; lia).
    destruct (Rltb_spec (largest_change (vmap2 Rmult x gains) gains) threshold) as [HC|HC].
    + injection H as <-. split; [exact S2'|]. rewrite G2. apply fit_stop; [exact PASS|]. apply change_converged; assumption.
    + destruct (IH _ e2 e' S2' G2 H) as [SS RR]. split; [exact SS|]. apply (fit_more _ _ _ _ _ _ _ (vmap2 Rmult x gains)); [exact PASS| |exact RR].
      intros CV. apply HC. apply change_converged; assumption.
Qed.
Lemma match_gains_run p e e' : match_gains ldlt freqs targets fs p e = Ok e' ->
  shape_of e' = shape_of e /\ num_enabled e = num_stages e /\
  fit_run fs freqs targets e (threshold_db p) (Z.to_nat (inner_iterations p)) (repeat 6 (S (num_stages e))) (gains_of e').
Proof.
  unfold match_gains. intros H. rewrite (proj2 (Nat.eqb_eq _ _) same_size) in H. cbn [ocheck] in H. cbv zeta in H.
  destruct (set_gains e (repeat 6 (1 + num_enabled e))) as [e1| |] eqn:E1; try discriminate H. cbn [obind] in H.
  pose proof (set_gains_enabled _ _ E1) as EN. destruct (set_gains_spec _ _ _ E1) as (G1 & S1 & _).
  destruct (gains_loop_run e _ _ _ _ _ S1 G1 H) as [SS RR]. split; [exact SS|]. split; [exact EN|]. rewrite EN in RR. exact RR.
Qed.
End Gains.

Section Shapes.
Variable ldlt : list (list R) -> list R -> list R.
Variables (freqs targets : list R) (fs : R).
Lemma match_gains_shape p e1 e2 : shape_of e1 = shape_of e2 -> match_gains ldlt freqs targets fs p e1 = match_gains ldlt freqs targets fs p e2.
Proof. intros H. unfold match_gains. rewrite (shape_enabled _ _ H), (set_gains_shape _ _ _ H). reflexivity. Qed.
Lemma gains_loop_shape threshold : forall it gains e e', gains_loop ldlt freqs targets fs it threshold gains e = Ok e' -> shape_of e' = shape_of e.
Proof.
  induction it as [|it IH]; intros gains e e' H; cbn [gains_loop] in H; [injection H as <-; reflexivity|].
  destruct (get_coefficients (set_gain_db e 0) fs) as [cs| |]; try discriminate H. cbn [obind] in H. unfold oguard in H. destruct (_ || _)%bool in H; [|discriminate H].
  destruct (each _ freqs) as [rows| |] in H; try discriminate H. cbn [obind] in H.
  destruct (set_gains (set_gain_db e 0) _) as [e2| |] eqn:E2 in H; try discriminate H. cbn [obind] in H. apply set_gains_spec in E2 as (_ & S2 & _).
  change (shape_of (set_gain_db e 0)) with (shape_of e) in S2. destruct (Rltb _ _) in H; [injection H as <-; exact S2|]. rewrite (IH _ _ _ H). exact S2.
Qed.
Lemma match_gains_keeps p e e' : match_gains ldlt freqs targets fs p e = Ok e' -> shape_of e' = shape_of e /\ length freqs = length targets /\ num_enabled e = num_stages e.
Proof.
  unfold match_gains, ocheck at 1. destruct (Nat.eqb_spec (length freqs) (length targets)) as [L|]; [|discriminate]. cbv zeta. intros H.
  destruct (set_gains e _) as [e1| |] eqn:E1 in H; try discriminate H. cbn [obind] in H. pose proof (set_gains_enabled _ _ E1) as EN. apply set_gains_spec in E1 as (_ & S1 & _).
  split; [rewrite (gains_loop_shape _ _ _ _ _ H); exact S1|auto].
Qed.
Lemma match_gains_again p e e' : match_gains ldlt freqs targets fs p e = Ok e' -> match_gains ldlt freqs targets fs p e' = Ok e'.
Proof. intros H. rewrite (match_gains_shape p e' e); [exact H|]. exact (proj1 (match_gains_keeps _ _ _ H)). Qed.

Lemma set_each_shape l1 : forall l2 fl ql, map (fun p : stage * bool => (type (fst p), snd p)) l1 = map (fun p => (type (fst p), snd p)) l2 ->
  map (fun p : stage * bool => (type (fst p), frequency_hz (fst p), quality_factor (fst p), snd p)) (set_each l1 fl ql)
  = map (fun p : stage * bool => (type (fst p), frequency_hz (fst p), quality_factor (fst p), snd p)) (set_each l2 fl ql).
Proof.
  induction l1 as [|[s1 b1] l1 IH]; intros [|[s2 b2] l2] fl ql H; try discriminate H; [reflexivity|]. cbn [map fst snd] in H. injection H as E1 E2 H.
  destruct fl as [|f fl], ql as [|q ql]; cbn [set_each]; try reflexivity. cbn [map fst snd with_parameters type frequency_hz quality_factor]. rewrite (IH _ _ _ H), E1, E2. reflexivity.
Qed.
Lemma set_parameters_shape e1 e2 x e1' : kinds_of e1 = kinds_of e2 -> set_parameters e1 x = Ok e1' -> exists e2', set_parameters e2 x = Ok e2' /\ shape_of e1' = shape_of e2'.
Proof.
  intros H. unfold set_parameters. rewrite <- (kinds_num _ _ H). unfold ocheck. destruct (length x =? 2 * num_stages e1)%nat; [|discriminate]. intros E. injection E as <-.
  eexists. split; [reflexivity|]. unfold shape_of. cbn [stages]. apply set_each_shape. exact H.
Qed.
(* the objective does not depend on the frequencies, quality factors and gains it finds *)
Lemma fit_objective_shape p e1 e2 x : kinds_of e1 = kinds_of e2 ->
  rms_objective ldlt freqs targets fs p e1 x = rms_objective ldlt freqs targets fs p e2 x.
Proof.
  intros H. unfold rms_objective. destruct (set_parameters e1 x) as [e1'| |] eqn:E1.
  - destruct (set_parameters_shape _ _ _ _ H E1) as (e2' & -> & S2). cbn [obind]. rewrite (match_gains_shape p _ _ S2). reflexivity.
  - unfold set_parameters, ocheck in *. rewrite <- (kinds_num _ _ H). destruct (length x =? 2 * num_stages e1)%nat; [discriminate|reflexivity].
  - unfold set_parameters, ocheck in *. destruct (length x =? 2 * num_stages e1)%nat; discriminate.
Qed.

(* ---------- the error ---------- *)
Lemma combined_value f cs : forall acc g, combined_gain fs cs f acc = Ok g -> exists h, cascade_value cs (on_circle f fs) h /\ g = acc * Cmod h.
Proof.
  induction cs as [|c cs IH]; intros acc g H; cbn [combined_gain] in H.
  - injection H as <-. exists (RtoC 1). split; [reflexivity|]. rewrite Cmod_1. ring.
  - unfold gain_magnitude in H. destruct (eval_transfer c (unit_polar (2 * PI * f / fs))) as [h1| |] eqn:E; try discriminate H. cbn [obind] in H.
    destruct (IH _ _ H) as (h2 & V2 & ->). exists (Cmult h1 h2). split.
    + cbn [cascade_value]. exists h1, h2. split; [exact (eval_value _ _ _ E)|]. split; [exact V2|reflexivity].
    + rewrite Cmod_mult. ring.
Qed.
Lemma value_combined f cs : forall acc h, cascade_value cs (on_circle f fs) h -> combined_gain fs cs f acc = Ok (acc * Cmod h).
Proof.
  induction cs as [|c cs IH]; intros acc h H; cbn [cascade_value combined_gain] in *.
  - rewrite H, Cmod_1, Rmult_1_r. reflexivity.
  - destruct H as (h1 & h2 & V1 & V2 & ->). unfold gain_magnitude. rewrite (value_eval c (2 * PI * f / fs) h1 V1). cbn [obind]. rewrite (IH _ _ V2), Cmod_mult. f_equal. ring.
Qed.
Lemma map_outcome_each f l : map_outcome f l = each f l.
Proof. induction l as [|x l IH]; cbn [map_outcome each]; [reflexivity|]. rewrite IH. reflexivity. Qed.
Lemma choice_list {A B} (P : A -> B -> Prop) (l : list A) : (forall x, In x l -> exists y, P x y) -> exists r, Forall2 P l r.
Proof.
  induction l as [|x l IH]; intros H; [exists []; constructor|]. destruct (H x (or_introl eq_refl)) as [y Hy].
  destruct IH as [r Hr]; [intros z Hz; apply H; right; exact Hz|]. exists (y :: r). constructor; assumption.
Qed.
Lemma forall2_and_nth {A B} (P : A -> B -> Prop) l r : Forall2 P l r -> forall i, (i < length l)%nat -> forall da db, P (nth i l da) (nth i r db).
Proof. induction 1 as [|a b l r H _ IH]; intros [|i] Hi da db; cbn in *; try lia; [exact H|apply IH; lia]. Qed.
Lemma rms_error_ok e r : length freqs = length targets -> rms_error freqs targets fs e = Ok r -> rms_of fs freqs targets e r.
Proof.
  intros L H. unfold rms_error, gain_magnitudes in H. destruct (get_coefficients e fs) as [cs| |] eqn:EC; try discriminate H. cbn [obind] in H.
  destruct (each (fun f => combined_gain fs cs f 1) freqs) as [g| |] eqn:EG; try discriminate H. cbn [obind] in H. unfold amplitude_to_db_array in H. rewrite map_outcome_each in H.
  destruct (each _ g) as [db| |] eqn:ED in H; try discriminate H. cbn [obind] in H. unfold oguard in H. destruct (Nat.eqb_spec (length targets) 0) as [|N]; [discriminate H|]. cbn [negb] in H. injection H as <-.
  apply each_forall2 in EG, ED. pose proof (forall2_length _ _ _ EG) as LG. pose proof (forall2_length _ _ _ ED) as LD.
  assert (HH : exists hs, Forall2 (fun f h => cascade_value cs (on_circle f fs) h) freqs hs /\ Forall2 (fun x h => x = Cmod h) g hs).
  { clear - EG. induction EG as [|f x l g E _ IH]; [exists []; split; constructor|]. destruct IH as (hs & A & B). destruct (combined_value _ _ _ _ E) as (h & V & ->).
    exists (h :: hs). split; constructor; auto. ring. }
  destruct HH as (hs & V & M). pose proof (forall2_length _ _ _ V) as LV.
  assert (POS : forall m, (m < length freqs)%nat -> 0 < nth m g 0 /\ nth m db 0 = 20 / ln 10 * ln (nth m g 0)).
  { intros m Hm. pose proof (forall2_and_nth _ _ _ ED m ltac:(lia) 0 0) as E. cbn beta in E. unfold on_positive, oguard in E. destruct (Rltb_spec 0 (nth m g 0)) as [P|]; [|discriminate E].
    injection E as E. split; [exact P|]. symmetry. exact E. }
  assert (MM : forall m, (m < length freqs)%nat -> nth m g 0 = Cmod (nth m hs (RtoC 0))) by (intros m Hm; exact (forall2_and_nth _ _ _ M m ltac:(lia) 0 (RtoC 0))).
  exists cs, hs. split; [exact EC|]. split; [lia|]. split.
  - intros m f Hf. split; [exact (forall2_nth _ _ _ V m f (RtoC 0) Hf)|]. assert (Hm : (m < length freqs)%nat) by (apply nth_error_Some; rewrite Hf; discriminate).
    intros Z. destruct (POS m Hm) as [P _]. rewrite (MM m Hm), Z, Cmod_0 in P. lra.
  - split; [apply sqrt_pos|]. 
    assert (TS : total (map Rsqr (vminus db targets)) = sumn (length freqs) (fun m => Rsqr (20 * (ln (Cmod (nth m hs (RtoC 0))) / ln 10) - nth m targets 0))).
    { rewrite (total_sumn Rsqr 0). unfold vminus. rewrite vmap2_length by lia. rewrite <- LD, <- LG. apply sumn_ext. intros m Hm.
      rewrite (vmap2_nth Rminus db targets m 0 0 0) by lia. destruct (POS m Hm) as [_ ->]. rewrite (MM m Hm). f_equal. unfold Rdiv. ring. }
    assert (NZ : 0 < INR (length targets)) by (apply lt_0_INR; lia).
    assert (TP : 0 <= total (map Rsqr (vminus db targets))) by (rewrite TS; apply sumn_nonneg; intros; apply Rle_0_sqr).
    rewrite sqrt_sqrt by (apply Rmult_le_pos; [exact TP|left; apply Rinv_0_lt_compat; exact NZ]). rewrite TS, L. field. lra.
Qed.
(* and it is the only number with that property *)
Lemma rms_of_unique e r r' : (0 < length freqs)%nat -> rms_of fs freqs targets e r -> rms_of fs freqs targets e r' -> r = r'.
Proof.
  intros N (cs & hs & EC & LH & V & P & E) (cs' & hs' & EC' & LH' & V' & P' & E').
  assert (cs' = cs) by congruence. subst cs'.
  assert (HU : forall (cs : list (coeffs R)) z h h', cascade_value cs z h -> cascade_value cs z h' -> h = h').
  { clear. induction cs as [|c cs IH]; intros z h h'; cbn [cascade_value]; [congruence|]. intros (x & y & [_ X] & Y & ->) (x' & y' & [_ X'] & Y' & ->).
    rewrite (IH _ _ _ Y Y'). congruence. }
  assert (S : INR (length freqs) * (r * r) = INR (length freqs) * (r' * r')).
  { rewrite E, E'. apply sumn_ext. intros m Hm. destruct (nth_error freqs m) as [f|] eqn:Ef; [|apply nth_error_None in Ef; lia].
    rewrite (HU cs _ _ _ (proj1 (V m f Ef)) (proj1 (V' m f Ef))). reflexivity. }
  assert (0 < INR (length freqs)) by (apply lt_0_INR; lia). apply Rmult_eq_reg_l in S; [|lra]. nra.
Qed.
End Shapes.
