(* Proofs about the Nelder-Mead searcher: lowest value seen, stopping, geometry of the moves. *)
From Verif Require Import Common RealUtil ListLemmas NthLemmas NelderMeadModel NelderMeadSpec NelderMeadProofs NelderMeadProofs2 NelderMeadProofs3.
Local Open Scope R_scope.

Definition low f (s : searcher) : Prop := forall p, In p (calls s) -> xle (smallest s) (f p).
Lemma replace_low f d s new p : good f d s -> low f s -> In p new -> (forall q, In q new -> admissible d s q) ->
  (forall q, In q new -> xle (smallest s) (f q) \/ xle (f p) (f q)) -> low f (replace_argmax (more s new) p (f p)).
Proof.
  intros G L Hp Ha Hq. destruct (replace_good f d s new p G Hp Ha) as (G' & E & M1 & M2).
  intros q H. rewrite E in H. apply in_app_or in H as [H|H].
  - destruct (Hq q H) as [H1|H1]; [apply (xle_trans _ _ _ M1 H1)|apply (xle_trans _ _ _ M2 H1)].
  - eapply xle_trans; [exact M1|]. apply L, H.
Qed.
Lemma shrink_low f d s new : good f d s -> low f s -> (forall q, In q new -> admissible d s q) ->
  (forall q, In q new -> xle (smallest s) (f q)) -> low f (shrink f (more s new)).
Proof.
  intros G L Ha Hq. destruct (shrink_good f d s new G Ha) as (G' & (ex & E & _ & Hex) & _ & M).
  intros q H. rewrite E in H. apply in_app_or in H as [H|H].
  - eapply smallest_le; [exact G'|]. rewrite (g_vals _ _ _ G'). apply in_map, Hex, H.
  - apply in_app_or in H as [H|H]; [apply (xle_trans _ _ _ M (Hq q H))|apply (xle_trans _ _ _ M (L q H))].
Qed.
Lemma get_max_in f d s : good f d s -> In (get_max s) (values s).
Proof. intros G. apply nth_In. rewrite (good_vlen _ _ _ G). eapply amax_lt; eauto. Qed.
Lemma xfloat_exact v : xfloat Fin v = v.
Proof. destruct v; reflexivity. Qed.

Lemma step_low f d s : good f d s -> low f s -> low f (nm_step Fin f s).
Proof.
  intros G Lw. destruct (trial_lengths _ _ _ G) as (Lr & Le & Lo & Li).
  assert (Hmax : xle (smallest s) (get_max s)) by (eapply smallest_le; [exact G|eapply get_max_in; exact G]).
  unfold nm_step. fold (p_refl s). fold (p_exp s). fold (p_out s). fold (p_in s).
  rewrite (good_min _ _ _ G). replace (evaluate f s (p_refl s)) with (evaluate f (more s []) (p_refl s)) by (rewrite more_nil; reflexivity). rewrite xfloat_exact.
  destruct (evaluate_cases f d s [] (p_refl s) G Lr) as [[Ar ->] | -> ].
  - destruct (xltb (f (p_refl s)) (smallest s)) eqn:E1.
    + destruct (evaluate_cases f d s [p_refl s] (p_exp s) G Le) as [[Ae ->] | -> ].
      * destruct (xltb (f (p_exp s)) (f (p_refl s))) eqn:E2; eapply replace_low; cbn; eauto; intros q [<-|[<-|[]]]; auto;
          right; try apply xle_refl; [apply xltb_true, E2|apply xltb_false, E2].
      * cbn [xltb]. eapply replace_low; cbn; eauto; intros q [<-|[]]; auto. right. apply xle_refl.
    + apply xltb_false in E1.
      destruct (match second_highest s with Some v => xltb (f (p_refl s)) (xfloat Fin v) | None => false end).
      * eapply replace_low; cbn; eauto; intros q [<-|[]]; auto.
      * destruct (xltb (f (p_refl s)) (get_max s)) eqn:E2.
        -- destruct (evaluate_cases f d s [p_refl s] (p_out s) G Lo) as [[Ao ->] | -> ].
           ++ destruct (xltb (f (p_refl s)) (f (p_out s))) eqn:E3; cbn [negb].
              ** eapply shrink_low; cbn; eauto; intros q [<-|[<-|[]]]; auto.
                 eapply xle_trans; [exact E1|]. apply xltb_true, E3.
              ** eapply replace_low; cbn; eauto; intros q [<-|[<-|[]]]; auto. right. apply xle_refl.
           ++ destruct (xltb_fin _ _ E2) as [x Ex]. rewrite Ex. cbn [xltb negb].
              eapply shrink_low; cbn; eauto; intros q [<-|[]]; auto.
        -- destruct (evaluate_cases f d s [p_refl s] (p_in s) G Li) as [[Ao ->] | -> ].
           ++ destruct (xltb (f (p_in s)) (get_max s)) eqn:E3.
              ** eapply replace_low; cbn; eauto; intros q [<-|[<-|[]]]; auto. right. apply xle_refl.
              ** eapply shrink_low; cbn; eauto; intros q [<-|[<-|[]]]; auto.
                 eapply xle_trans; [exact Hmax|]. apply xltb_false, E3.
           ++ cbn [xltb]. eapply shrink_low; cbn; eauto; intros q [<-|[]]; auto.
  - cbn [xltb]. replace (match second_highest s with Some _ | _ => false end) with false by (destruct (second_highest s); reflexivity).
    destruct (evaluate_cases f d s [] (p_in s) G Li) as [[Ao ->] | -> ].
    + destruct (xltb (f (p_in s)) (get_max s)) eqn:E3.
      * eapply replace_low; cbn; eauto; intros q [<-|[]]; auto. right. apply xle_refl.
      * eapply shrink_low; cbn; eauto; intros q [<-|[]]; auto.
        eapply xle_trans; [exact Hmax|]. apply xltb_false, E3.
    + cbn [xltb]. eapply shrink_low; cbn; eauto; tauto.
Qed.
Lemma loop_low f d max tol goal fuel : forall s, good f d s -> low f s ->
  forall s', nm_loop Fin fuel max tol goal f s = Some s' -> low f s'.
Proof.
  induction fuel as [|k IH]; intros s G L s' H; cbn [nm_loop] in H; destruct (keep_going max tol goal s);
    try discriminate; try (injection H as <-; exact L).
  destruct (iteration_good f d s _ G (step_iteration Fin f d s G)) as (G1 & _).
  eapply IH; [exact G1| |exact H]. eapply step_low; eauto.
Qed.

(* ---- geometry ---- *)
Lemma total_app a b : fold_right Rplus 0 (a ++ b) = fold_right Rplus 0 a + fold_right Rplus 0 b.
Proof. induction a; cbn; lra. Qed.
Lemma fold_vplus_nth d j ps : (j < d)%nat -> (forall p, In p ps -> length p = d) ->
  nth j (fold_right vplus (repeat 0 d) ps) 0 = fold_right Rplus 0 (map (fun p => nth j p 0) ps).
Proof.
  intros Hj. induction ps as [|p ps IH]; cbn; intros H; [apply nth_repeat|].
  unfold vplus at 1. rewrite (vmap2_nth Rplus _ _ j 0 0 0).
  - rewrite IH; auto.
  - rewrite H; auto.
  - rewrite fold_vplus_length; auto.
Qed.
Lemma total_others j w ps : (w < length ps)%nat ->
  fold_right Rplus 0 (map (fun p => nth j p 0) (others w ps)) =
  fold_right Rplus 0 (map (fun p => nth j p 0) ps) - nth j (nth w ps []) 0.
Proof.
  revert w. induction ps as [|p ps IH]; intros w Hw; cbn in Hw; [lia|].
  destruct w as [|w]; [unfold others; cbn; lra|].
  change (others (S w) (p :: ps)) with (p :: others w ps). cbn [map fold_right nth]. rewrite IH by lia. lra.
Qed.
Lemma others_length {A} w (ps : list A) : (w < length ps)%nat -> length (firstn w ps ++ skipn (S w) ps) = (length ps - 1)%nat.
Proof. intros. rewrite app_length, firstn_length, skipn_length. lia. Qed.
Lemma centroid_centre f d s j : good f d s -> (j < d)%nat -> nth j (centroid s) 0 = centre (argmax s) (points s) j.
Proof.
  intros G Hj. pose proof (amax_lt _ _ _ G) as Ha.
  unfold centroid, centre, mean_of. rewrite (g_dims _ _ _ G).
  rewrite (nth_indep _ 0 (0 / INR d)).
  2:{ rewrite map_length. unfold vminus. rewrite vmap2_length; rewrite fold_vplus_length by apply (g_pl _ _ _ G); auto.
      symmetry. apply (g_pl _ _ _ G), (get_argmax_in _ _ _ G). }
  rewrite (map_nth (fun x => x / INR d)). unfold vminus.
  rewrite (vmap2_nth Rminus _ _ j 0 0 0).
  2:{ rewrite fold_vplus_length by apply (g_pl _ _ _ G); auto. }
  2:{ rewrite fold_vplus_length by apply (g_pl _ _ _ G). symmetry. apply (g_pl _ _ _ G), (get_argmax_in _ _ _ G). }
  rewrite fold_vplus_nth by (auto; apply (g_pl _ _ _ G)).
  rewrite map_length. unfold others. rewrite others_length by (rewrite (g_len _ _ _ G); lia).
  fold (others (argmax s) (points s)). rewrite total_others by (rewrite (g_len _ _ _ G); lia).
  rewrite (g_len _ _ _ G). replace (d + 1 - 1)%nat with d by lia. reflexivity.
Qed.
Lemma vscale_nth c l j : nth j (vscale c l) 0 = c * nth j l 0.
Proof. unfold vscale. replace 0 with (c * 0) at 1 by lra. apply map_nth. Qed.
Lemma trial_line f d s p : good f d s -> In p [p_refl s; p_exp s; p_out s; p_in s] ->
  exists t, In t [-1; -2; -1/2; 1/2] /\ on_line t (argmax s) (points s) p.
Proof.
  intros G Hp. destruct (trial_lengths _ _ _ G) as (Lr & Le & Lo & Li).
  pose proof (centroid_length _ _ _ G) as Lc.
  assert (La : length (get_argmax s) = d) by (apply (g_pl _ _ _ G), (get_argmax_in _ _ _ G)).
  assert (R1 : forall j, (j < d)%nat -> nth j (p_refl s) 0 = 2 * nth j (centroid s) 0 - nth j (get_argmax s) 0).
  { intros j Hj. unfold p_refl, vminus. rewrite (vmap2_nth Rminus _ _ j 0 0 0) by (rewrite ?vscale_length; lia).
    rewrite !vscale_nth. lra. }
  assert (V : forall a b j, length a = d -> length b = d -> (j < d)%nat -> nth j (vplus a b) 0 = nth j a 0 + nth j b 0).
  { intros a b j Ha Hb Hj. unfold vplus. apply vmap2_nth; lia. }
  assert (W : forall a b j, length a = d -> length b = d -> (j < d)%nat -> nth j (vminus a b) 0 = nth j a 0 - nth j b 0).
  { intros a b j Ha Hb Hj. unfold vminus. apply vmap2_nth; lia. }
  fold (get_argmax s) in *.
  destruct Hp as [<-|[<-|[<-|[<-|[]]]]].
  - exists (-1). split; [left; reflexivity|]. intros j Hj. rewrite Lr in Hj. fold (get_argmax s).
    rewrite R1, (centroid_centre f d s j G Hj) by auto. lra.
  - exists (-2). split; [right; left; reflexivity|]. intros j Hj. rewrite Le in Hj. fold (get_argmax s).
    unfold p_exp. rewrite V by (rewrite ?vscale_length; auto). rewrite !vscale_nth, R1 by auto.
    rewrite (centroid_centre f d s j G Hj). lra.
  - exists (-1/2). split; [right; right; left; reflexivity|]. intros j Hj. rewrite Lo in Hj. fold (get_argmax s).
    unfold p_out. rewrite V by (rewrite ?vscale_length; auto; apply vminus_length; auto). rewrite vscale_nth, W, R1 by auto.
    rewrite (centroid_centre f d s j G Hj). lra.
  - exists (1/2). split; [right; right; right; left; reflexivity|]. intros j Hj. rewrite Li in Hj. fold (get_argmax s).
    unfold p_in. rewrite V by (rewrite ?vscale_length; auto; apply vminus_length; auto). rewrite vscale_nth, W by auto.
    rewrite (centroid_centre f d s j G Hj). lra.
Qed.
Lemma value_nth f d s i : good f d s -> (i < d + 1)%nat -> nth i (values s) PInf = f (nth i (points s) []).
Proof.
  intros G Hi. rewrite (g_vals _ _ _ G), (nth_indep _ PInf (f [])) by (rewrite map_length, (g_len _ _ _ G); lia).
  apply map_nth.
Qed.
Lemma worst_ok f d s p : good f d s -> In p (points s) -> xle (f p) (f (nth (argmax s) (points s) [])).
Proof.
  intros G Hp. pose proof (amax_lt _ _ _ G) as Ha.
  rewrite <- (value_nth f d s (argmax s) G Ha). rewrite (g_amax _ _ _ G).
  apply arg_max_ok; [eapply good_vne; eauto|]. rewrite (g_vals _ _ _ G). apply in_map, Hp.
Qed.
Lemma best_ok f d s p : good f d s -> In p (points s) -> xle (f (nth (arg_min (values s)) (points s) [])) (f p).
Proof.
  intros G Hp. pose proof (amin_lt _ _ _ G) as Ha.
  rewrite <- (value_nth f d s _ G Ha).
  apply arg_min_ok; [eapply good_vne; eauto|]. rewrite (g_vals _ _ _ G). apply in_map, Hp.
Qed.
Lemma replace_one (accept : ext -> ext -> Prop) f d s new p : good f d s -> In p [p_refl s; p_exp s; p_out s; p_in s] ->
  accept (f p) (f (nth (argmax s) (points s) [])) ->
  nm_one accept f (points s) (points (replace_argmax (more s new) p (f p))).
Proof.
  intros G Hp Ha. pose proof (amax_lt _ _ _ G) as Hlt. left.
  destruct (trial_line f d s p G Hp) as (t & Ht & Hl).
  exists (argmax s), t. split; [rewrite (g_len _ _ _ G); lia|]. split; [intros q Hq; eapply worst_ok; eauto|].
  split; [exact Ht|].
  assert (E : forall i, nth i (points (replace_argmax (more s new) p (f p))) [] = if (i =? argmax s)%nat then p else nth i (points s) []).
  { intros i. cbn. apply nth_splice_one. rewrite (g_len _ _ _ G). lia. }
  split.
  - split; [cbn; apply splice_one_length; rewrite (g_len _ _ _ G); lia|]. split.
    + rewrite E, Nat.eqb_refl. exact Hl.
    + intros i Hi. rewrite E. destruct (Nat.eqb_spec i (argmax s)); [contradiction|reflexivity].
  - rewrite E, Nat.eqb_refl. exact Ha.
Qed.
Lemma shrink_one (accept : ext -> ext -> Prop) f d s new : good f d s -> (forall q, In q new -> admissible d s q) ->
  nm_one accept f (points s) (points (shrink f (more s new))).
Proof.
  intros G Ha. destruct (shrink_good f d s new G Ha) as (G' & _ & N & _). right.
  pose proof (amin_lt _ _ _ G) as Hlt.
  exists (arg_min (values s)). split; [rewrite (g_len _ _ _ G); lia|]. split; [intros q Hq; eapply best_ok; eauto|].
  split; [rewrite (g_len _ _ _ G), (g_len _ _ _ G'); reflexivity|].
  intros i j Hi. rewrite (g_len _ _ _ G) in Hi. rewrite N by lia.
  destruct (Nat.eqb_spec i (arg_min (values s))) as [->|Hn]; [lra|].
  rewrite vscale_nth.
  assert (L1 : length (nth i (points s) []) = d) by (apply (g_pl _ _ _ G), nth_In; rewrite (g_len _ _ _ G); lia).
  assert (L2 : length (nth (arg_min (values s)) (points s) []) = d) by (apply (g_pl _ _ _ G), nth_In; rewrite (g_len _ _ _ G); lia).
  destruct (Nat.lt_ge_cases j d).
  - unfold vplus. rewrite (vmap2_nth Rplus _ _ j 0 0 0) by lia. lra.
  - rewrite !nth_overflow; try lia; [lra|]. unfold vplus. rewrite vmap2_length; lia.
Qed.
Lemma second_from_in i skip best l v : second_from i skip best l = Some v -> best = Some v \/ In v l.
Proof.
  revert i best. induction l as [|x l IH]; intros i best H; cbn in H; [auto|].
  apply IH in H as [H|H]; [|right; right; exact H].
  destruct (negb (i =? skip)%nat && match best with Some b => xltb b x | None => true end); [|auto].
  injection H as ->. right. left. reflexivity.
Qed.
Lemma second_from_ge skip l : forall i best k x, nth_error l k = Some x -> (i + k)%nat <> skip ->
  exists v, second_from i skip best l = Some v /\ xle x v.
Proof.
  assert (A : forall l i b, exists v, second_from i skip (Some b) l = Some v /\ xle b v).
  { clear l. induction l as [|x l IH]; intros i b; cbn; [exists b; split; auto; apply xle_refl|].
    destruct (negb (i =? skip)%nat && xltb b x) eqn:E.
    - destruct (IH (S i) x) as (v & E1 & E2). exists v. split; auto. eapply xle_trans; [|exact E2].
      apply andb_true_iff in E as [_ E]. apply xltb_true, E.
    - apply IH. }
  induction l as [|y l IH]; intros i best k x Hk Hne; [destruct k; discriminate|].
  destruct k as [|k].
  - injection Hk as ->. cbn [second_from]. rewrite Nat.add_0_r in Hne.
    replace (negb (i =? skip)%nat) with true by (symmetry; apply negb_true_iff, Nat.eqb_neq; auto). cbn [andb].
    destruct best as [b|]; [|apply A]. destruct (xltb b x) eqn:E; [apply A|].
    destruct (A l (S i) b) as (v & E1 & E2). exists v. split; auto. eapply xle_trans; [|exact E2]. apply xltb_false, E.
  - cbn [second_from]. apply (IH (S i) _ k x Hk). lia.
Qed.
Lemma get_max_ge f d s v : good f d s -> In v (values s) -> xle v (get_max s).
Proof. intros G Hv. unfold get_max. rewrite (g_amax _ _ _ G). apply arg_max_ok; auto. eapply good_vne; eauto. Qed.
Lemma get_max_worst f d s : good f d s -> get_max s = f (nth (argmax s) (points s) []).
Proof. intros G. apply (value_nth f d s _ G). eapply amax_lt; eauto. Qed.
Lemma xlt_le_trans a b c : xltb a b = true -> xle b c -> xlt a c.
Proof.
  intros H1 H2 H3. assert (H : xle b a) by (eapply xle_trans; eauto). apply xltb_false in H. congruence.
Qed.

Lemma iteration_one f d s s' : good f d s -> iteration f d s s' -> nm_one (fun _ _ => True) f (points s) (points s').
Proof.
  intros G [p new Hp _ _ _|new _ Ha]; [eapply replace_one; eauto; exact I|eapply shrink_one; eauto].
Qed.
Lemma step_one f d s : good f d s -> nm_one xlt f (points s) (points (nm_step Fin f s)).
Proof.
  intros G. destruct (trial_lengths _ _ _ G) as (Lr & Le & Lo & Li).
  assert (Hmax : xle (smallest s) (get_max s)) by (eapply smallest_le; [exact G|eapply get_max_in; exact G]).
  pose proof (get_max_worst _ _ _ G) as Hw.
  unfold nm_step. fold (p_refl s). fold (p_exp s). fold (p_out s). fold (p_in s).
  rewrite (good_min _ _ _ G). replace (evaluate f s (p_refl s)) with (evaluate f (more s []) (p_refl s)) by (rewrite more_nil; reflexivity). rewrite xfloat_exact.
  destruct (evaluate_cases f d s [] (p_refl s) G Lr) as [[Ar ->] | -> ].
  - destruct (xltb (f (p_refl s)) (smallest s)) eqn:E1.
    + assert (A1 : xlt (f (p_refl s)) (f (nth (argmax s) (points s) []))) by (rewrite <- Hw; eapply xlt_le_trans; eauto).
      destruct (evaluate_cases f d s [p_refl s] (p_exp s) G Le) as [[Ae ->] | -> ].
      * destruct (xltb (f (p_exp s)) (f (p_refl s))) eqn:E2; eapply replace_one; cbn; eauto.
        eapply xlt_le_trans; [exact E2|]. rewrite <- Hw. eapply xle_trans; [apply xltb_true; exact E1|exact Hmax].
      * cbn [xltb]. eapply replace_one; cbn; eauto.
    + destruct (second_highest s) as [v|] eqn:Es.
      * rewrite xfloat_exact. assert (Hv : xle v (get_max s)).
        { eapply get_max_ge; [exact G|]. unfold second_highest in Es. apply second_from_in in Es as [Es|Es]; [discriminate|].
          rewrite <- (firstn_skipn (dims s)). apply in_or_app. left. exact Es. }
        destruct (xltb (f (p_refl s)) v) eqn:E4.
        -- eapply replace_one; cbn; eauto. rewrite <- Hw. eapply xlt_le_trans; eauto.
        -- destruct (xltb (f (p_refl s)) (get_max s)) eqn:E2.
           ++ destruct (evaluate_cases f d s [p_refl s] (p_out s) G Lo) as [[Ao ->] | -> ].
              ** destruct (xltb (f (p_refl s)) (f (p_out s))) eqn:E3; cbn [negb].
                 { eapply shrink_one; cbn; eauto; intros q [<-|[<-|[]]]; auto. }
                 eapply replace_one; cbn; eauto. rewrite <- Hw. intros H. apply xltb_false in E3.
                 assert (H2 : xle (get_max s) (f (p_refl s))) by (eapply xle_trans; eauto). apply xltb_false in H2. congruence.
              ** destruct (xltb_fin _ _ E2) as [x Ex]. rewrite Ex. cbn [xltb negb].
                 eapply shrink_one; cbn; eauto; intros q [<-|[]]; auto.
           ++ destruct (evaluate_cases f d s [p_refl s] (p_in s) G Li) as [[Ao ->] | -> ].
              ** destruct (xltb (f (p_in s)) (get_max s)) eqn:E3.
                 { eapply replace_one; cbn; eauto. rewrite <- Hw. eapply xlt_le_trans; [exact E3|apply xle_refl]. }
                 eapply shrink_one; cbn; eauto; intros q [<-|[<-|[]]]; auto.
              ** cbn [xltb]. eapply shrink_one; cbn; eauto; intros q [<-|[]]; auto.
      * destruct (xltb (f (p_refl s)) (get_max s)) eqn:E2.
        -- destruct (evaluate_cases f d s [p_refl s] (p_out s) G Lo) as [[Ao ->] | -> ].
           ++ destruct (xltb (f (p_refl s)) (f (p_out s))) eqn:E3; cbn [negb].
              { eapply shrink_one; cbn; eauto; intros q [<-|[<-|[]]]; auto. }
              eapply replace_one; cbn; eauto. rewrite <- Hw. intros H. apply xltb_false in E3.
              assert (H2 : xle (get_max s) (f (p_refl s))) by (eapply xle_trans; eauto). apply xltb_false in H2. congruence.
           ++ destruct (xltb_fin _ _ E2) as [x Ex]. rewrite Ex. cbn [xltb negb].
              eapply shrink_one; cbn; eauto; intros q [<-|[]]; auto.
        -- destruct (evaluate_cases f d s [p_refl s] (p_in s) G Li) as [[Ao ->] | -> ].
           ++ destruct (xltb (f (p_in s)) (get_max s)) eqn:E3.
              { eapply replace_one; cbn; eauto. rewrite <- Hw. eapply xlt_le_trans; [exact E3|apply xle_refl]. }
              eapply shrink_one; cbn; eauto; intros q [<-|[<-|[]]]; auto.
           ++ cbn [xltb]. eapply shrink_one; cbn; eauto; intros q [<-|[]]; auto.
  - cbn [xltb]. replace (match second_highest s with Some _ | _ => false end) with false by (destruct (second_highest s); reflexivity).
    destruct (evaluate_cases f d s [] (p_in s) G Li) as [[Ao ->] | -> ].
    + destruct (xltb (f (p_in s)) (get_max s)) eqn:E3.
      * eapply replace_one; cbn; eauto. rewrite <- Hw. eapply xlt_le_trans; [exact E3|apply xle_refl].
      * eapply shrink_one; cbn; eauto; intros q [<-|[]]; auto.
    + cbn [xltb]. eapply shrink_one; cbn; eauto; tauto.
Qed.
Lemma loop_moves to_float (accept : ext -> ext -> Prop) f d max tol goal fuel :
  (forall s, good f d s -> nm_one accept f (points s) (points (nm_step to_float f s))) ->
  forall s, good f d s -> forall s', nm_loop to_float fuel max tol goal f s = Some s' ->
  nm_moves accept f (points s) (points s').
Proof.
  intros H1. induction fuel as [|k IH]; intros s G s' H; cbn [nm_loop] in H; destruct (keep_going max tol goal s);
    try discriminate; try (injection H as <-; constructor).
  destruct (iteration_good f d s _ G (step_iteration to_float f d s G)) as (G1 & _).
  eapply nm_move; [apply H1, G|]. eapply IH; eauto.
Qed.
