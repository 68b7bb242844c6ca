(* Proofs about the Nelder-Mead searcher: statements at the level of MinimizeObjective(), and the
   concrete searches used as counterexamples. *)
From Flocq Require Import Core.
From Verif Require Import Common RealUtil ListLemmas NthLemmas NelderMeadModel NelderMeadSpec NelderMeadProofs NelderMeadProofs2 NelderMeadProofs3 NelderMeadProofs4.
From Verif Require Import FastFunModel FftFloat.
Local Open Scope R_scope.

Lemma search_after to_float fuel max tol goal d s f s' : wf d s -> objective s = Some f ->
  minimize to_float fuel max tol goal s = Ok (Some s') -> after f d max (start f s) s'.
Proof.
  intros W Hf H. apply minimize_ok in H as (g & Hg & E). assert (g = f) by congruence. subst g.
  destruct (start_good f d s W) as (G0 & _). eapply loop_after; eauto.
Qed.
Lemma search_stops to_float d s f max tol goal : wf d s -> objective s = Some f ->
  exists s', forall n, (Z.to_nat max <= n)%nat -> minimize to_float n max tol goal s = Ok (Some s').
Proof.
  intros W Hf. destruct (start_good f d s W) as (G0 & _ & _ & E & _).
  destruct (loop_stops to_float max tol goal f d (Z.to_nat max) (start f s) G0) as [s' Hs']; [lia|].
  exists s'. intros n Hn. unfold minimize. rewrite (w_len _ _ W), (w_dims _ _ W), Nat.eqb_refl. cbn [ocheck].
  rewrite Hf. fold (start f s). f_equal. replace n with (Z.to_nat max + (n - Z.to_nat max))%nat by lia. apply Hs'.
Qed.

Lemma pushed_clamp d s p q : length p = d -> shaped d (lower s) -> shaped d (upper s) ->
  pushed_into (lower s) (upper s) p q -> q = clamp s p.
Proof.
  intros Hp Hlo Hhi [Hl Hq].
  assert (A : forall (g : R -> option R -> R), (forall x, g x None = x) -> forall (b : list (option R)) x, shaped d b -> length x = d ->
    length (match b with [] => x | _ => vmap2 g x b end) = d /\
    forall i, (i < d)%nat -> nth i (match b with [] => x | _ => vmap2 g x b end) 0 = g (nth i x 0) (nth i b None)).
  { intros g Hg b x Hb Hx. destruct b as [|u b].
    - split; auto. intros i Hi. destruct i; cbn; rewrite Hg; reflexivity.
    - destruct Hb as [Hb|Hb]; [discriminate|]. split; [rewrite vmap2_length; lia|].
      intros i Hi. apply vmap2_nth; lia. }
  unfold clamp. set (lo := lower s) in *. set (hi := upper s) in *.
  destruct (A raise_to (fun _ => eq_refl) lo p Hlo Hp) as (L1 & N1).
  set (p1 := match lo with [] => p | _ => vmap2 raise_to p lo end) in *.
  assert (E1 : match lo with [] => p | o :: l => vmap2 raise_to p (o :: l) end = p1) by (unfold p1; clearbody lo; destruct lo; reflexivity).
  destruct (A lower_to (fun _ => eq_refl) hi p1 Hhi L1) as (L2 & N2).
  rewrite E1.
  assert (E2 : match hi with [] => p1 | o :: l => vmap2 lower_to p1 (o :: l) end = match hi with [] => p1 | _ => vmap2 lower_to p1 hi end)
    by (clearbody hi; destruct hi; reflexivity).
  rewrite E2.
  apply nth_ext with (d := 0) (d' := 0).
  - rewrite Hl, Hp. symmetry. exact L2.
  - intros i Hi. rewrite Hl, Hp in Hi. rewrite Hq by lia.
    etransitivity; [|symmetry; apply N2; lia]. rewrite N1 by lia.
    destruct (nth i lo None), (nth i hi None); reflexivity.
Qed.

Lemma keep_more max max' tol goal s : (max <= max')%Z -> keep_going max tol goal s = true -> keep_going max' tol goal s = true.
Proof.
  unfold keep_going. rewrite !andb_true_iff. intros H [[H1 H2] H3]. repeat split; auto.
  apply Z.ltb_lt in H1. apply Z.ltb_lt. lia.
Qed.
Lemma loop_prefix to_float max max' tol goal f : (max <= max')%Z ->
  forall fuel s s1, nm_loop to_float fuel max tol goal f s = Some s1 ->
  forall fuel' s2, nm_loop to_float fuel' max' tol goal f s = Some s2 ->
  exists k, nm_loop to_float k max' tol goal f s1 = Some s2.
Proof.
  intros Hm. induction fuel as [|k IH]; intros s s1 H1 fuel' s2 H2; cbn [nm_loop] in H1.
  - destruct (keep_going max tol goal s); [discriminate|]. injection H1 as <-. eauto.
  - destruct (keep_going max tol goal s) eqn:K; [|injection H1 as <-; eauto].
    destruct fuel' as [|k']; cbn [nm_loop] in H2; rewrite (keep_more _ _ _ _ _ Hm K) in H2; [discriminate|].
    eapply IH; eauto.
Qed.

Lemma exit_cases max tol goal s d f : good f d s -> keep_going max tol goal s = false ->
  (max <= evals s)%Z \/ (exists g m, goal = Some g /\ smallest s = Fin m /\ m <= g) \/
  (exists x, std_dev s = Ok (Some x) /\ x <= tol) \/ std_dev s = Ok None.
Proof.
  intros G. unfold keep_going. rewrite (good_min _ _ _ G).
  assert (Hs : exists o, std_dev s = Ok o) by (unfold std_dev; rewrite (g_amin _ _ _ G); eauto).
  destruct Hs as [o Ho]. rewrite Ho. intros H.
  destruct (evals s <? max)%Z eqn:E1; [|left; apply Z.ltb_ge in E1; exact E1].
  destruct o as [x|]; [|auto].
  destruct (Rltb_spec tol x); [|right; right; left; exists x; split; [reflexivity|lra]].
  destruct (smallest s) as [m|] eqn:Em, goal as [g|]; cbn in H; try discriminate.
  right. left. exists g, m. repeat split; auto. destruct (Rltb_spec g m); [discriminate|lra].
Qed.
Lemma std_dev_nonneg vs x : std_dev_of vs = Some x -> 0 <= x.
Proof. unfold std_dev_of. destruct (finite vs); [|discriminate]. intros H. injection H as <-. apply sqrt_pos. Qed.
Lemma finite_some vs : (forall v, In v vs -> exists x, v = Fin x) -> exists l, finite vs = Some l /\ vs = map Fin l.
Proof.
  induction vs as [|v vs IH]; intros H; [exists []; auto|].
  destruct IH as (l & E & E2); [intros; apply H; right; auto|].
  destruct (H v (or_introl eq_refl)) as [x ->]. exists (x :: l). cbn. rewrite E, E2. auto.
Qed.
Lemma finite_inv vs l : finite vs = Some l -> vs = map Fin l.
Proof.
  revert l. induction vs as [|[x|] vs IH]; intros l H; cbn in H; try discriminate.
  - injection H as <-. reflexivity.
  - destruct (finite vs) as [r|]; [|discriminate]. injection H as <-. cbn. rewrite (IH r eq_refl). reflexivity.
Qed.
Lemma finite_none vs : finite vs = None -> In PInf vs.
Proof.
  induction vs as [|[x|] vs IH]; cbn; intros H; try discriminate; auto.
  destruct (finite vs); [discriminate|]. auto.
Qed.
Lemma mult_sum c l : fold_right Rplus 0 (map (fun v => c * v) l) = c * fold_right Rplus 0 l.
Proof. induction l; cbn; lra. Qed.
Lemma std_dev_factor l : l <> [] ->
  std_dev_of (map Fin l) = Some (sqrt (INR (length l)) * standard_deviation_of l).
Proof.
  intros Hl. unfold std_dev_of.
  assert (E : finite (map Fin l) = Some l) by (clear Hl; induction l as [|x l IH]; cbn; [|rewrite IH]; reflexivity).
  rewrite E. f_equal. unfold standard_deviation_of, variance_of, mean_of at 1. rewrite map_length.
  assert (Hn : 0 < INR (length l)) by (apply lt_0_INR; destruct l; [congruence|cbn; lia]).
  rewrite <- sqrt_mult_alt by lra. f_equal. unfold total, mean_of, Rsqr.
  set (t := fold_right Rplus 0 (map _ l)). field. lra.
Qed.
Lemma clamp_pushed d s p : length p = d -> shaped d (lower s) -> shaped d (upper s) ->
  pushed_into (lower s) (upper s) p (clamp s p).
Proof.
  intros Hp Hlo Hhi.
  set (g := fun i => let x := match nth i (lower s) None with Some l => Rmax (nth i p 0) l | None => nth i p 0 end in
                     match nth i (upper s) None with Some u => Rmin x u | None => x end).
  assert (P : pushed_into (lower s) (upper s) p (map g (seq 0 d))).
  { split; [rewrite map_length, seq_length; auto|]. intros i Hi. rewrite nth_map_seq by lia. reflexivity. }
  rewrite <- (pushed_clamp d s p _ Hp Hlo Hhi P). exact P.
Qed.
Lemma arg_max_first l w : (w < length l)%nat -> (forall v, In v l -> xle v (nth w l PInf)) ->
  (forall k, (k < w)%nat -> xlt (nth k l PInf) (nth w l PInf)) -> arg_max l = w.
Proof.
  assert (A : forall l pre best v w, (best < length pre)%nat -> nth best pre PInf = v ->
    (forall x, In x pre -> xle x v) -> (forall k, (k < best)%nat -> xlt (nth k pre PInf) v) ->
    (w < length (pre ++ l))%nat -> (forall x, In x (pre ++ l) -> xle x (nth w (pre ++ l) PInf)) ->
    (forall k, (k < w)%nat -> xlt (nth k (pre ++ l) PInf) (nth w (pre ++ l) PInf)) ->
    arg_first (fun a b => xltb b a) (length pre) best v l = w).
  { clear. induction l as [|x l IH]; intros pre best v w Hb Hv Hm Hf Hw Hwm Hwf; cbn [arg_first].
    - rewrite app_nil_r in *. destruct (Nat.lt_trichotomy best w) as [C|[C|C]]; auto; exfalso.
      + apply (Hwf best C). rewrite Hv. apply Hm. apply nth_In. lia.
      + apply (Hf w C). rewrite <- Hv. apply Hwm. apply nth_In. lia.
    - replace (pre ++ x :: l) with ((pre ++ [x]) ++ l) in * by (rewrite <- app_assoc; reflexivity).
      replace (S (length pre)) with (length (pre ++ [x])) by (rewrite app_length; cbn; lia).
      destruct (xltb v x) eqn:E; apply IH; auto; try (rewrite app_length; cbn; lia).
      + rewrite app_nth2, Nat.sub_diag by lia. reflexivity.
      + intros y Hy. apply in_app_or in Hy as [Hy|[->|[]]]; [|apply xle_refl].
        eapply xle_trans; [apply Hm, Hy|]. apply xltb_true, E.
      + intros k Hk C. rewrite app_nth1 in C by lia.
        assert (C2 : xle x v) by (eapply xle_trans; [exact C|]; apply Hm, nth_In; lia).
        apply xltb_false in C2. congruence.
      + rewrite app_nth1 by lia. exact Hv.
      + intros y Hy. apply in_app_or in Hy as [Hy|[->|[]]]; [apply Hm, Hy|]. apply xltb_false, E.
      + intros k Hk. rewrite app_nth1 by lia. apply Hf, Hk. }
  intros Hw Hm Hf. destruct l as [|x l]; [cbn in Hw; lia|].
  apply (A l [x] 0%nat x w); cbn [length app]; auto.
  - intros y [->|[]]. apply xle_refl.
  - intros k Hk. lia.
Qed.
Lemma line_unique t w ps q q' d : length q = d -> length q' = d -> on_line t w ps q -> on_line t w ps q' -> q = q'.
Proof.
  intros L1 L2 H1 H2. apply nth_ext with (d := 0) (d' := 0); [lia|]. intros j Hj. rewrite H1, H2 by lia. reflexivity.
Qed.
Lemma refl_line f d s : good f d s -> on_line (-1) (argmax s) (points s) (p_refl s).
Proof.
  intros G j Hj. destruct (trial_lengths _ _ _ G) as (Lr & _). rewrite Lr in Hj.
  pose proof (centroid_length _ _ _ G) as Lc.
  assert (La : length (get_argmax s) = d) by (apply (g_pl _ _ _ G), (get_argmax_in _ _ _ G)).
  unfold p_refl, vminus. rewrite (vmap2_nth Rminus _ _ j 0 0 0) by (rewrite ?vscale_length; lia).
  rewrite !vscale_nth, (centroid_centre f d s j G Hj). fold (get_argmax s). lra.
Qed.
Lemma reflection_kept d s f n goal tol s' w i q :
  nm_reachable Fin d s -> objective s = Some f -> lower s = [] -> upper s = [] ->
  minimize Fin n (Z.of_nat d + 2) tol goal s = Ok (Some s') -> (Z.of_nat d + 1 < evals s')%Z ->
  (w <= d)%nat -> (forall k, (k <= d)%nat -> xle (f (nth k (points s) [])) (f (nth w (points s) []))) ->
  (forall k, (k < w)%nat -> xlt (f (nth k (points s) [])) (f (nth w (points s) []))) ->
  on_line (-1) w (points s) q -> length q = d ->
  (exists k, (k <= d)%nat /\ xle (f (nth k (points s) [])) (f q)) ->
  (i < d)%nat -> i <> w -> xlt (f q) (f (nth i (points s) [])) ->
  nth w (points s') [] = q.
Proof.
  intros H Hf Hlo Hhi M Hev Hw Hmax Hfirst Hq Lq (k0 & Hk0 & Hbest) Hi Hiw Hlt.
  pose proof (reachable_wf _ _ _ H) as W. destruct (start_good f d s W) as (G0 & P0 & _ & E0 & L0 & U0 & _).
  destruct (minimize_ok _ _ _ _ _ _ _ M) as (g & Hg & L). assert (g = f) by congruence. subst g. clear Hg.
  assert (Ep : points (start f s) = points s).
  { rewrite P0. rewrite <- (map_id (points s)) at 2. apply map_ext. intros p. unfold clamp. rewrite Hlo, Hhi. reflexivity. }
  set (b := start f s) in *.
  assert (Ev : forall k, (k <= d)%nat -> nth k (values b) PInf = f (nth k (points s) [])).
  { intros k Hk. rewrite <- Ep. apply (value_nth f d b); [exact G0|lia]. }
  assert (Aw : argmax b = w).
  { rewrite (g_amax _ _ _ G0). pose proof (good_vlen _ _ _ G0). apply arg_max_first; [lia| |].
    - intros v Hv. apply (In_nth _ _ PInf) in Hv as (k & Hk & <-). rewrite !Ev by lia. apply Hmax. lia.
    - intros k Hk. rewrite !Ev by lia. apply Hfirst, Hk. }
  assert (Eq : p_refl b = q).
  { destruct (trial_lengths _ _ _ G0) as (Lr & _). eapply (line_unique (-1) w (points s)); eauto.
    rewrite <- Ep, <- Aw. eapply refl_line; eauto. }
  (* the first iteration takes place *)
  destruct n as [|n]; cbn [nm_loop] in L.
  { destruct (keep_going _ tol goal b); [discriminate|]. injection L as ->. lia. }
  destruct (keep_going (Z.of_nat d + 2) tol goal b); [|injection L as ->; lia].
  assert (S1 : nm_step Fin f b = replace_argmax (more b [q]) q (f q)).
  { assert (Hfeas : forall p, evaluate f (more b []) p = (f p, more b [p])).
    { intros p. rewrite evaluate_more. unfold is_feasible. rewrite U0, L0, Hlo, Hhi. reflexivity. }
    unfold nm_step. fold (p_refl b). rewrite Eq, <- (more_nil b) at 1. rewrite Hfeas.
    rewrite (good_min _ _ _ G0).
    assert (Hsm : xle (smallest b) (f q)).
    { eapply xle_trans; [|exact Hbest]. rewrite <- Ev by lia. eapply smallest_le; [exact G0|]. apply nth_In.
      rewrite (good_vlen _ _ _ G0). lia. }
    apply xltb_false in Hsm. rewrite Hsm.
    destruct (second_from_ge (argmax b) (firstn (dims b) (values b)) 0 None i (nth i (values b) PInf)) as (v & Es & Hv).
    { rewrite (g_dims _ _ _ G0). rewrite (nth_error_nth' _ PInf) by (rewrite firstn_length, (good_vlen _ _ _ G0); lia).
      rewrite nth_firstn by lia. reflexivity. }
    { cbn. congruence. }
    unfold second_highest. rewrite Es, xfloat_exact.
    assert (Hqv : xltb (f q) v = true).
    { destruct (xltb (f q) v) eqn:E; auto. apply xltb_false in E. exfalso. apply Hlt.
      eapply xle_trans; [|exact E]. rewrite <- Ev by lia. exact Hv. }
    rewrite Hqv, Eq. reflexivity. }
  rewrite S1 in L.
  assert (Aq : admissible d b q).
  { split; [exact Lq|]. rewrite L0, U0, Hlo, Hhi. split; intros j u Hj; destruct (nth_error_nil' _ _ Hj). }
  destruct (replace_good f d b [q] q G0) as (G1 & C1 & _); [left; reflexivity|intros p [<-|[]]; exact Aq|].
  assert (E1 : evals (replace_argmax (more b [q]) q (f q)) = (Z.of_nat d + 2)%Z).
  { cbn [replace_argmax with_values more counted evals length]. rewrite E0. lia. }
  assert (K : keep_going (Z.of_nat d + 2) tol goal (replace_argmax (more b [q]) q (f q)) = false).
  { destruct (keep_going _ tol goal (replace_argmax (more b [q]) q (f q))) eqn:K; auto. apply keep_evals in K. lia. }
  assert (Ew : nth w (points (replace_argmax (more b [q]) q (f q))) [] = q).
  { change (points (replace_argmax (more b [q]) q (f q))) with (splice (argmax b) [q] (points b)).
    pose proof (w_len _ _ W). rewrite Aw, Ep, nth_splice_one by lia. rewrite Nat.eqb_refl. reflexivity. }
  destruct n; cbn [nm_loop] in L; rewrite K in L; injection L as ->; exact Ew.
Qed.

(* ---- starting guess, and the results before any search ---- *)
Lemma guess_vertex guess offset i j : (i < length guess)%nat ->
  nth j (bump guess offset i) 0 = nth j guess 0 + (if (i =? j)%nat then offset else 0).
Proof.
  intros Hi. unfold bump. rewrite nth_splice_one by exact Hi.
  destruct (Nat.eqb_spec j i) as [->|N]; [rewrite Nat.eqb_refl; reflexivity|]. destruct (Nat.eqb_spec i j); [congruence|]. ring.
Qed.
Definition is_some {A} (o : option A) : bool := match o with Some _ => true | None => false end.
Definition is_search (c : nm_call) : bool := match c with MinimizeObjective _ _ _ => true | _ => false end.
Lemma exec_argmin to_float d s c s' : wf d s -> nm_exec to_float s c = Ok s' ->
  is_some (argmin s') = (is_search c || is_some (argmin s))%bool.
Proof.
  intros W. destruct c; cbn [nm_exec is_search orb]; intros E;
    try (unfold set_guess, set_simplex, set_lower, set_upper in E; repeat (apply ocheck_ok in E as [_ E]); injection E as <-; reflexivity).
  destruct (minimize to_float (Z.to_nat max) max tol goal s) as [[s1|]| |] eqn:M; cbn [obind] in E; try discriminate. injection E as <-.
  destruct (minimize_ok _ _ _ _ _ _ _ M) as (f & Hf & _).
  destruct (search_after _ _ _ _ _ d s f s1 W Hf M) as [G _ _ _ _ _ _ _]. rewrite (g_amin _ _ _ G). reflexivity.
Qed.
Lemma history_argmin to_float d cs : forall s s', wf d s -> nm_history to_float s cs = Ok s' ->
  is_some (argmin s') = (existsb is_search cs || is_some (argmin s))%bool.
Proof.
  induction cs as [|c cs IH]; intros s s' W H; cbn [nm_history] in H; [injection H as <-; reflexivity|].
  destruct (nm_exec to_float s c) as [s1| |] eqn:E; cbn [obind] in H; try discriminate.
  rewrite (IH s1 s' (exec_wf _ _ _ _ _ W E) H), (exec_argmin _ _ _ _ _ W E). cbn [existsb].
  destruct (is_search c), (existsb is_search cs), (argmin s); reflexivity.
Qed.
Lemma existsb_search cs : existsb is_search cs = true <-> exists max tol goal, In (MinimizeObjective max tol goal) cs.
Proof.
  rewrite existsb_exists. split.
  - intros (c & Hc & E). destruct c; try discriminate. eauto.
  - intros (m & t & g & H). eexists. split; [exact H|reflexivity].
Qed.
