(* Proofs about the Nelder-Mead searcher: one iteration, the loop, whole histories. *)
From Verif Require Import Common RealUtil ListLemmas NthLemmas NelderMeadModel NelderMeadSpec NelderMeadProofs NelderMeadProofs2.
Local Open Scope R_scope.

Lemma fold_vplus_length d ps : (forall p, In p ps -> length p = d) ->
  length (fold_right vplus (repeat 0 d) ps) = d.
Proof.
  induction ps as [|p ps IH]; cbn; intros H; [apply repeat_length|].
  unfold vplus at 1. rewrite vmap2_length; rewrite ?IH; auto.
Qed.
Lemma get_argmax_in f d s : good f d s -> In (get_argmax s) (points s).
Proof. intros G. apply nth_In. rewrite (g_len _ _ _ G). eapply amax_lt; eauto. Qed.
Lemma centroid_length f d s : good f d s -> length (centroid s) = d.
Proof.
  intros G. unfold centroid, vminus. rewrite map_length, (g_dims _ _ _ G), vmap2_length.
  - apply fold_vplus_length, (g_pl _ _ _ G).
  - rewrite fold_vplus_length by apply (g_pl _ _ _ G). symmetry. apply (g_pl _ _ _ G), (get_argmax_in _ _ _ G).
Qed.
Lemma vscale_length c l : length (vscale c l) = length l.
Proof. apply map_length. Qed.
Lemma vplus_length d a b : length a = d -> length b = d -> length (vplus a b) = d.
Proof. intros. unfold vplus. rewrite vmap2_length; lia. Qed.
Lemma vminus_length d a b : length a = d -> length b = d -> length (vminus a b) = d.
Proof. intros. unfold vminus. rewrite vmap2_length; lia. Qed.

(* the four trial points *)
Definition p_refl (s : searcher) := vminus (vscale (1 + 1) (centroid s)) (vscale 1 (get_argmax s)).
Definition p_exp (s : searcher) := vplus (vscale 2 (p_refl s)) (vscale (1 - 2) (centroid s)).
Definition p_out (s : searcher) := vplus (centroid s) (vscale (1 / 2) (vminus (p_refl s) (centroid s))).
Definition p_in (s : searcher) := vplus (centroid s) (vscale (1 / 2) (vminus (get_argmax s) (centroid s))).
Lemma trial_lengths f d s : good f d s ->
  length (p_refl s) = d /\ length (p_exp s) = d /\ length (p_out s) = d /\ length (p_in s) = d.
Proof.
  intros G. pose proof (centroid_length _ _ _ G) as C.
  assert (A : length (get_argmax s) = d) by (apply (g_pl _ _ _ G), (get_argmax_in _ _ _ G)).
  assert (Hr : length (p_refl s) = d) by (apply vminus_length; rewrite vscale_length; auto).
  repeat split; auto.
  - apply vplus_length; rewrite vscale_length; auto.
  - apply vplus_length; auto. rewrite vscale_length. apply vminus_length; auto.
  - apply vplus_length; auto. rewrite vscale_length. apply vminus_length; auto.
Qed.

(* What one iteration does, as a description of the new state. *)
Inductive iteration (f : list R -> ext) (d : nat) (s : searcher) : searcher -> Prop :=
| it_replace p new : In p [p_refl s; p_exp s; p_out s; p_in s] -> In p new ->
    (length new <= 2)%nat -> (forall q, In q new -> admissible d s q) ->
    iteration f d s (replace_argmax (more s new) p (f p))
| it_shrink new : (length new <= 2)%nat -> (forall q, In q new -> admissible d s q) ->
    iteration f d s (shrink f (more s new)).

Lemma evaluate_cases f d s new p : good f d s -> length p = d ->
  (admissible d s p /\ evaluate f (more s new) p = (f p, more s (p :: new))) \/
  evaluate f (more s new) p = (PInf, more s new).
Proof.
  intros G Hp. rewrite evaluate_more. destruct (is_feasible s p) eqn:E; auto.
  left. split; auto. apply (feasible_admissible f d s p G Hp), E.
Qed.

(* [low s new]: no new call found a value below the smallest stored one *)
Definition none_below f (s : searcher) (v : ext) (new : list (list R)) : Prop :=
  forall q, In q new -> xle v (f q).

Lemma step_iteration to_float f d s : good f d s -> iteration f d s (nm_step to_float f s).
Proof.
  intros G. destruct (trial_lengths _ _ _ G) as (Lr & Le & Lo & Li).
  unfold nm_step. fold (p_refl s). fold (p_exp s). fold (p_out s). fold (p_in s).
  rewrite (good_min _ _ _ G). rewrite <- (more_nil s) at 2.
  destruct (evaluate_cases f d s [] (p_refl s) G Lr) as [[Ar ->] | -> ].
  - destruct (xltb (f (p_refl s)) (smallest s)) eqn:E1.
    + destruct (evaluate_cases f d s [p_refl s] (p_exp s) G Le) as [[Ae ->] | -> ].
      * destruct (xltb (f (p_exp s)) (f (p_refl s))); apply it_replace; cbn; auto; intros q [<-|[<-|[]]]; auto.
      * cbn [xltb]. apply it_replace; cbn; auto. intros q [<-|[]]; auto.
    + destruct (match second_highest s with Some v => xltb (f (p_refl s)) (xfloat to_float v) | None => false end).
      * apply it_replace; cbn; auto. intros q [<-|[]]; auto.
      * destruct (xltb (f (p_refl s)) (xfloat to_float (get_max s))) eqn:E2.
        -- destruct (evaluate_cases f d s [p_refl s] (p_out s) G Lo) as [[Ao ->] | -> ].
           ++ destruct (negb (xltb (f (p_refl s)) (f (p_out s)))).
              ** apply it_replace; cbn; auto. intros q [<-|[<-|[]]]; auto.
              ** apply it_shrink; cbn; auto. intros q [<-|[<-|[]]]; auto.
           ++ destruct (xltb_fin _ _ E2) as [x ->]. cbn [xltb negb].
              apply it_shrink; cbn; auto. intros q [<-|[]]; auto.
        -- destruct (evaluate_cases f d s [p_refl s] (p_in s) G Li) as [[Ao ->] | -> ].
           ++ destruct (xltb (f (p_in s)) (xfloat to_float (get_max s))).
              ** apply it_replace; cbn; auto. intros q [<-|[<-|[]]]; auto.
              ** apply it_shrink; cbn; auto. intros q [<-|[<-|[]]]; auto.
           ++ cbn [xltb]. apply it_shrink; cbn; auto. intros q [<-|[]]; auto.
  - cbn [xltb]. replace (match second_highest s with Some _ | _ => false end) with false by (destruct (second_highest s); reflexivity).
    destruct (evaluate_cases f d s [] (p_in s) G Li) as [[Ao ->] | -> ].
    + destruct (xltb (f (p_in s)) (xfloat to_float (get_max s))).
      * apply it_replace; cbn; auto. intros q [<-|[]]; auto.
      * apply it_shrink; cbn; auto. intros q [<-|[]]; auto.
    + cbn [xltb]. apply it_shrink; cbn; auto. tauto.
Qed.

Lemma iteration_good f d s s' : good f d s -> iteration f d s s' ->
  good f d s' /\ (evals s + 1 <= evals s' <= evals s + Z.of_nat d + 2)%Z /\
  lower s' = lower s /\ upper s' = upper s /\ objective s' = objective s /\
  xle (smallest s') (smallest s) /\ exists new, calls s' = new ++ calls s.
Proof.
  intros G H. pose proof (g_pos _ _ _ G) as Hd. destruct H as [p new Hp Hin Hl Ha|new Hl Ha].
  - destruct (replace_good f d s new p G Hin Ha) as (G' & E & M & _).
    split; [exact G'|]. split.
    + rewrite (g_evals _ _ _ G'), E, app_length, (g_evals _ _ _ G).
      assert (1 <= length new)%nat by (destruct new; cbn in *; [tauto|lia]). lia.
    + repeat split; auto. exists new. exact E.
  - destruct (shrink_good f d s new G Ha) as (G' & (ex & E & Lx & _) & _ & M).
    split; [exact G'|]. split.
    + rewrite (g_evals _ _ _ G'), E, !app_length, (g_evals _ _ _ G). lia.
    + assert (B : forall t, lower (shrink f t) = lower t /\ upper (shrink f t) = upper t /\ objective (shrink f t) = objective t).
      { assert (Bl : forall ps vs i t k b, let '(_, _, t') := shrink_list f t k b i ps vs in
          lower t' = lower t /\ upper t' = upper t /\ objective t' = objective t).
        { induction ps as [|q ps IH]; intros [|v vs] i t k b; cbn [shrink_list]; auto.
          destruct (i =? k)%nat.
          - specialize (IH vs (S i) t k b). destruct (shrink_list f t k b (S i) ps vs) as [[? ?] ?]. exact IH.
          - destruct (evaluate f t (vscale (1 / 2) (vplus q b))) as [w t1] eqn:Ew.
            assert (lower t1 = lower t /\ upper t1 = upper t /\ objective t1 = objective t).
            { unfold evaluate in Ew. destruct (is_feasible t _); injection Ew as <- <-; auto. }
            specialize (IH vs (S i) t1 k b). destruct (shrink_list f t1 k b (S i) ps vs) as [[? ?] ?].
            intuition congruence. }
        intros t. unfold shrink. destruct (argmin t) as [i|]; auto.
        specialize (Bl (points t) (values t) 0%nat t i (nth i (points t) [])).
        destruct (shrink_list f t i _ 0 (points t) (values t)) as [[? ?] ?]. exact Bl. }
      destruct (B (more s new)) as (B1 & B2 & B3).
      repeat split; auto. exists (ex ++ new). rewrite E, app_assoc. reflexivity.
Qed.

Lemma keep_evals max tol goal s : keep_going max tol goal s = true -> (evals s < max)%Z.
Proof. unfold keep_going. rewrite !andb_true_iff. intros [[H _] _]. apply Z.ltb_lt, H. Qed.

(* properties kept by the loop *)
Record after (f : list R -> ext) (d : nat) (max : Z) (s s' : searcher) : Prop := {
  a_good : good f d s';
  a_lo : lower s' = lower s; a_hi : upper s' = upper s; a_obj : objective s' = objective s;
  a_min : xle (smallest s') (smallest s);
  a_more : exists new, calls s' = new ++ calls s;
  a_evals : (evals s <= evals s')%Z;
  a_budget : (evals s' <= Z.max (evals s) (max + Z.of_nat d + 1))%Z }.
Lemma loop_after to_float fuel max tol goal f d : forall s, good f d s ->
  forall s', nm_loop to_float fuel max tol goal f s = Some s' -> after f d max s s'.
Proof.
  induction fuel as [|k IH]; intros s G s' H; cbn [nm_loop] in H.
  - destruct (keep_going max tol goal s); [discriminate|]. injection H as <-.
    constructor; auto; try lia; [apply xle_refl|exists []; reflexivity].
  - destruct (keep_going max tol goal s) eqn:K.
    + apply keep_evals in K.
      destruct (iteration_good f d s _ G (step_iteration to_float f d s G)) as (G1 & E1 & L1 & U1 & O1 & M1 & (n1 & C1)).
      specialize (IH _ G1 s' H). destruct IH as [G2 L2 U2 O2 M2 (n2 & C2) E2 B2].
      constructor; auto; try congruence; try lia.
      * eapply xle_trans; eauto.
      * exists (n2 ++ n1). rewrite C2, C1, app_assoc. reflexivity.
    + injection H as <-. constructor; auto; try lia; [apply xle_refl|exists []; reflexivity].
Qed.
Lemma loop_stops to_float max tol goal f d : forall fuel s, good f d s ->
  (max - evals s <= Z.of_nat fuel)%Z -> exists s', forall more, nm_loop to_float (fuel + more) max tol goal f s = Some s'.
Proof.
  induction fuel as [|k IH]; intros s G H.
  - exists s. intros m. destruct (keep_going max tol goal s) eqn:K; [apply keep_evals in K; lia|].
    destruct m; cbn; rewrite K; reflexivity.
  - destruct (keep_going max tol goal s) eqn:K.
    + destruct (iteration_good f d s _ G (step_iteration to_float f d s G)) as (G1 & E1 & _).
      destruct (IH _ G1) as [s' Hs']; [lia|]. exists s'. intros m. cbn. rewrite K. apply Hs'.
    + exists s. intros m. cbn. rewrite K. reflexivity.
Qed.
Lemma loop_exit to_float fuel max tol goal f : forall s s',
  nm_loop to_float fuel max tol goal f s = Some s' -> keep_going max tol goal s' = false.
Proof.
  induction fuel as [|k IH]; intros s s' H; cbn [nm_loop] in H; destruct (keep_going max tol goal s) eqn:K;
    try discriminate; try (injection H as <-; exact K). eapply IH, H.
Qed.

(* ---- start of a search ---- *)
Record wf (d : nat) (s : searcher) : Prop := {
  w_dims : dims s = d; w_pos : (0 < d)%nat; w_len : length (points s) = (d + 1)%nat;
  w_pl : forall p, In p (points s) -> length p = d;
  w_lo : shaped d (lower s); w_hi : shaped d (upper s); w_cons : consistent (lower s) (upper s) }.
Lemma evaluate_list_good f d s : shaped d (lower s) -> shaped d (upper s) ->
  forall ps new, (forall p, In p ps -> admissible d s p) ->
  evaluate_list f (more s new) ps = (map f ps, more s (rev ps ++ new)).
Proof.
  intros Hlo Hhi. induction ps as [|p ps IH]; intros new H; cbn [evaluate_list map]; [reflexivity|].
  rewrite evaluate_more. destruct (H p (or_introl eq_refl)) as [H1 H2].
  replace (is_feasible s p) with true by (symmetry; apply (feasible_within s p d H1 Hlo Hhi), H2).
  rewrite IH by (intros; apply H; right; auto). cbn [rev]. rewrite <- app_assoc. reflexivity.
Qed.
Definition start (f : list R -> ext) (s : searcher) : searcher := evaluate_all f (enforce_bounds (counted s 0 [])).
Lemma start_good f d s : wf d s ->
  good f d (start f s) /\ points (start f s) = map (clamp s) (points s) /\ calls (start f s) = rev (map (clamp s) (points s)) /\
  evals (start f s) = (Z.of_nat d + 1)%Z /\ lower (start f s) = lower s /\ upper (start f s) = upper s /\ objective (start f s) = objective s.
Proof.
  intros W. set (s0 := enforce_bounds (counted s 0 [])).
  assert (A : forall p, In p (points s0) -> admissible d s0 p).
  { cbn. intros p Hp. apply in_map_iff in Hp as (q & <- & Hq).
    apply (clamp_within s q d (w_pl _ _ W _ Hq) (w_lo _ _ W) (w_hi _ _ W) (w_cons _ _ W)). }
  assert (E : start f s = with_values (more s0 (rev (points s0))) (points s0) (map f (points s0))).
  { unfold start. fold s0. unfold evaluate_all. rewrite <- (more_nil s0) at 1.
    rewrite (evaluate_list_good f d s0 (w_lo _ _ W) (w_hi _ _ W) (points s0) [] A), app_nil_r. reflexivity. }
  rewrite E. cbn [with_values more counted points calls evals lower upper objective].
  split; [|repeat split; try reflexivity].
  2:{ cbn. rewrite app_nil_r. reflexivity. }
  2:{ cbn [evals s0 enforce_bounds with_points counted]. rewrite rev_length. cbn. rewrite map_length, (w_len _ _ W). lia. }
  constructor; cbn [with_values more counted dims objective points values lower upper argmin argmax evals calls].
  - apply (w_dims _ _ W).
  - apply (w_pos _ _ W).
  - cbn. rewrite map_length. apply (w_len _ _ W).
  - intros p Hp. apply A, Hp.
  - apply (w_lo _ _ W).
  - apply (w_hi _ _ W).
  - reflexivity.
  - intros p Hp. apply A, Hp.
  - reflexivity.
  - reflexivity.
  - rewrite app_length. cbn. rewrite Nat.add_0_r. reflexivity.
  - intros p Hp. cbn [s0 enforce_bounds with_points counted calls] in Hp. rewrite app_nil_r in Hp.
    apply in_rev in Hp. apply A, Hp.
  - intros p Hp. apply in_or_app. left. apply in_rev in Hp. exact Hp.
Qed.

Lemma minimize_ok to_float fuel max tol goal s r :
  minimize to_float fuel max tol goal s = Ok r ->
  exists f, objective s = Some f /\ r = nm_loop to_float fuel max tol goal f (start f s).
Proof.
  unfold minimize. intros H. apply ocheck_ok in H as [_ H].
  destruct (objective s) as [f|]; [|discriminate]. exists f. split; auto. injection H as <-. reflexivity.
Qed.
Lemma good_wf f d s : good f d s -> consistent (lower s) (upper s) -> wf d s.
Proof. intros [] C. constructor; auto. Qed.

(* ---- histories ---- *)
Lemma exec_wf to_float d s c s' : wf d s -> nm_exec to_float s c = Ok s' -> wf d s'.
Proof.
  intros W H. destruct W as [Hd Hp Hl Hpl Hlo Hhi Hc]. destruct c; cbn [nm_exec] in H.
  - unfold set_guess in H. apply ocheck_ok in H as [H1 H]. apply ocheck_ok in H as [_ H]. injection H as <-.
    apply Nat.eqb_eq in H1. constructor; cbn [with_points dims points lower upper]; auto.
    + cbn. rewrite map_length, seq_length. lia.
    + intros p [<-|Hin]; [congruence|]. apply in_map_iff in Hin as (i & <- & Hi). apply in_seq in Hi.
      unfold bump. rewrite splice_one_length; lia.
  - unfold set_simplex in H. apply ocheck_ok in H as [H1 H]. apply ocheck_ok in H as [H2 H]. injection H as <-.
    apply Nat.eqb_eq in H2. constructor; cbn [with_points dims points lower upper]; auto; [lia|].
    intros p Hin. rewrite forallb_forall in H1. specialize (H1 p Hin). apply Nat.eqb_eq in H1. lia.
  - injection H as <-. constructor; auto.
  - unfold set_lower in H. apply ocheck_ok in H as [H1 H]. apply ocheck_ok in H as [H2 H]. injection H as <-.
    apply Nat.eqb_eq in H1. constructor; cbn [with_bounds dims points lower upper]; auto; [right; lia|].
    destruct (upper s) as [|u hi] eqn:E.
    + intros i l v _ Ev. destruct (nth_error_nil' _ _ Ev).
    + apply allb_ordered; auto. destruct Hhi as [Hhi|Hhi]; [discriminate|lia].
  - unfold set_upper in H. apply ocheck_ok in H as [H1 H]. apply ocheck_ok in H as [H2 H]. injection H as <-.
    apply Nat.eqb_eq in H1. constructor; cbn [with_bounds dims points lower upper]; auto; [right; lia|].
    destruct (lower s) as [|u lo] eqn:E.
    + intros i l v Ev. destruct (nth_error_nil' _ _ Ev).
    + apply allb_ordered; auto. destruct Hlo as [Hlo|Hlo]; [discriminate|lia].
  - injection H as <-. constructor; cbn; auto; try (left; reflexivity).
    intros i l v Ev. destruct (nth_error_nil' _ _ Ev).
  - injection H as <-. constructor; auto.
  - destruct (minimize to_float (Z.to_nat max) max tol goal s) as [[s1|]| |] eqn:E; cbn in H; try discriminate.
    injection H as <-. apply minimize_ok in E as (f & Ef & E). symmetry in E.
    destruct (start_good f d s) as (G0 & _ & _ & _ & L0 & U0 & _); [constructor; auto|].
    destruct (loop_after _ _ _ _ _ _ d _ G0 _ E) as [G L U _ _ _ _ _].
    eapply good_wf; [exact G|]. rewrite L, U, L0, U0. exact Hc.
Qed.
Lemma history_wf to_float d cs : forall s s', wf d s -> nm_history to_float s cs = Ok s' -> wf d s'.
Proof.
  induction cs as [|c cs IH]; intros s s' W H; cbn in H; [injection H as <-; exact W|].
  destruct (nm_exec to_float s c) as [s1| |] eqn:E; cbn in H; try discriminate.
  eapply IH; [|exact H]. eapply exec_wf; eauto.
Qed.
Lemma reachable_wf to_float d s : nm_reachable to_float d s -> wf d s.
Proof.
  intros (junk & cs & s0 & Hj & Hl & Hn & Hh). eapply history_wf; [|exact Hh].
  unfold nm_new in Hn. apply ocheck_ok in Hn as [Hd Hn]. injection Hn as <-.
  apply Nat.ltb_lt in Hd. constructor; cbn; auto; try (left; reflexivity).
  intros i l v Ev. destruct (nth_error_nil' _ _ Ev).
Qed.
