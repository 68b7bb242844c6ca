(* C42, C61: the Nelder-Mead searcher.  [to_float] stands for the conversion of an objective value
   to float: Fin (exact) when Scalar is float, [to32] (rounding to binary32) when it is double. *)
From Verif Require Import Common RealUtil NelderMeadModel NelderMeadSpec NelderMeadProofs NelderMeadProofs2 NelderMeadProofs3 NelderMeadProofs4 NelderMeadProofs5 NelderMeadCases.
Local Open Scope R_scope.

(* The search ends after at most max_evaluations iterations, whatever the objective. *)
Theorem C42_stops to_float d s f max tol goal :
  nm_reachable to_float d s -> objective s = Some f ->
  exists s', forall n, (Z.to_nat max <= n)%nat -> minimize to_float n max tol goal s = Ok (Some s').
Proof. intros H. apply (search_stops to_float d), (reachable_wf to_float), H. Qed.
Print Assumptions C42_stops.

(* Every point the objective is called with and every vertex respects the bounds. *)
Theorem C42_bounds to_float d s n max tol goal s' p :
  nm_reachable to_float d s -> minimize to_float n max tol goal s = Ok (Some s') ->
  In p (calls s') \/ In p (points s') -> length p = d /\ within (lower s) (upper s) p.
Proof.
  intros H M Hp. pose proof (reachable_wf _ _ _ H) as W. destruct (minimize_ok _ _ _ _ _ _ _ M) as (f & Hf & _).
  destruct (search_after _ _ _ _ _ d s f s' W Hf M) as [G L U _ _ _ _ _].
  destruct (start_good f d s W) as (_ & _ & _ & _ & L0 & U0 & _).
  rewrite <- L0, <- L, <- U0, <- U. destruct Hp as [Hp|Hp]; [apply (g_calls _ _ _ G _ Hp)|].
  split; [apply (g_pl _ _ _ G _ Hp)|apply (g_in _ _ _ G _ Hp)].
Qed.
Print Assumptions C42_bounds.

(* GetMin() is the objective at GetArgMin(), a point that was evaluated; it is at most the value of
   every vertex of the final simplex and of the initial simplex pushed into the bounds. *)
Theorem C42_best to_float d s f n max tol goal s' :
  nm_reachable to_float d s -> objective s = Some f -> minimize to_float n max tol goal s = Ok (Some s') ->
  exists p, get_argmin s' = Ok p /\ get_min s' = Ok (f p) /\ In p (calls s') /\
    (forall q, In q (points s') -> xle (f p) (f q)) /\
    (forall q q', In q (points s) -> pushed_into (lower s) (upper s) q q' -> xle (f p) (f q')).
Proof.
  intros H Hf M. pose proof (reachable_wf _ _ _ H) as W.
  destruct (search_after _ _ _ _ _ d s f s' W Hf M) as [G _ _ _ Mn _ _ _].
  destruct (start_good f d s W) as (G0 & P0 & _).
  pose proof (amin_lt _ _ _ G) as Ha.
  exists (nth (arg_min (values s')) (points s') []).
  assert (E : smallest s' = f (nth (arg_min (values s')) (points s') [])) by (apply (value_nth f d s'); auto).
  assert (Hin : In (nth (arg_min (values s')) (points s') []) (points s')) by (apply nth_In; rewrite (g_len _ _ _ G); lia).
  split; [unfold get_argmin; rewrite (g_amin _ _ _ G); reflexivity|].
  split; [rewrite (good_min _ _ _ G), E; reflexivity|].
  split; [apply (g_pts _ _ _ G), Hin|]. split; [intros q Hq; eapply best_ok; eauto|].
  intros q q' Hq Hpush. rewrite <- E. eapply xle_trans; [exact Mn|]. eapply smallest_le; [exact G0|].
  rewrite (g_vals _ _ _ G0), P0. apply in_map.
  rewrite (pushed_clamp d s q q' (w_pl _ _ W _ Hq) (w_lo _ _ W) (w_hi _ _ W) Hpush). apply in_map, Hq.
Qed.
Print Assumptions C42_best.

(* Scalar = float: GetMin() is the lowest value of the objective seen in the search. *)
Theorem C42_lowest_partial d s f n max tol goal s' :
  nm_reachable Fin d s -> objective s = Some f -> minimize Fin n max tol goal s = Ok (Some s') ->
  exists m, get_min s' = Ok m /\ (forall p, In p (calls s') -> xle m (f p)) /\ exists p, In p (calls s') /\ f p = m.
Proof.
  intros H Hf M. pose proof (reachable_wf _ _ _ H) as W.
  destruct (C42_best Fin d s f n max tol goal s' H Hf M) as (p & _ & E & Hp & _).
  exists (f p). split; [exact E|]. split; [|eauto].
  destruct (search_after _ _ _ _ _ d s f s' W Hf M) as [G _ _ _ _ _ _ _].
  rewrite (good_min _ _ _ G) in E. injection E as E. rewrite <- E.
  destruct (start_good f d s W) as (G0 & P0 & C0 & _).
  destruct (minimize_ok _ _ _ _ _ _ _ M) as (g & Hg & L). assert (g = f) by congruence. subst g.
  eapply (loop_low f d max tol goal n (start f s) G0); [|eauto].
  intros q Hq. eapply smallest_le; [exact G0|]. rewrite (g_vals _ _ _ G0). apply in_map.
  rewrite P0. rewrite C0 in Hq. apply in_rev, Hq.
Qed.
Print Assumptions C42_lowest_partial.

(* Scalar = double: false, because the largest value is rounded to float before the inside
   contraction is compared with it: a smaller value than GetMin() was seen and dropped. *)
Theorem C42_lowest_refuted :
  exists d s f n max tol goal s', nm_reachable to32 d s /\ objective s = Some f /\
    minimize to32 n max tol goal s = Ok (Some s') /\
    exists m p v, get_min s' = Ok (Fin m) /\ In p (calls s') /\ f p = Fin v /\ v < m.
Proof.
  exists 2%nat, (ready 2 bump3 tri), bump3, 1%nat, 4%Z, 0, None, tri_end.
  destruct tri_end_values as (V & E & C & A). split.
  - exists tri, [SetSimplex tri; SetObjectiveFunction bump3].
    pose proof (ready_reached to32 2 bump3 tri tri) as R.
    assert (L : forall p, In p tri -> length p = 2%nat) by (intros p [<-|[<-|[<-|[]]]]; reflexivity).
    specialize (R ltac:(lia) eq_refl L). destruct (nm_new 2 tri) as [s0| |] eqn:En; cbn in R; try discriminate.
    exists s0. auto.
  - split; [reflexivity|]. split; [apply tri_search; lia|].
    exists va, [1/2; 1/4], vc. destruct v_order as (? & ? & ?).
    split; [unfold get_min; rewrite A, V; reflexivity|]. split; [exact C|]. split; [|assumption].
    unfold bump3. cbn [nth]. decs. reflexivity.
Qed.
Print Assumptions C42_lowest_refuted.

(* A larger budget never gives a larger minimum, and neither does continuing with a second call. *)
Theorem C42_monotone to_float d s f n n' max max' tol goal s1 s2 m1 m2 :
  nm_reachable to_float d s -> objective s = Some f -> (max <= max')%Z ->
  minimize to_float n max tol goal s = Ok (Some s1) -> minimize to_float n' max' tol goal s = Ok (Some s2) ->
  get_min s1 = Ok m1 -> get_min s2 = Ok m2 -> xle m2 m1.
Proof.
  intros H Hf Hm M1 M2 E1 E2. pose proof (reachable_wf _ _ _ H) as W.
  destruct (search_after _ _ _ _ _ d s f s1 W Hf M1) as [G1 _ _ _ _ _ _ _].
  destruct (search_after _ _ _ _ _ d s f s2 W Hf M2) as [G2 _ _ _ _ _ _ _].
  destruct (minimize_ok _ _ _ _ _ _ _ M1) as (f1 & Hf1 & L1). destruct (minimize_ok _ _ _ _ _ _ _ M2) as (f2 & Hf2 & L2).
  assert (f1 = f) by congruence. assert (f2 = f) by congruence. subst f1 f2.
  destruct (loop_prefix to_float max max' tol goal f Hm n _ s1 (eq_sym L1) n' s2 (eq_sym L2)) as [k Hk].
  destruct (loop_after _ _ _ _ _ _ d _ G1 _ Hk) as [_ _ _ _ Mn _ _ _].
  rewrite (good_min _ _ _ G1) in E1. rewrite (good_min _ _ _ G2) in E2. congruence.
Qed.
Print Assumptions C42_monotone.
Theorem C42_second_call to_float d s f n n' max max' tol tol' goal goal' s1 s2 m1 m2 :
  nm_reachable to_float d s -> objective s = Some f ->
  minimize to_float n max tol goal s = Ok (Some s1) -> minimize to_float n' max' tol' goal' s1 = Ok (Some s2) ->
  get_min s1 = Ok m1 -> get_min s2 = Ok m2 -> xle m2 m1.
Proof.
  intros H Hf M1 M2 E1 E2. pose proof (reachable_wf _ _ _ H) as W.
  destruct (search_after _ _ _ _ _ d s f s1 W Hf M1) as [G1 L1 U1 O1 _ _ _ _].
  destruct (start_good f d s W) as (_ & _ & _ & _ & L0 & U0 & O0).
  assert (W1 : wf d s1) by (eapply good_wf; [exact G1|]; rewrite L1, U1, L0, U0; apply (w_cons _ _ W)).
  assert (Hf1 : objective s1 = Some f) by congruence.
  destruct (search_after _ _ _ _ _ d s1 f s2 W1 Hf1 M2) as [G2 _ _ _ Mn _ _ _].
  destruct (start_good f d s1 W1) as (G3 & P3 & _).
  assert (E : points (start f s1) = points s1).
  { rewrite P3. rewrite <- (map_id (points s1)) at 2. apply map_ext_in. intros p Hp.
    apply (clamp_id s1 p d); [apply (g_pl _ _ _ G1 _ Hp)|apply (g_lo _ _ _ G1)|apply (g_hi _ _ _ G1)|apply (g_in _ _ _ G1 _ Hp)]. }
  rewrite (good_min _ _ _ G1) in E1. rewrite (good_min _ _ _ G2) in E2.
  injection E1 as <-. injection E2 as <-.
  assert (Es : smallest (start f s1) = smallest s1).
  { unfold smallest. rewrite (g_vals _ _ _ G3), (g_vals _ _ _ G1), E. reflexivity. }
  rewrite <- Es. exact Mn.
Qed.
Print Assumptions C42_second_call.

(* num_evaluations() counts the calls of the objective; it exceeds max_evaluations by at most
   dimensions + 1 (or is dimensions + 1 when the budget is smaller than that). *)
Theorem C42_budget to_float d s n max tol goal s' :
  nm_reachable to_float d s -> minimize to_float n max tol goal s = Ok (Some s') ->
  evals s' = Z.of_nat (length (calls s')) /\
  (Z.of_nat d + 1 <= evals s' <= Z.max (Z.of_nat d + 1) (max + Z.of_nat d + 1))%Z.
Proof.
  intros H M. pose proof (reachable_wf _ _ _ H) as W. destruct (minimize_ok _ _ _ _ _ _ _ M) as (f & Hf & _).
  destruct (search_after _ _ _ _ _ d s f s' W Hf M) as [G _ _ _ _ _ E1 E2].
  destruct (start_good f d s W) as (_ & _ & _ & E & _). rewrite E in *.
  split; [apply (g_evals _ _ _ G)|lia].
Qed.
Print Assumptions C42_budget.

(* The search ends only for one of the documented reasons, or because a vertex has an infinite
   value, for which StandardDeviation() is NaN. *)
Theorem C42_stop_reason to_float d s f n max tol goal s' :
  nm_reachable to_float d s -> objective s = Some f -> minimize to_float n max tol goal s = Ok (Some s') ->
  (max <= evals s')%Z \/
  (exists g m, goal = Some g /\ get_min s' = Ok (Fin m) /\ m <= g) \/
  (exists x, std_dev s' = Ok (Some x) /\ x <= tol) \/
  (exists p, In p (points s') /\ f p = PInf).
Proof.
  intros H Hf M. pose proof (reachable_wf _ _ _ H) as W.
  destruct (search_after _ _ _ _ _ d s f s' W Hf M) as [G _ _ _ _ _ _ _].
  destruct (minimize_ok _ _ _ _ _ _ _ M) as (g & Hg & L). symmetry in L. apply loop_exit in L.
  destruct (exit_cases max tol goal s' d f G L) as [E|[(g0 & m & E1 & E2 & E3)|[E|E]]]; auto.
  - right. left. exists g0, m. rewrite (good_min _ _ _ G), E2. auto.
  - right. right. right. unfold std_dev in E. rewrite (g_amin _ _ _ G) in E. injection E as E.
    unfold std_dev_of in E. destruct (finite (values s')) eqn:Ef; [discriminate|].
    apply finite_none in Ef. rewrite (g_vals _ _ _ G) in Ef. apply in_map_iff in Ef as (p & E1 & E2). eauto.
Qed.
Print Assumptions C42_stop_reason.
(* A negative tolerance is ignored, as documented, when the objective has finite values. *)
Theorem C42_tolerance_partial to_float d s f n max tol goal s' :
  nm_reachable to_float d s -> objective s = Some f -> tol < 0 -> (forall p, exists x, f p = Fin x) ->
  minimize to_float n max tol goal s = Ok (Some s') ->
  (max <= evals s')%Z \/ (exists g m, goal = Some g /\ get_min s' = Ok (Fin m) /\ m <= g).
Proof.
  intros H Hf Ht Hfin M.
  destruct (C42_stop_reason to_float d s f n max tol goal s' H Hf M) as [E|[E|[(x & E1 & E2)|(p & E1 & E2)]]]; auto.
  - unfold std_dev in E1. destruct (argmin s'); [|discriminate]. injection E1 as E1.
    apply std_dev_nonneg in E1. lra.
  - destruct (Hfin p) as [x Hx]. congruence.
Qed.
Print Assumptions C42_tolerance_partial.
(* A zero tolerance is documented as ignored too, but stops the search when all vertices have the
   same value: minimising x^2 from {-1, 1} ends after two evaluations with the minimum 1. *)
Theorem C42_tolerance_refuted :
  exists s s', nm_reachable Fin 1 s /\ objective s = Some square /\ minimize Fin 100 100 0 None s = Ok (Some s') /\
    evals s' = 2%Z /\ get_min s' = Ok (square [1]).
Proof.
  exists (ready 1 square pair_simplex), (begun 1 square pair_simplex 0 0). split.
  - exists pair_simplex, [SetSimplex pair_simplex; SetObjectiveFunction square].
    assert (L : forall p, In p pair_simplex -> length p = 1%nat) by (intros p [<-|[<-|[]]]; reflexivity).
    pose proof (ready_reached Fin 1 square pair_simplex pair_simplex ltac:(lia) eq_refl L) as R.
    destruct (nm_new 1 pair_simplex) as [s0| |] eqn:En; cbn in R; try discriminate. exists s0. auto.
  - split; [reflexivity|]. split; [apply square_stops; lra|]. split; [reflexivity|].
    unfold get_min, square, begun, pair_simplex. cbn [argmin values map nth]. do 2 f_equal. lra.
Qed.
Print Assumptions C42_tolerance_refuted.
(* An objective with an infinite value at a vertex stops the search at once, even with a negative
   tolerance and with budget left. *)
Theorem C42_infinite_refuted :
  exists s s', nm_reachable Fin 1 s /\ objective s = Some wall /\ minimize Fin 100 100 (-1) None s = Ok (Some s') /\
    evals s' = 2%Z /\ get_min s' = Ok (Fin 1) /\ wall [0] = Fin 0.
Proof.
  exists (ready 1 wall wall_simplex), (begun 1 wall wall_simplex 0 1). split.
  - exists wall_simplex, [SetSimplex wall_simplex; SetObjectiveFunction wall].
    assert (L : forall p, In p wall_simplex -> length p = 1%nat) by (intros p [<-|[<-|[]]]; reflexivity).
    pose proof (ready_reached Fin 1 wall wall_simplex wall_simplex ltac:(lia) eq_refl L) as R.
    destruct (nm_new 1 wall_simplex) as [s0| |] eqn:En; cbn in R; try discriminate. exists s0. auto.
  - split; [reflexivity|]. split; [apply wall_stops|]. split; [reflexivity|].
    split; unfold get_min, wall, begun, wall_simplex; cbn [argmin values map nth]; rewrite Rltb_false by lra; do 2 f_equal; lra.
Qed.
Print Assumptions C42_infinite_refuted.

(* C61.  From the start simplex pushed into the bounds, the search moves the simplex by the
   published moves only. *)
Theorem C61_moves to_float d s f n max tol goal s' :
  nm_reachable to_float d s -> objective s = Some f -> minimize to_float n max tol goal s = Ok (Some s') ->
  exists ps, Forall2 (pushed_into (lower s) (upper s)) (points s) ps /\ nm_moves (fun _ _ => True) f ps (points s').
Proof.
  intros H Hf M. pose proof (reachable_wf _ _ _ H) as W. destruct (start_good f d s W) as (G0 & P0 & _).
  destruct (minimize_ok _ _ _ _ _ _ _ M) as (g & Hg & L). assert (g = f) by congruence. subst g. symmetry in L.
  exists (points (start f s)). split.
  - rewrite P0. assert (Hall : forall p, In p (points s) -> pushed_into (lower s) (upper s) p (clamp s p)).
    { intros p Hp. apply (clamp_pushed d); [apply (w_pl _ _ W _ Hp)|apply (w_lo _ _ W)|apply (w_hi _ _ W)]. }
    clear - Hall. induction (points s) as [|p ps IH]; cbn; constructor; [apply Hall; left; auto|].
    apply IH. intros q Hq. apply Hall. right. exact Hq.
  - eapply loop_moves; [|exact G0|exact L]. intros t Gt. eapply iteration_one; [exact Gt|]. apply step_iteration, Gt.
Qed.
Print Assumptions C61_moves.
(* With Scalar = float every vertex that is put in the place of the worst one is strictly better. *)
Theorem C61_improves d s f n max tol goal s' :
  nm_reachable Fin d s -> objective s = Some f -> minimize Fin n max tol goal s = Ok (Some s') ->
  exists ps, Forall2 (pushed_into (lower s) (upper s)) (points s) ps /\ nm_moves xlt f ps (points s').
Proof.
  intros H Hf M. pose proof (reachable_wf _ _ _ H) as W. destruct (start_good f d s W) as (G0 & P0 & _).
  destruct (minimize_ok _ _ _ _ _ _ _ M) as (g & Hg & L). assert (g = f) by congruence. subst g. symmetry in L.
  exists (points (start f s)). split.
  - rewrite P0. assert (Hall : forall p, In p (points s) -> pushed_into (lower s) (upper s) p (clamp s p)).
    { intros p Hp. apply (clamp_pushed d); [apply (w_pl _ _ W _ Hp)|apply (w_lo _ _ W)|apply (w_hi _ _ W)]. }
    clear - Hall. induction (points s) as [|p ps IH]; cbn; constructor; [apply Hall; left; auto|].
    apply IH. intros q Hq. apply Hall. right. exact Hq.
  - eapply loop_moves; [|exact G0|exact L]. intros t Gt. eapply step_one; eauto.
Qed.
Print Assumptions C61_improves.
(* The published rule "keep the reflected point if it is better than the second worst vertex" is
   not followed: the last vertex is left out when the second worst is looked for.  Here the
   reflected point has value 3/2, the vertices 3, 1, 2, and the simplex is halved instead. *)
Theorem C61_reflection_refuted :
  exists s f s' q, nm_reachable Fin 2 s /\ objective s = Some f /\ minimize Fin 1 4 0 None s = Ok (Some s') /\
    on_line (-1) 0 (points s) q /\ length q = 2%nat /\ In q (calls s') /\
    map f (points s) = [Fin 3; Fin 1; Fin 2] /\ f q = Fin (3/2) /\ ~ In q (points s').
Proof.
  exists (ready 2 bowl tri2), bowl, bowl_end, [1; -1]. split.
  - exists tri2, [SetSimplex tri2; SetObjectiveFunction bowl].
    assert (L : forall p, In p tri2 -> length p = 2%nat) by (intros p [<-|[<-|[<-|[]]]]; reflexivity).
    pose proof (ready_reached Fin 2 bowl tri2 tri2 ltac:(lia) eq_refl L) as R.
    destruct (nm_new 2 tri2) as [s0| |] eqn:En; cbn in R; try discriminate. exists s0. auto.
  - split; [reflexivity|]. split; [apply bowl_search; lia|]. split.
    + intros j Hj. cbn [length] in Hj. unfold centre, mean_of, others, ready. cbn [points tri2 firstn skipn app map length].
      destruct j as [|[|j]]; [| |lia]; cbn; lra.
    + split; [reflexivity|]. split; [cbn; auto 10|]. split; [apply bowl_tri|]. split.
      * unfold bowl. cbn [nth]. decs. reflexivity.
      * destruct bowl_end_points as [-> _]. intros [E|[E|[E|[]]]]; injection E; intros; lra.
Qed.
Print Assumptions C61_reflection_refuted.
(* With Scalar = float the rule holds when a vertex other than the worst and the last one is worse
   than the reflected point. *)
Theorem C61_reflection_partial d s f n goal tol s' w i q :
  nm_reachable Fin d s -> objective s = Some f -> lower s = [] -> upper s = [] ->
  minimize Fin n (Z.of_nat d + 2) tol goal s = Ok (Some s') -> (Z.of_nat d + 1 < evals s')%Z ->
  (w <= d)%nat -> (forall k, (k <= d)%nat -> xle (f (nth k (points s) [])) (f (nth w (points s) []))) ->
  (forall k, (k < w)%nat -> xlt (f (nth k (points s) [])) (f (nth w (points s) []))) ->
  on_line (-1) w (points s) q -> length q = d ->
  (exists k, (k <= d)%nat /\ xle (f (nth k (points s) [])) (f q)) ->
  (i < d)%nat -> i <> w -> xlt (f q) (f (nth i (points s) [])) ->
  nth w (points s') [] = q.
Proof. apply reflection_kept. Qed.
Print Assumptions C61_reflection_partial.

(* StandardDeviation() is the standard deviation of the vertex values times the square root of
   their number, not the standard deviation itself. *)
Theorem C61_standard_deviation_partial to_float d s f n max tol goal s' :
  nm_reachable to_float d s -> objective s = Some f -> (forall p, exists x, f p = Fin x) ->
  minimize to_float n max tol goal s = Ok (Some s') ->
  exists l, map f (points s') = map Fin l /\ length l = (d + 1)%nat /\
    std_dev s' = Ok (Some (sqrt (INR (d + 1)) * standard_deviation_of l)).
Proof.
  intros H Hf Hfin M. pose proof (reachable_wf _ _ _ H) as W.
  destruct (search_after _ _ _ _ _ d s f s' W Hf M) as [G _ _ _ _ _ _ _].
  destruct (finite_some (map f (points s'))) as (l & _ & E).
  { intros v Hv. apply in_map_iff in Hv as (p & <- & _). apply Hfin. }
  assert (Ll : length l = (d + 1)%nat) by (rewrite <- (map_length Fin l), <- E, map_length; apply (g_len _ _ _ G)).
  exists l. split; [exact E|]. split; [exact Ll|].
  unfold std_dev. rewrite (g_amin _ _ _ G), (g_vals _ _ _ G), E, std_dev_factor, Ll; [reflexivity|].
  intros ->. cbn in Ll. lia.
Qed.
Print Assumptions C61_standard_deviation_partial.
(* The header says setting the simplex (or the objective, or a starting guess) resets
   num_evaluations() and that SetSimplex applies the active bounds to the simplex.  Neither happens:
   after a search, the evaluation count survives all three, and GetSimplex() returns the point 5
   that violates the upper bound 2. *)
Theorem C61_setters_refuted :
  exists s0 s,
    obind (nm_new 1 pair_simplex) (fun s => nm_history Fin s
      [SetSimplex pair_simplex; SetObjectiveFunction square; MinimizeObjective 100 0 None]) = Ok s0 /\
    nm_history Fin s0 [SetUpperBounds [Some 2]; SetSimplex [[5]; [1]]; SetObjectiveFunction square] = Ok s /\
    evals s = 2%Z /\ In [5] (points s) /\ ~ within (lower s) (upper s) [5].
Proof.
  exists (begun 1 square pair_simplex 0 0). eexists. split; [|split; [reflexivity|split; [reflexivity|split; [left; reflexivity|]]]].
  - pose proof (ready_reached Fin 1 square pair_simplex pair_simplex ltac:(lia) eq_refl) as R.
    change [SetSimplex pair_simplex; SetObjectiveFunction square; MinimizeObjective 100 0 None]
      with ([SetSimplex pair_simplex; SetObjectiveFunction square] ++ [MinimizeObjective 100 0 None]).
    destruct (nm_new 1 pair_simplex) as [s0| |]; cbn [obind] in *; [|discriminate R|discriminate R];
      try (intros p [<-|[<-|[]]]; reflexivity).
    rewrite history_app, R by (intros p [<-|[<-|[]]]; reflexivity). cbn [obind nm_history nm_exec].
    rewrite (square_stops Fin 0) by lra. reflexivity.
  - intros [_ H]. specialize (H 0%nat 2). cbn in H. specialize (H eq_refl). lra.
Qed.
Print Assumptions C61_setters_refuted.

(* A starting guess is refused exactly when it has the wrong dimension or violates a bound; otherwise the
   simplex is the guess and the guess moved by the offset along each axis. *)
Theorem C61_starting_guess to_float d s guess offset : nm_reachable to_float d s ->
  (length guess = d /\ within (lower s) (upper s) guess ->
     exists s', set_guess s guess offset = Ok s' /\ length (points s') = (d + 1)%nat /\ nth 0 (points s') [] = guess /\
       forall i, (i < d)%nat -> length (nth (S i) (points s') []) = d /\
         forall j, nth j (nth (S i) (points s') []) 0 = nth j guess 0 + (if (i =? j)%nat then offset else 0)) /\
  (~ (length guess = d /\ within (lower s) (upper s) guess) -> set_guess s guess offset = CheckFail).
Proof.
  intros H. pose proof (reachable_wf _ _ _ H) as W. pose proof (w_dims _ _ W) as Hd. unfold set_guess. rewrite Hd. split.
  - intros [Hl Hw]. rewrite (proj2 (Nat.eqb_eq _ _) Hl). cbn [ocheck].
    rewrite (proj2 (feasible_within s guess d Hl (w_lo _ _ W) (w_hi _ _ W)) Hw). cbn [ocheck].
    eexists. split; [reflexivity|]. cbn [with_points points]. split; [cbn [length]; rewrite map_length, seq_length; lia|]. split; [reflexivity|].
    intros i Hi. cbn [nth]. assert (E : nth i (map (bump guess offset) (seq 0 d)) [] = bump guess offset i).
    { rewrite nth_indep with (d' := bump guess offset 0) by (rewrite map_length, seq_length; exact Hi). rewrite map_nth, seq_nth by exact Hi. reflexivity. }
    rewrite E. split; [unfold bump; rewrite splice_one_length by lia; exact Hl|]. intros j. apply guess_vertex. lia.
  - intros N. destruct (Nat.eqb_spec (length guess) d) as [Hl|]; [|reflexivity]. cbn [ocheck].
    destruct (is_feasible s guess) eqn:E; [|reflexivity]. exfalso. apply N. split; [exact Hl|].
    apply (feasible_within s guess d Hl (w_lo _ _ W) (w_hi _ _ W)), E.
Qed.
Print Assumptions C61_starting_guess.

(* GetMin, GetArgMin and StandardDeviation work exactly when a MinimizeObjective was called before. *)
Theorem C61_results to_float d junk s0 cs s : length junk = (d + 1)%nat -> (forall p, In p junk -> length p = d) ->
  nm_new d junk = Ok s0 -> nm_history to_float s0 cs = Ok s ->
  ((exists max tol goal, In (MinimizeObjective max tol goal) cs) ->
     is_ok (get_argmin s) = true /\ is_ok (get_min s) = true /\ is_ok (std_dev s) = true) /\
  (~ (exists max tol goal, In (MinimizeObjective max tol goal) cs) ->
     get_argmin s = CheckFail /\ get_min s = CheckFail /\ std_dev s = CheckFail).
Proof.
  intros Hj Hl Hn Hh. rewrite <- existsb_search.
  assert (W : wf d s0). { apply (reachable_wf to_float). exists junk, [], s0. repeat split; auto. }
  pose proof (history_argmin to_float d cs s0 s W Hh) as E.
  assert (A0 : argmin s0 = None). { unfold nm_new in Hn. apply ocheck_ok in Hn as [_ Hn]. injection Hn as <-. reflexivity. }
  rewrite A0 in E. cbn [is_some] in E. rewrite orb_false_r in E. unfold get_argmin, get_min, std_dev.
  destruct (argmin s), (existsb is_search cs); cbn [is_some] in E; try discriminate; split; intros X; auto; try discriminate X; exfalso; auto.
Qed.
Print Assumptions C61_results.
Example C61_case_guess : exists s s', obind (nm_new 2 [[0; 0]; [0; 0]; [0; 0]]) (fun s => set_upper s [Some 3; None]) = Ok s /\
  set_guess s [1; 4] (1 / 2) = Ok s' /\ points s' = [[1; 4]; [1 + 1 / 2; 4]; [1; 4 + 1 / 2]] /\ set_guess s [4; 1] (1 / 2) = CheckFail.
Proof.
  eexists. eexists. split; [reflexivity|]. unfold set_guess, is_feasible. cbn.
  destruct (Rleb_spec 1 3), (Rleb_spec 4 3); try lra. cbn. auto.
Qed.

(* Concrete searches meeting the hypotheses above. *)
Example C42_case_search : forall n, (1 <= n)%nat ->
  nm_reachable Fin 2 (ready 2 bowl tri3) /\ minimize Fin n 4 0 None (ready 2 bowl tri3) = Ok (Some keep_end) /\
  points keep_end = [[1; -1]; [1; 0]; [0; 0]] /\ get_min keep_end = Ok (Fin 1) /\ evals keep_end = 4%Z.
Proof.
  intros n Hn. split; [|split; [apply keep_search, Hn|split; [reflexivity|split; [|reflexivity]]]].
  - exists tri3, [SetSimplex tri3; SetObjectiveFunction bowl].
    assert (L : forall p, In p tri3 -> length p = 2%nat) by (intros p [<-|[<-|[<-|[]]]]; reflexivity).
    pose proof (ready_reached Fin 2 bowl tri3 tri3 ltac:(lia) eq_refl L) as R.
    destruct (nm_new 2 tri3) as [s0| |] eqn:En; cbn in R; try discriminate. exists s0. auto.
  - assert (V : values keep_end = [Fin (3/2); Fin 2; Fin 1]).
    { unfold keep_end, replace_argmax. cbn [counted with_values values begun argmax]. rewrite bowl_tri3.
      unfold bowl. cbn [nth]. decs. reflexivity. }
    assert (A : argmin keep_end = Some (arg_min (values keep_end))) by reflexivity.
    unfold get_min. rewrite A, V. unfold arg_min. cbn [arg_first xltb]. decs. cbn [arg_first xltb]. decs. reflexivity.
Qed.
Example C61_case_reflection :
  on_line (-1) 0 tri3 [1; -1] /\ map bowl tri3 = [Fin 3; Fin 2; Fin 1] /\ bowl [1; -1] = Fin (3/2) /\
  nth 0 (points keep_end) [] = [1; -1] /\ lower (ready 2 bowl tri3) = [] /\ (Z.of_nat 2 + 1 < evals keep_end)%Z.
Proof.
  split; [|split; [apply bowl_tri3|split; [unfold bowl; cbn [nth]; decs; reflexivity|repeat split]]].
  intros j Hj. cbn [length] in Hj. unfold centre, mean_of, others. cbn [tri3 firstn skipn app map length].
  destruct j as [|[|j]]; [| |lia]; cbn; lra.
Qed.
(* A bounded search: the start vertex 5 is pushed to the bound 2 before it is evaluated. *)
Example C42_case_bounds :
  exists s s', nm_reachable Fin 1 s /\ upper s = [Some 2] /\ points s = [[5]; [2]] /\
    minimize Fin 7 1 0 None s = Ok (Some s') /\ calls s' = [[2]; [2]].
Proof.
  assert (B : exists s, obind (nm_new 1 [[0]; [0]]) (fun s => nm_history Fin s
      [SetUpperBounds [Some 2]; SetSimplex [[5]; [2]]; SetObjectiveFunction square]) = Ok s /\
      upper s = [Some 2] /\ points s = [[5]; [2]] /\ objective s = Some square /\ dims s = 1%nat /\ lower s = [] /\ calls s = []).
  { eexists. split; [reflexivity|]. repeat split. }
  destruct B as (s & B & Hu & Hp & Ho & Hd & Hl & Hc).
  assert (Hr : nm_reachable Fin 1 s).
  { destruct (nm_new 1 [[0]; [0]]) as [s0| |] eqn:En; cbn [obind] in B; try discriminate.
    exists [[0]; [0]], [SetUpperBounds [Some 2]; SetSimplex [[5]; [2]]; SetObjectiveFunction square], s0.
    split; [reflexivity|]. split; [intros p [<-|[<-|[]]]; reflexivity|]. auto. }
  destruct (minimize Fin 7 1 0 None s) as [[s'|]| |] eqn:M.
  - exists s, s'. split; [exact Hr|]. split; [exact Hu|]. split; [exact Hp|]. split; [exact M|].
    pose proof (minimize_ok _ _ _ _ _ _ _ M) as (f & Hf & L).
    assert (Ec : calls (start f s) = [[2]; [2]] /\ evals (start f s) = 2%Z).
    { destruct (start_good f 1 s (reachable_wf _ _ _ Hr)) as (_ & P0 & C0 & E0 & _). rewrite C0, E0, Hp.
      split; [|reflexivity]. cbn [map rev app]. unfold clamp. rewrite Hu, Hl. cbn.
      rewrite (Rmin_right 5), (Rmin_left 2) by lra. reflexivity. }
    destruct Ec as (Ec & Ee).
    assert (K : keep_going 1 0 None (start f s) = false) by (unfold keep_going; rewrite Ee; reflexivity).
    cbn [nm_loop] in L. rewrite K in L. injection L as ->. exact Ec.
  - destruct (C42_stops Fin 1 s square 1 0 None Hr Ho) as (s' & H). rewrite (H 7%nat) in M by (cbn; lia). discriminate.
  - destruct (C42_stops Fin 1 s square 1 0 None Hr Ho) as (s' & H). rewrite (H 7%nat) in M by (cbn; lia). discriminate.
  - destruct (C42_stops Fin 1 s square 1 0 None Hr Ho) as (s' & H). rewrite (H 7%nat) in M by (cbn; lia). discriminate.
Qed.
