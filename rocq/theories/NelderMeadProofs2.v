(* Proofs about the Nelder-Mead searcher: the invariant of the search loop. *)
From Verif Require Import Common RealUtil ListLemmas NthLemmas NelderMeadModel NelderMeadSpec NelderMeadProofs.
Local Open Scope R_scope.

(* [s] after the calls [new] to the objective function *)
Definition more (s : searcher) (new : list (list R)) : searcher :=
  counted s (evals s + Z.of_nat (length new)) (new ++ calls s).
Lemma more_nil s : more s [] = s.
Proof. unfold more, counted. cbn. rewrite Z.add_0_r. destruct s; reflexivity. Qed.
Lemma feasible_more s new p : is_feasible (more s new) p = is_feasible s p.
Proof. reflexivity. Qed.
Lemma evaluate_more f s new p :
  evaluate f (more s new) p = if is_feasible s p then (f p, more s (p :: new)) else (PInf, more s new).
Proof.
  unfold evaluate. rewrite feasible_more. destruct (is_feasible s p); auto.
  unfold more, counted. cbn [evals calls length app dims objective points values lower upper argmin argmax]. replace (evals s + Z.of_nat (length new) + 1)%Z with (evals s + Z.of_nat (S (length new)))%Z by lia. reflexivity.
Qed.

Record good (f : list R -> ext) (d : nat) (s : searcher) : Prop := {
  g_dims : dims s = d; g_pos : (0 < d)%nat;
  g_len : length (points s) = (d + 1)%nat;
  g_pl : forall p, In p (points s) -> length p = d;
  g_lo : shaped d (lower s); g_hi : shaped d (upper s);
  g_vals : values s = map f (points s);
  g_in : forall p, In p (points s) -> within (lower s) (upper s) p;
  g_amin : argmin s = Some (arg_min (values s));
  g_amax : argmax s = arg_max (values s);
  g_evals : evals s = Z.of_nat (length (calls s));
  g_calls : forall p, In p (calls s) -> length p = d /\ within (lower s) (upper s) p;
  g_pts : forall p, In p (points s) -> In p (calls s) }.

Definition smallest (s : searcher) : ext := nth (arg_min (values s)) (values s) PInf.
Lemma good_min f d s : good f d s -> get_min s = Ok (smallest s).
Proof. intros G. unfold get_min. rewrite (g_amin _ _ _ G). reflexivity. Qed.
Lemma good_vlen f d s : good f d s -> length (values s) = (d + 1)%nat.
Proof. intros G. rewrite (g_vals _ _ _ G), map_length. apply (g_len _ _ _ G). Qed.
Lemma good_vne f d s : good f d s -> values s <> [].
Proof. intros G E. pose proof (good_vlen _ _ _ G) as H. rewrite E in H. cbn in H. lia. Qed.
Lemma smallest_le f d s v : good f d s -> In v (values s) -> xle (smallest s) v.
Proof. intros G. apply (arg_min_ok _ (good_vne _ _ _ G)). Qed.
Lemma amax_lt f d s : good f d s -> (argmax s < d + 1)%nat.
Proof. intros G. rewrite (g_amax _ _ _ G), <- (good_vlen _ _ _ G). apply arg_max_ok, (good_vne _ _ _ G). Qed.
Lemma amin_lt f d s : good f d s -> (arg_min (values s) < d + 1)%nat.
Proof. intros G. rewrite <- (good_vlen _ _ _ G). apply arg_min_ok, (good_vne _ _ _ G). Qed.

(* a stored point and its value *)
Definition admissible (d : nat) (s : searcher) (p : list R) : Prop :=
  length p = d /\ within (lower s) (upper s) p.
Lemma feasible_admissible f d s p : good f d s -> length p = d ->
  is_feasible s p = true <-> admissible d s p.
Proof.
  intros G Hp. rewrite (feasible_within s p d Hp (g_lo _ _ _ G) (g_hi _ _ _ G)).
  unfold admissible. tauto.
Qed.

Lemma map_splice {A B} (f : A -> B) j l x : map f (splice j [x] l) = splice j [f x] (map f l).
Proof. unfold splice. rewrite !map_app, firstn_map, skipn_map. reflexivity. Qed.
Lemma in_splice {A} j (x y : A) l : In y (splice j [x] l) -> y = x \/ In y l.
Proof.
  unfold splice. rewrite !in_app_iff. intros [H|[[->|[]]|H]]; auto.
  - right. rewrite <- (firstn_skipn j l). apply in_or_app. auto.
  - right. rewrite <- (firstn_skipn (j + length [x]) l). apply in_or_app. auto.
Qed.

Lemma replace_good f d s new p : good f d s -> In p new -> (forall q, In q new -> admissible d s q) ->
  let s' := replace_argmax (more s new) p (f p) in
  good f d s' /\ calls s' = new ++ calls s /\ xle (smallest s') (smallest s) /\ xle (smallest s') (f p).
Proof.
  intros G Hp Hnew. cbn zeta. pose proof (amax_lt _ _ _ G) as Ha.
  assert (G' : good f d (replace_argmax (more s new) p (f p))).
  { constructor; cbn [replace_argmax with_values more counted dims objective points values lower upper argmin argmax evals calls].
    - apply (g_dims _ _ _ G).
    - apply (g_pos _ _ _ G).
    - rewrite splice_one_length; rewrite (g_len _ _ _ G); lia.
    - intros q Hq. apply in_splice in Hq as [->|Hq]; [apply Hnew, Hp|apply (g_pl _ _ _ G _ Hq)].
    - apply (g_lo _ _ _ G).
    - apply (g_hi _ _ _ G).
    - rewrite (g_vals _ _ _ G). symmetry. apply map_splice.
    - intros q Hq. apply in_splice in Hq as [->|Hq]; [apply Hnew, Hp|apply (g_in _ _ _ G _ Hq)].
    - reflexivity.
    - reflexivity.
    - rewrite (g_evals _ _ _ G), app_length. lia.
    - intros q Hq. apply in_app_or in Hq as [Hq|Hq]; [apply Hnew, Hq|apply (g_calls _ _ _ G _ Hq)].
    - intros q Hq. apply in_or_app. apply in_splice in Hq as [->|Hq]; auto. right. apply (g_pts _ _ _ G _ Hq). }
  split; [exact G'|]. split; [reflexivity|]. split.
  - destruct (min_replace (values s) (f p)) as (w & Hw & Hle).
    { rewrite (good_vlen _ _ _ G). pose proof (g_pos _ _ _ G). lia. }
    eapply xle_trans; [|exact Hle]. eapply smallest_le; [exact G'|].
    cbn. rewrite (g_amax _ _ _ G). exact Hw.
  - eapply smallest_le; [exact G'|]. cbn. unfold splice. apply in_or_app. right. left. reflexivity.
Qed.

Lemma shrink_list_more f d s keep best : shaped d (lower s) -> shaped d (upper s) -> admissible d s best ->
  forall ps i new, (forall p, In p ps -> admissible d s p) ->
  exists ps' ex, shrink_list f (more s new) keep best i ps (map f ps) = (ps', map f ps', more s (ex ++ new)) /\
    length ps' = length ps /\
    (forall j, (j < length ps)%nat ->
       nth j ps' [] = if (i + j =? keep)%nat then nth j ps [] else vscale (1 / 2) (vplus (nth j ps []) best)) /\
    length ex = (length ps - (if ((i <=? keep) && (keep <? i + length ps))%nat then 1 else 0))%nat /\
    (forall p, In p ex -> In p ps') /\
    (forall p, In p ps' -> admissible d s p) /\
    (forall j, (j < length ps)%nat -> (i + j)%nat <> keep -> In (nth j ps' []) ex).
Proof.
  intros Hlo Hhi [Hb1 Hb2]. induction ps as [|p ps IH]; intros i new Hps.
  - exists [], []. cbn. repeat split; auto; try (intros; lia); try tauto.
  - cbn [map shrink_list]. destruct (Nat.eqb_spec i keep) as [->|Hne].
    + destruct (IH (S keep) new) as (ps' & ex & E & L & N & Lx & Ax & Ap & Ix); [intros; apply Hps; right; auto|].
      exists (p :: ps'), ex. rewrite E. split; [reflexivity|]. split; [cbn; lia|]. split; [|split; [|split; [|split]]].
      * intros [|j] Hj; cbn in Hj |- *.
        -- rewrite Nat.add_0_r, Nat.eqb_refl. reflexivity.
        -- rewrite N by lia. replace (S keep + j)%nat with (keep + S j)%nat by lia. reflexivity.
      * rewrite Lx. cbn [length].
        replace ((S keep <=? keep)%nat) with false by (symmetry; apply Nat.leb_gt; lia).
        replace ((keep <=? keep)%nat && (keep <? keep + S (length ps))%nat) with true by
          (symmetry; apply andb_true_iff; split; [apply Nat.leb_le|apply Nat.ltb_lt]; lia).
        cbn [andb]. lia.
      * intros q Hq. right. apply Ax, Hq.
      * intros q [<-|Hq]; [apply Hps; left; auto|apply Ap, Hq].
      * intros [|j] Hj Hn; [lia|]. cbn in Hj |- *. apply Ix; lia.
    + rewrite evaluate_more.
      destruct (Hps p (or_introl eq_refl)) as [Hp1 Hp2].
      assert (Hq : admissible d s (vscale (1 / 2) (vplus p best))).
      { split; [unfold vscale, vplus; rewrite map_length, vmap2_length; lia|].
        eapply mid_within; eauto. }
      replace (is_feasible s (vscale (1 / 2) (vplus p best))) with true.
      2:{ symmetry. destruct Hq as [Hq1 Hq2]. apply (feasible_within s _ d Hq1 Hlo Hhi), Hq2. }
      set (q := vscale (1 / 2) (vplus p best)) in *.
      destruct (IH (S i) (q :: new)) as (ps' & ex & E & L & N & Lx & Ax & Ap & Ix); [intros; apply Hps; right; auto|].
      exists (q :: ps'), (ex ++ [q]). rewrite E. split; [rewrite <- app_assoc; reflexivity|].
      split; [cbn; lia|]. split; [|split; [|split; [|split]]].
      * intros [|j] Hj; cbn in Hj |- *.
        -- rewrite Nat.add_0_r. destruct (Nat.eqb_spec i keep); [contradiction|reflexivity].
        -- rewrite N by lia. replace (S i + j)%nat with (i + S j)%nat by lia. reflexivity.
      * rewrite app_length, Lx. cbn [length].
        replace ((i <=? keep)%nat && (keep <? i + S (length ps))%nat)
          with ((S i <=? keep)%nat && (keep <? S i + length ps)%nat).
        -- destruct ((S i <=? keep)%nat && (keep <? S i + length ps)%nat) eqn:Eb; [|lia].
           apply andb_true_iff in Eb as [E1 E2]. apply Nat.leb_le in E1. apply Nat.ltb_lt in E2. lia.
        -- apply eq_true_iff_eq. rewrite !andb_true_iff, !Nat.leb_le, !Nat.ltb_lt. lia.
      * intros q' Hin. apply in_app_or in Hin as [Hin|[<-|[]]]; [right; auto|left; auto].
      * intros q' [<-|Hin]; auto.
      * intros [|j] Hj Hn; cbn in Hj |- *; apply in_or_app; [right; left; reflexivity|left].
        apply Ix; lia.
Qed.

Lemma shrink_good f d s new : good f d s -> (forall q, In q new -> admissible d s q) ->
  let s' := shrink f (more s new) in
  good f d s' /\ (exists ex, calls s' = ex ++ new ++ calls s /\ length ex = d /\
    forall q, In q ex -> In q (points s')) /\
  (forall i, (i < d + 1)%nat -> nth i (points s') [] =
     if (i =? arg_min (values s))%nat then nth i (points s) []
     else vscale (1 / 2) (vplus (nth i (points s) []) (nth (arg_min (values s)) (points s) []))) /\
  xle (smallest s') (smallest s).
Proof.
  intros G Hnew. cbn zeta. unfold shrink.
  replace (argmin (more s new)) with (Some (arg_min (values s))) by (symmetry; apply (g_amin _ _ _ G)).
  pose proof (amin_lt _ _ _ G) as Ha.
  assert (Hb : In (nth (arg_min (values s)) (points s) []) (points s)) by (apply nth_In; rewrite (g_len _ _ _ G); lia).
  assert (HA : forall p, In p (points s) -> admissible d s p).
  { intros p Hp. split; [apply (g_pl _ _ _ G _ Hp)|apply (g_in _ _ _ G _ Hp)]. }
  change (points (more s new)) with (points s). change (values (more s new)) with (values s).
  set (k := arg_min (values s)) in *.
  destruct (shrink_list_more f d s k (nth k (points s) []) (g_lo _ _ _ G) (g_hi _ _ _ G)
    (HA _ Hb) (points s) 0 new HA) as (ps' & ex & E & L & N & Lx & Ax & Ap & Ix).
  rewrite <- (g_vals _ _ _ G) in E. rewrite !E.
  assert (Lk : length ex = d).
  { rewrite Lx, (g_len _ _ _ G). replace ((0 <=? k)%nat && (k <? 0 + (d + 1))%nat) with true; [lia|].
    symmetry. apply andb_true_iff. split; [apply Nat.leb_le|apply Nat.ltb_lt]; lia. }
  assert (G' : good f d (with_values (more s (ex ++ new)) ps' (map f ps'))).
  { constructor; cbn [with_values more counted dims objective points values lower upper argmin argmax evals calls].
    - apply (g_dims _ _ _ G).
    - apply (g_pos _ _ _ G).
    - rewrite L. apply (g_len _ _ _ G).
    - intros q Hq. apply Ap, Hq.
    - apply (g_lo _ _ _ G).
    - apply (g_hi _ _ _ G).
    - reflexivity.
    - intros q Hq. apply Ap, Hq.
    - reflexivity.
    - reflexivity.
    - rewrite (g_evals _ _ _ G), !app_length. lia.
    - intros q Hq. apply in_app_or in Hq as [Hq|Hq]; [|apply (g_calls _ _ _ G _ Hq)].
      apply in_app_or in Hq as [Hq|Hq]; [apply Ap, Ax, Hq|apply Hnew, Hq].
    - intros q Hq. apply (In_nth _ _ []) in Hq as (j & Hj & <-). rewrite L in Hj.
      destruct (Nat.eq_dec j k) as [->|Hn].
      + rewrite N by lia. rewrite Nat.eqb_refl. apply in_or_app. right. apply (g_pts _ _ _ G), Hb.
      + apply in_or_app. left. apply in_or_app. left. apply Ix; [lia|exact Hn]. }
  split; [exact G'|]. split.
  - exists ex. cbn [with_values more counted calls points]. rewrite app_assoc.
    split; [reflexivity|split; [exact Lk|exact Ax]].
  - split.
    + intros i Hi. cbn [with_values points]. rewrite N by (rewrite (g_len _ _ _ G); lia). reflexivity.
    + assert (Hk : nth k ps' [] = nth k (points s) []).
      { rewrite N by (rewrite (g_len _ _ _ G); lia). rewrite Nat.eqb_refl. reflexivity. }
      assert (Hs : smallest s = f (nth k (points s) [])).
      { unfold smallest. fold k. rewrite (g_vals _ _ _ G).
        rewrite (nth_indep _ PInf (f [])) by (rewrite map_length, (g_len _ _ _ G); lia). apply map_nth. }
      rewrite Hs, <- Hk. eapply smallest_le; [exact G'|]. cbn. apply in_map. apply nth_In.
      rewrite L, (g_len _ _ _ G). lia.
Qed.
