From Verif Require Import Common ListLemmas CombinationsModel CombinationsSpec.
From Coq Require Import Sorted.

(* All increasing k-lists with elements in [lo, lo + m), lexicographically. *)
Fixpoint combs (m lo k : nat) : list (list nat) :=
  match k with
  | 0 => [[]]
  | S k' =>
      match m with
      | 0 => []
      | S m' => map (cons lo) (combs m' (S lo) k') ++ combs m' (S lo) k
      end
  end.

Lemma upd_app {A} (pre : list A) x y post :
  upd (length pre) y (pre ++ x :: post) = pre ++ y :: post.
Proof.
  unfold upd, splice. rewrite firstn_app_exact. cbn [app length].
  f_equal. f_equal.
  rewrite <- (skipn_skipn' (pre ++ x :: post) 1 (length pre)).
  now rewrite skipn_app_exact.
Qed.

Lemma nth_error_mid {A} (pre : list A) x post :
  nth_error (pre ++ x :: post) (length pre) = Some x.
Proof. rewrite nth_error_app2, Nat.sub_diag; auto. Qed.


Lemma carry_gen n k : forall tl pre x post,
  (forall j y, nth_error tl j = Some y -> n + (length pre + 1 + j) < S y + k) ->
  S x + k <= n + length pre ->
  comb_carry n k (length pre + 1 + length tl) (pre ++ x :: tl ++ post) =
  Ok (pre ++ S x :: map S tl ++ post, Some (length pre)).
Proof.
  intros tl. induction tl as [|y tl IH] using rev_ind; intros pre x post Hroll Hx.
  - cbn [length map app]. rewrite Nat.add_0_r, Nat.add_1_r. cbn [comb_carry].
    rewrite nth_error_mid, upd_app.
    replace (S x + k <=? n + length pre) with true by lia. reflexivity.
  - rewrite app_length in *. cbn [length] in *.
    replace (length pre + 1 + (length tl + 1)) with (S (length pre + 1 + length tl)) by lia.
    cbn [comb_carry].
    set (pre' := pre ++ x :: tl).
    assert (Lp : length pre' = length pre + 1 + length tl)
      by (unfold pre'; rewrite app_length; cbn [length]; lia).
    assert (E1 : pre ++ x :: (tl ++ [y]) ++ post = pre' ++ y :: post).
    { unfold pre'. rewrite <- !app_assoc. cbn [app]. reflexivity. }
    rewrite E1, <- Lp, nth_error_mid, upd_app.
    assert (HR : n + (length pre + 1 + length tl) < S y + k).
    { apply Hroll. rewrite nth_error_app2, Nat.sub_diag; auto. }
    replace (S y + k <=? n + length pre') with false by lia.
    rewrite Lp. unfold pre'. rewrite <- app_assoc. cbn [app].
    rewrite IH.
    + rewrite map_app, <- app_assoc. reflexivity.
    + intros j z Hj. apply Hroll. rewrite nth_error_app1; auto.
      apply nth_error_Some. congruence.
    + exact Hx.
Qed.

Lemma carry_all n k : forall tl post,
  (forall j y, nth_error tl j = Some y -> n + j < S y + k) ->
  comb_carry n k (length tl) (tl ++ post) = Ok (map S tl ++ post, None).
Proof.
  intros tl. induction tl as [|y tl IH] using rev_ind; intros post Hroll.
  - reflexivity.
  - rewrite app_length. cbn [length]. rewrite Nat.add_1_r. cbn [comb_carry].
    rewrite <- app_assoc. cbn [app]. rewrite nth_error_mid, upd_app.
    assert (HR : n + length tl < S y + k).
    { apply Hroll. rewrite nth_error_app2, Nat.sub_diag; auto. }
    replace (S y + k <=? n + length tl) with false by lia.
    rewrite IH.
    + rewrite map_app, <- app_assoc. reflexivity.
    + intros j z Hj. apply Hroll. rewrite nth_error_app1; auto.
      apply nth_error_Some. congruence.
Qed.

Lemma roll_gen : forall rest pre y,
  comb_roll (length rest) (S (length pre)) (pre ++ y :: rest) =
  Ok (pre ++ y :: seq (S y) (length rest)).
Proof.
  induction rest as [|z rest IH]; intros pre y.
  - reflexivity.
  - cbn [length comb_roll]. rewrite Nat.sub_succ, Nat.sub_0_r, nth_error_mid.
    unfold oguard.
    replace (S (length pre) <? length (pre ++ y :: z :: rest)) with true
      by (rewrite app_length; cbn [length]; lia).
    assert (E : pre ++ y :: z :: rest = (pre ++ [y]) ++ z :: rest)
      by (rewrite <- app_assoc; reflexivity).
    rewrite E.
    replace (S (length pre)) with (length (pre ++ [y])) by (rewrite app_length; cbn; lia).
    rewrite upd_app, IH. rewrite <- app_assoc. reflexivity.
Qed.

Definition mk n k idx := {| cn := n; ck := k; indices := idx; is_done := false |}.

Lemma seq_roll n k a t j y pre :
  k = pre + t -> a + t = n -> 
  nth_error (seq a t) j = Some y -> n + (pre + j) < S y + k.
Proof.
  intros Hk Hn H. rewrite nth_error_seq in H.
  destruct (Nat.ltb_spec j t); [|discriminate]. injection H as <-. lia.
Qed.

Lemma next_step n k pre x t :
  length pre + 1 + t = k -> S x + S t <= n ->
  comb_next (mk n k (pre ++ x :: seq (n - t) t)) =
  Ok (mk n k (pre ++ seq (S x) (S t))).
Proof.
  intros Hk Hx. unfold comb_next, mk. cbn [is_done cn ck indices].
  assert (C : comb_carry n k k (pre ++ x :: seq (n - t) t) =
              Ok (pre ++ S x :: map S (seq (n - t) t), Some (length pre))).
  { pose proof (carry_gen n k (seq (n - t) t) pre x []) as C.
    rewrite !app_nil_r, seq_length in C. rewrite Hk in C. apply C.
    - intros j y Hj. apply (seq_roll n k (n - t) t j y (length pre + 1)); auto; lia.
    - lia. }
  rewrite C. cbn [obind].
  replace (k - S (length pre)) with (length (map S (seq (n - t) t)))
    by (rewrite map_length, seq_length; lia).
  rewrite roll_gen. cbn [obind]. rewrite map_length, seq_length. reflexivity.
Qed.

Lemma next_last n k : k <= n ->
  exists idx, comb_next (mk n k (seq (n - k) k)) =
  Ok {| cn := n; ck := k; indices := idx; is_done := true |}.
Proof.
  intros Hk. unfold comb_next, mk. cbn [is_done cn ck indices].
  pose proof (carry_all n k (seq (n - k) k) []) as C.
  rewrite !app_nil_r, seq_length in C. rewrite C.
  - cbn [obind]. eexists. reflexivity.
  - intros j y Hj. pose proof (seq_roll n k (n - k) k j y 0). cbn in H. apply H; auto. lia.
Qed.

(* Consecutive combinations are linked by Next. *)
Inductive chain (n k : nat) : list (list nat) -> Prop :=
| chain_one : forall c, chain n k [c]
| chain_cons : forall c c' l,
    comb_next (mk n k c) = Ok (mk n k c') ->
    chain n k (c' :: l) -> chain n k (c :: c' :: l).

Lemma chain_app n k l1 c1 c2 l2 :
  chain n k (l1 ++ [c1]) -> chain n k (c2 :: l2) ->
  comb_next (mk n k c1) = Ok (mk n k c2) ->
  chain n k ((l1 ++ [c1]) ++ c2 :: l2).
Proof.
  induction l1 as [|a l1 IH]; intros H1 H2 HN.
  - cbn. constructor; auto.
  - cbn in *. destruct l1 as [|b l1].
    + cbn in *. inversion H1; subst. constructor; auto.
    + cbn in *. inversion H1; subst. constructor; auto.
Qed.

(* The list of combinations as a chain, with its first and last elements. *)
Lemma combs_chain n k : forall m lo j pre,
  lo + m = n -> j <= m -> length pre + j = k ->
  exists l l',
    map (app pre) (combs m lo j) = (pre ++ seq lo j) :: l /\
    map (app pre) (combs m lo j) = l' ++ [pre ++ seq (n - j) j] /\
    chain n k (map (app pre) (combs m lo j)).
Proof.
  induction m as [|m IH]; intros lo j pre Hn Hj Hk.
  - assert (j = 0) by lia. subst. exists [], []. cbn. repeat split; constructor.
  - destruct j as [|j].
    { exists [], []. cbn. repeat split; constructor. }
    cbn [combs]. rewrite map_app, map_map.
    destruct (IH (S lo) j (pre ++ [lo])) as (l1 & l1' & F1 & L1 & C1); [lia|lia| |].
    { rewrite app_length. cbn. lia. }
    assert (EM : map (fun x => pre ++ lo :: x) (combs m (S lo) j) =
                 map (app (pre ++ [lo])) (combs m (S lo) j)).
    { apply map_ext. intros x. now rewrite <- app_assoc. }
    rewrite EM.
    assert (EF : (pre ++ [lo]) ++ seq (S lo) j = pre ++ seq lo (S j))
      by now rewrite <- app_assoc.
    destruct (Nat.eq_dec j m) as [->|N].
    + (* only one combination is left *)
      assert (E0 : combs m (S lo) (S m) = []).
      { clear. generalize (S lo) as a. intros a.
        assert (G : forall m a j, m < j -> combs m a j = []).
        { clear. induction m as [|m IH]; intros a j Hj; destruct j; try lia; [reflexivity|].
          cbn [combs]. rewrite !IH by lia. reflexivity. }
        apply G. lia. }
      rewrite E0. cbn [map app]. rewrite app_nil_r.
      exists l1, l1'. rewrite EF in F1. split; [exact F1|]. split; [|exact C1].
      rewrite L1. f_equal. f_equal. rewrite <- app_assoc. cbn [app seq].
      replace (n - S m) with lo by lia. replace (n - m) with (S lo) by lia. reflexivity.
    + destruct (IH (S lo) (S j) pre) as (l2 & l2' & F2 & L2 & C2); [lia|lia|lia|].
      exists (l1 ++ map (app pre) (combs m (S lo) (S j))), 
             (map (app (pre ++ [lo])) (combs m (S lo) j) ++ l2').
      split; [|split].
      * rewrite F1, <- EF. reflexivity.
      * rewrite L2, app_assoc. reflexivity.
      * rewrite L1, F2. rewrite L1 in C1. rewrite F2 in C2.
        apply chain_app; auto.
        rewrite <- app_assoc. cbn [app]. rewrite next_step by lia. reflexivity.
Qed.

Lemma collect_chain n k : forall l c fuel last,
  chain n k (c :: l) -> (exists l', c :: l = l' ++ [last]) ->
  (exists idx, comb_next (mk n k last) =
     Ok {| cn := n; ck := k; indices := idx; is_done := true |}) ->
  length l + 1 < fuel ->
  comb_collect fuel (mk n k c) = Ok (c :: l).
Proof.
  induction l as [|c' l IH]; intros c fuel last HC (l' & HL) (idx & HN) HF.
  - destruct fuel as [|[|fuel]]; try (cbn in HF; lia).
    assert (c = last).
    { destruct l' as [|? [|? ?]]; cbn in HL; congruence. }
    subst. cbn [comb_collect is_done mk]. fold (mk n k last). rewrite HN. reflexivity.
  - destruct fuel as [|fuel]; [cbn in HF; lia|].
    inversion HC; subst.
    cbn [comb_collect is_done mk]. fold (mk n k c). rewrite H1. cbn [obind].
    rewrite (IH c' fuel last); auto.
    + destruct l' as [|a l']; cbn in HL; [congruence|].
      exists l'. congruence.
    + exists idx; exact HN.
    + cbn in HF. lia.
Qed.

Lemma combs_length : forall m lo k, length (combs m lo k) = binomial m k.
Proof.
  induction m as [|m IH]; intros lo [|k]; cbn [combs binomial]; auto.
  rewrite app_length, map_length, !IH. reflexivity.
Qed.

Lemma collect_all n k : k <= n ->
  comb_collect (S (binomial n k)) (comb_init n k) = Ok (combs n 0 k).
Proof.
  intros Hk.
  destruct (combs_chain n k n 0 k [] eq_refl Hk eq_refl) as (l & l' & F & L & C).
  assert (EI : map (app []) (combs n 0 k) = combs n 0 k) by apply map_id.
  rewrite EI in *. cbn [app] in *.
  assert (E0 : comb_init n k = mk n k (seq 0 k)).
  { unfold comb_init, mk. replace (n <? k) with false by lia. reflexivity. }
  assert (HL : length l + 1 = binomial n k).
  { rewrite <- (combs_length n 0 k), F. cbn. lia. }
  rewrite E0, F. rewrite F in C.
  apply collect_chain with (last := seq (n - k) k); auto.
  - exists l'. congruence.
  - apply next_last. exact Hk.
  - lia.
Qed.

Lemma binomial_zero : forall n k, n < k -> binomial n k = 0.
Proof.
  induction n as [|n IH]; intros [|k] H; cbn [binomial]; try lia.
  rewrite !IH by lia. reflexivity.
Qed.

Lemma collect_too_many n k : n < k ->
  comb_collect (S (binomial n k)) (comb_init n k) = Ok [] /\ combs n 0 k = [].
Proof.
  intros H. split.
  - unfold comb_init. replace (n <? k) with true by lia. reflexivity.
  - pose proof (combs_length n 0 k) as L. rewrite binomial_zero in L by exact H.
    now destruct (combs n 0 k).
Qed.

Lemma collect_combs n k :
  comb_collect (S (binomial n k)) (comb_init n k) = Ok (combs n 0 k).
Proof.
  destruct (Nat.le_gt_cases k n) as [H|H].
  - apply collect_all. exact H.
  - destruct (collect_too_many n k H) as [-> ->]. reflexivity.
Qed.

(* Characterisation of combs. *)
Definition increasing_from (lo : nat) (c : list nat) : Prop :=
  Forall (fun x => lo <= x) c /\
  forall i j x y, i < j -> nth_error c i = Some x -> nth_error c j = Some y -> x < y.

Lemma increasing_cons lo x c :
  increasing_from lo (x :: c) <-> lo <= x /\ increasing_from (S x) c.
Proof.
  split.
  - intros [F I]. inversion F; subst. split; [assumption|]. split.
    + apply Forall_forall. intros y Hy. apply In_nth_error in Hy as [j Hj].
      apply (I 0 (S j) x y); auto. lia.
    + intros i j a b Hij Ha Hb. apply (I (S i) (S j)); auto. lia.
  - intros [L [F I]]. split.
    + constructor; [assumption|]. eapply Forall_impl; [|exact F]. cbn. intros; lia.
    + intros [|i] [|j] a b Hij Ha Hb; try lia.
      * cbn in Ha, Hb. injection Ha as <-.
        apply nth_error_In in Hb. rewrite Forall_forall in F. apply F in Hb. lia.
      * apply (I i j); auto. lia.
Qed.

Lemma increasing_nil lo : increasing_from lo [].
Proof. split; [constructor|]. intros [|i] j x y _ H; discriminate. Qed.

Lemma in_combs : forall m lo k c,
  In c (combs m lo k) <->
  length c = k /\ Forall (fun x => x < lo + m) c /\ increasing_from lo c.
Proof.
  induction m as [|m IH]; intros lo [|k] c.
  - cbn. split.
    + intros [<-|[]]. split; [reflexivity|]. split; [constructor|apply increasing_nil].
    + intros (L & _). destruct c; [auto|discriminate].
  - cbn. split; [tauto|]. intros (L & F & I). destruct c as [|x c]; [discriminate|].
    apply increasing_cons in I as [I _]. inversion F; subst. lia.
  - cbn. split.
    + intros [<-|[]]. split; [reflexivity|]. split; [constructor|apply increasing_nil].
    + intros (L & _). destruct c; [auto|discriminate].
  - cbn [combs]. rewrite in_app_iff, in_map_iff. rewrite IH. split.
    + intros [(c' & <- & H)|(L & F & I)].
      * apply IH in H as (L & F & I). split; [cbn; lia|]. split.
        -- constructor; [lia|]. eapply Forall_impl; [|exact F]. cbn; intros; lia.
        -- apply increasing_cons. split; [lia|exact I].
      * split; [exact L|]. split.
        -- eapply Forall_impl; [|exact F]. cbn; intros; lia.
        -- destruct I as [F' I]. split; [|exact I].
           eapply Forall_impl; [|exact F']. cbn; intros; lia.
    + intros (L & F & I). destruct c as [|x c]; [discriminate|].
      apply increasing_cons in I as [Lx I]. inversion F; subst.
      destruct (Nat.eq_dec x lo) as [->|N].
      * left. exists c. split; [reflexivity|]. apply IH.
        split; [cbn in L; lia|]. split; [|exact I].
        eapply Forall_impl; [|eassumption]. cbn; intros; lia.
      * right. split; [exact L|]. split.
        -- constructor; [lia|]. eapply Forall_impl; [|eassumption]. cbn; intros; lia.
        -- apply increasing_cons. split; [lia|exact I].
Qed.

Lemma combs_sorted : forall m lo k, StronglySorted lex_lt (combs m lo k).
Proof.
  induction m as [|m IH]; intros lo [|k]; cbn [combs].
  - repeat constructor.
  - constructor.
  - repeat constructor.
  - assert (G : forall (l1 l2 : list (list nat)), StronglySorted lex_lt l1 ->
        StronglySorted lex_lt l2 ->
        (forall a b, In a l1 -> In b l2 -> lex_lt a b) -> StronglySorted lex_lt (l1 ++ l2)).
    { clear. induction l1 as [|a l1 IH]; intros l2 S1 S2 H; [exact S2|].
      inversion S1; subst. cbn. constructor.
      - apply IH; auto. intros; apply H; auto. now right.
      - apply Forall_app. split; [assumption|]. apply Forall_forall. intros b Hb.
        apply H; auto. now left. }
    apply G; [|apply IH|].
    + specialize (IH (S lo) k). clear -IH. induction (combs m (S lo) k) as [|a l IHl].
      * constructor.
      * inversion IH; subst. cbn. constructor; auto.
        apply Forall_map. eapply Forall_impl; [|eassumption].
        intros b Hb. now constructor 2.
    + intros a b Ha Hb. apply in_map_iff in Ha as (a' & <- & _).
      apply in_combs in Hb as (L & F & I). destruct b as [|y b]; [discriminate|].
      apply increasing_cons in I as [I _]. constructor. lia.
Qed.

Lemma lex_irrefl c : ~ lex_lt c c.
Proof. induction c as [|x c IH]; intros H; inversion H; subst; [lia|auto]. Qed.

Lemma sorted_nodup (l : list (list nat)) : StronglySorted lex_lt l -> NoDup l.
Proof.
  induction 1 as [|a l S IH F]; constructor; auto.
  intros H. rewrite Forall_forall in F. apply F in H. exact (lex_irrefl _ H).
Qed.

Lemma collect_spec n k :
  exists l, comb_collect (S (binomial n k)) (comb_init n k) = Ok l /\
    (forall c, In c l <-> is_combination n k c) /\
    NoDup l /\ StronglySorted lex_lt l /\ length l = binomial n k.
Proof.
  exists (combs n 0 k). split; [apply collect_combs|]. split.
  - intros c. rewrite in_combs. unfold is_combination, increasing_from. cbn [Nat.add].
    split; [tauto|]. intros (L & F & I). repeat split; auto.
    apply Forall_forall. intros; lia.
  - split; [apply sorted_nodup, combs_sorted|]. split; [apply combs_sorted|].
    apply combs_length.
Qed.

(* The loop does not depend on the fuel once it is large enough. *)
Lemma collect_more fuel : forall it l,
  comb_collect fuel it = Ok l -> forall fuel', fuel <= fuel' -> comb_collect fuel' it = Ok l.
Proof.
  induction fuel as [|fuel IH]; intros it l H fuel' HF; [discriminate|].
  destruct fuel' as [|fuel']; [lia|]. cbn [comb_collect] in *.
  destruct (is_done it); [exact H|].
  destruct (comb_next it) as [it'| |]; cbn [obind] in *; try discriminate.
  destruct (comb_collect fuel it') as [rest| |] eqn:E; cbn [obind] in *; try discriminate.
  rewrite (IH _ _ E) by lia. exact H.
Qed.

(* ---- table ---- *)
Lemma entry_ok {V} (values : list V) : forall idx,
  Forall (fun i => i < length values) idx ->
  exists e, comb_entry values idx = Ok e /\ selects values idx e.
Proof.
  induction idx as [|i idx IH]; intros F.
  - exists []. split; [reflexivity|constructor].
  - inversion F; subst. destruct (IH H2) as (e & E & S).
    cbn [comb_entry]. destruct (nth_error values i) as [v|] eqn:N.
    + rewrite E. exists (v :: e). split; [reflexivity|]. constructor; assumption.
    + apply nth_error_None in N. lia.
Qed.

Lemma table_of_collect {V} (values : list V) fuel : forall it l,
  comb_collect fuel it = Ok l ->
  Forall (Forall (fun i => i < length values)) l ->
  exists t, comb_table_loop fuel values it = Ok t /\ Forall2 (selects values) l t.
Proof.
  induction fuel as [|fuel IH]; intros it l H F; [discriminate|].
  cbn [comb_collect comb_table_loop] in *.
  destruct (is_done it).
  - injection H as <-. exists []. split; [reflexivity|constructor].
  - destruct (comb_next it) as [it'| |]; cbn [obind] in *; try discriminate.
    destruct (comb_collect fuel it') as [rest| |] eqn:E; cbn [obind] in *; try discriminate.
    injection H as <-. inversion F; subst.
    destruct (entry_ok values _ H1) as (e & Ee & Se). rewrite Ee. cbn [obind].
    destruct (IH _ _ E H2) as (t & Et & St). rewrite Et. cbn [obind].
    exists (e :: t). split; [reflexivity|]. constructor; assumption.
Qed.

Lemma table_spec {V} (values : list V) k :
  exists l t,
    build_combinations_table (S (binomial (length values) k)) values k = Ok t /\
    Forall2 (selects values) l t /\
    (forall c, In c l <-> is_combination (length values) k c) /\
    StronglySorted lex_lt l.
Proof.
  destruct (collect_spec (length values) k) as (l & E & I & _ & S & _).
  destruct (table_of_collect values _ _ _ E) as (t & Et & St).
  { apply Forall_forall. intros c Hc. apply I in Hc. apply Hc. }
  exists l, t. auto.
Qed.
