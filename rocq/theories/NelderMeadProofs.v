(* Proofs about the Nelder-Mead searcher: feasibility, indices, evaluation. *)
From Verif Require Import Common RealUtil ListLemmas NthLemmas NelderMeadModel NelderMeadSpec.
Local Open Scope R_scope.

(* ---- order on values ---- *)
Lemma xle_refl a : xle a a.
Proof. destruct a; cbn; [lra|exact I]. Qed.
Lemma xle_trans a b c : xle a b -> xle b c -> xle a c.
Proof. destruct a, b, c; cbn; try tauto; lra. Qed.
Lemma xle_total a b : xle a b \/ xle b a.
Proof. destruct a, b; cbn; try tauto. lra. Qed.
Lemma xle_antisym a b : xle a b -> xle b a -> a = b.
Proof. destruct a, b; cbn; try tauto. intros; f_equal; lra. Qed.
Lemma xltb_false a b : xltb a b = false <-> xle b a.
Proof.
  destruct a as [x|], b as [y|]; cbn; try (split; try discriminate; tauto).
  destruct (Rltb_spec x y); split; try discriminate; try tauto; lra.
Qed.
Lemma xltb_true a b : xltb a b = true -> xle a b.
Proof.
  destruct a as [x|], b as [y|]; cbn; try discriminate; try tauto.
  destruct (Rltb_spec x y); [lra|discriminate].
Qed.
Lemma xltb_fin a b : xltb a b = true -> exists x, a = Fin x.
Proof. destruct a; cbn; [eauto|discriminate]. Qed.

(* ---- lists ---- *)
Lemma vmap2_length {A B C} (f : A -> B -> C) a b : length a = length b -> length (vmap2 f a b) = length a.
Proof. revert b; induction a; intros [|y b]; cbn; intros; try lia. rewrite IHa; lia. Qed.
Lemma vmap2_nth {A B C} (f : A -> B -> C) a b i da db dc :
  (i < length a)%nat -> length a = length b ->
  nth i (vmap2 f a b) dc = f (nth i a da) (nth i b db).
Proof.
  revert b i; induction a; intros [|y b] i; cbn; intros; try lia.
  destruct i; auto. apply IHa; lia.
Qed.
Lemma nth_splice_one {A} i j (x : A) l d :
  (j < length l)%nat -> nth i (splice j [x] l) d = if (i =? j)%nat then x else nth i l d.
Proof.
  intros Hj. unfold splice. cbn [length]. destruct (Nat.eqb_spec i j) as [->|Hn].
  - rewrite app_nth2; rewrite firstn_length, Nat.min_l by lia; [|lia].
    replace (j - j)%nat with 0%nat by lia. reflexivity.
  - destruct (Nat.lt_ge_cases i j).
    + rewrite app_nth1 by (rewrite firstn_length; lia). rewrite nth_firstn by lia. reflexivity.
    + rewrite app_nth2; rewrite firstn_length, Nat.min_l by lia; [|lia].
      rewrite app_nth2 by (cbn; lia). cbn [length]. rewrite nth_skipn.
      f_equal. lia.
Qed.
Lemma splice_one_length {A} j (x : A) l : (j < length l)%nat -> length (splice j [x] l) = length l.
Proof. intros. apply length_splice. cbn. lia. Qed.

(* ---- indices of the extreme values ---- *)
Lemma arg_first_lt better i best v l : (best < i)%nat -> (arg_first better i best v l < i + length l)%nat.
Proof.
  revert i best v. induction l as [|x l IH]; cbn; intros; [lia|].
  destruct (better x v); [specialize (IH (S i) i x)|specialize (IH (S i) best v)]; lia.
Qed.
Lemma arg_max_gen l : forall pre best v, (best < length pre)%nat -> nth best pre PInf = v ->
  (forall w, In w pre -> xle w v) ->
  let i := arg_first (fun a b => xltb b a) (length pre) best v l in
  (i < length (pre ++ l))%nat /\ forall w, In w (pre ++ l) -> xle w (nth i (pre ++ l) PInf).
Proof.
  induction l as [|x l IH]; cbn [arg_first]; intros pre best v Hb Hv Hm.
  - rewrite app_nil_r. split; [lia|]. intros w Hw. rewrite Hv. auto.
  - replace (pre ++ x :: l) with ((pre ++ [x]) ++ l) by (rewrite <- app_assoc; reflexivity).
    replace (S (length pre)) with (length (pre ++ [x])) by (rewrite app_length; cbn; lia).
    destruct (xltb v x) eqn:E.
    + apply IH.
      * rewrite app_length; cbn; lia.
      * rewrite app_nth2, Nat.sub_diag by lia. reflexivity.
      * intros w Hw. apply in_app_or in Hw as [Hw|[->|[]]]; [|apply xle_refl].
        eapply xle_trans; [apply Hm, Hw|]. apply xltb_true, E.
    + apply IH.
      * rewrite app_length; cbn; lia.
      * rewrite app_nth1 by lia. exact Hv.
      * intros w Hw. apply in_app_or in Hw as [Hw|[->|[]]]; [apply Hm, Hw|].
        apply xltb_false, E.
Qed.
Lemma arg_max_ok l : l <> [] ->
  (arg_max l < length l)%nat /\ forall w, In w l -> xle w (nth (arg_max l) l PInf).
Proof.
  destruct l as [|x l]; [congruence|]. intros _.
  apply (arg_max_gen l [x] 0 x); cbn; try lia; auto.
  intros w [->|[]]. apply xle_refl.
Qed.
Lemma arg_min_gen l : forall pre best v, (best < length pre)%nat -> nth best pre PInf = v ->
  (forall w, In w pre -> xle v w) ->
  let i := arg_first xltb (length pre) best v l in
  (i < length (pre ++ l))%nat /\ forall w, In w (pre ++ l) -> xle (nth i (pre ++ l) PInf) w.
Proof.
  induction l as [|x l IH]; cbn [arg_first]; intros pre best v Hb Hv Hm.
  - rewrite app_nil_r. split; [lia|]. intros w Hw. rewrite Hv. auto.
  - replace (pre ++ x :: l) with ((pre ++ [x]) ++ l) by (rewrite <- app_assoc; reflexivity).
    replace (S (length pre)) with (length (pre ++ [x])) by (rewrite app_length; cbn; lia).
    destruct (xltb x v) eqn:E.
    + apply IH.
      * rewrite app_length; cbn; lia.
      * rewrite app_nth2, Nat.sub_diag by lia. reflexivity.
      * intros w Hw. apply in_app_or in Hw as [Hw|[->|[]]]; [|apply xle_refl].
        eapply xle_trans; [|apply Hm, Hw]. apply xltb_true, E.
    + apply IH.
      * rewrite app_length; cbn; lia.
      * rewrite app_nth1 by lia. exact Hv.
      * intros w Hw. apply in_app_or in Hw as [Hw|[->|[]]]; [apply Hm, Hw|].
        apply xltb_false, E.
Qed.
Lemma arg_min_ok l : l <> [] ->
  (arg_min l < length l)%nat /\ forall w, In w l -> xle (nth (arg_min l) l PInf) w.
Proof.
  destruct l as [|x l]; [congruence|]. intros _.
  apply (arg_min_gen l [x] 0 x); cbn; try lia; auto.
  intros w [->|[]]. apply xle_refl.
Qed.

(* Replacing the largest of at least two values does not raise the smallest. *)
Lemma min_replace l v : (2 <= length l)%nat ->
  exists w, In w (splice (arg_max l) [v] l) /\ xle w (nth (arg_min l) l PInf).
Proof.
  intros Hl. assert (Hne : l <> []) by (destruct l; cbn in Hl; [lia|congruence]).
  destruct (arg_max_ok l Hne) as [Hi Hmax]. destruct (arg_min_ok l Hne) as [Hj Hmin].
  assert (Hk : exists k, (k < length l)%nat /\ k <> arg_max l /\ xle (nth k l PInf) (nth (arg_min l) l PInf)).
  { destruct (Nat.eq_dec (arg_min l) (arg_max l)) as [E|E].
    - exists (if (arg_max l =? 0)%nat then 1%nat else 0%nat).
      destruct (Nat.eqb_spec (arg_max l) 0); (split; [lia|split; [lia|]]);
        (rewrite E; apply Hmax; apply nth_In; lia).
    - exists (arg_min l). split; [lia|split; [exact E|apply xle_refl]]. }
  destruct Hk as (k & Hk & Hne2 & Hle).
  exists (nth k l PInf). split; auto.
  replace (nth k l PInf) with (nth k (splice (arg_max l) [v] l) PInf).
  - apply nth_In. rewrite splice_one_length; auto.
  - rewrite nth_splice_one by auto. destruct (Nat.eqb_spec k (arg_max l)); [contradiction|reflexivity].
Qed.

(* ---- bounds ---- *)
Definition shaped (d : nat) (b : list (option R)) : Prop := b = [] \/ length b = d.
Definition consistent (lo hi : list (option R)) : Prop :=
  forall i l u, nth_error lo i = Some (Some l) -> nth_error hi i = Some (Some u) -> l <= u.
Lemma allb_above p lo : length lo = length p ->
  allb (vmap2 above p lo) = true <-> forall i l, nth_error lo i = Some (Some l) -> l <= nth i p 0.
Proof.
  revert lo; induction p as [|x p IH]; intros [|b lo] Hl; cbn in Hl; try lia.
  - cbn. split; auto. intros _ [|i] l; cbn; discriminate.
  - cbn [vmap2 allb forallb]. rewrite andb_true_iff. change (forallb (fun b0 => b0)) with allb.
    rewrite IH by lia. split.
    + intros [H1 H2] [|i] l; cbn; [|apply H2].
      intros [= ->]. cbn in H1. destruct (Rleb_spec l x); [auto|discriminate].
    + intros H. split; [|intros i l; apply (H (S i) l)].
      destruct b as [l|]; cbn; auto. apply Rleb_true, (H 0%nat l). reflexivity.
Qed.
Lemma allb_below p hi : length hi = length p ->
  allb (vmap2 below p hi) = true <-> forall i u, nth_error hi i = Some (Some u) -> nth i p 0 <= u.
Proof.
  revert hi; induction p as [|x p IH]; intros [|b lo] Hl; cbn in Hl; try lia.
  - cbn. split; auto. intros _ [|i] l; cbn; discriminate.
  - cbn [vmap2 allb forallb]. rewrite andb_true_iff. change (forallb (fun b0 => b0)) with allb.
    rewrite IH by lia. split.
    + intros [H1 H2] [|i] l; cbn; [|apply H2].
      intros [= ->]. cbn in H1. destruct (Rleb_spec x l); [auto|discriminate].
    + intros H. split; [|intros i l; apply (H (S i) l)].
      destruct b as [l|]; cbn; auto. apply Rleb_true, (H 0%nat l). reflexivity.
Qed.
Lemma nth_error_nil' {A} i (x : A) : nth_error [] i = Some x -> False.
Proof. destruct i; discriminate. Qed.
Lemma feasible_within s p d : length p = d -> shaped d (lower s) -> shaped d (upper s) ->
  is_feasible s p = true <-> within (lower s) (upper s) p.
Proof.
  intros Hp Hlo Hhi. unfold is_feasible, within. rewrite andb_true_iff.
  assert (A : (match upper s with [] => true | hi => allb (vmap2 below p hi) end) = true <->
              (forall i u, nth_error (upper s) i = Some (Some u) -> nth i p 0 <= u)).
  { destruct (upper s) as [|b hi] eqn:E.
    - split; auto. intros _ i u H. destruct (nth_error_nil' _ _ H).
    - apply allb_below. destruct Hhi as [Hhi|Hhi]; [discriminate|congruence]. }
  assert (B : (match lower s with [] => true | lo => allb (vmap2 above p lo) end) = true <->
              (forall i u, nth_error (lower s) i = Some (Some u) -> u <= nth i p 0)).
  { destruct (lower s) as [|b hi] eqn:E.
    - split; auto. intros _ i u H. destruct (nth_error_nil' _ _ H).
    - apply allb_above. destruct Hlo as [Hlo|Hlo]; [discriminate|congruence]. }
  rewrite A, B. tauto.
Qed.
Lemma allb_ordered hi lo : length hi = length lo -> allb (vmap2 ordered hi lo) = true -> consistent lo hi.
Proof.
  revert lo; induction hi as [|h hi IH]; intros [|b lo] Hl H; cbn in Hl; try lia.
  - intros i l u E. destruct (nth_error_nil' _ _ E).
  - cbn [vmap2 allb forallb] in H. rewrite andb_true_iff in H. destruct H as [H1 H2].
    intros [|i] l u; cbn; [|apply (IH lo); [lia|exact H2]].
    intros [= ->] [= ->]. cbn in H1. destruct (Rleb_spec l u); [auto|discriminate].
Qed.
Lemma clamp_within s p d : length p = d -> shaped d (lower s) -> shaped d (upper s) ->
  consistent (lower s) (upper s) -> length (clamp s p) = d /\ within (lower s) (upper s) (clamp s p).
Proof.
  intros Hp Hlo Hhi Hc. unfold clamp, within.
  assert (A : forall lo, shaped d lo ->
    length (match lo with [] => p | _ => vmap2 raise_to p lo end) = d /\
    (forall i, nth i (match lo with [] => p | _ => vmap2 raise_to p lo end) 0 >= nth i p 0 \/ (d <= i)%nat) /\
    (forall i l, nth_error lo i = Some (Some l) -> l <= nth i (match lo with [] => p | _ => vmap2 raise_to p lo end) 0)).
  { intros lo Hs. destruct lo as [|b lo].
    - split; auto. split; [left; lra|]. intros i l E. destruct (nth_error_nil' _ _ E).
    - destruct Hs as [Hs|Hs]; [discriminate|]. split; [rewrite vmap2_length; congruence|]. split.
      + intros i. destruct (Nat.lt_ge_cases i d); [left|right; lia].
        rewrite (vmap2_nth raise_to p (b :: lo) i 0 None 0) by congruence || lia.
        destruct (nth i (b :: lo) None) as [l|]; cbn; [|lra].
        pose proof (Rmax_l (nth i p 0) l); lra.
      + intros i l E. assert (i < d)%nat. { rewrite <- Hs. apply nth_error_Some. congruence. }
        rewrite (vmap2_nth raise_to p (b :: lo) i 0 None 0) by congruence || lia.
        rewrite (nth_error_nth _ _ _ E). cbn. apply Rmax_r. }
  destruct (A (lower s) Hlo) as (L1 & _ & L2).
  set (p1 := match lower s with [] => p | _ => vmap2 raise_to p (lower s) end) in *.
  assert (E1 : match lower s with [] => p | lo => vmap2 raise_to p lo end = p1) by (unfold p1; destruct (lower s); reflexivity).
  rewrite E1. clear E1.
  destruct (upper s) as [|b hi] eqn:E.
  - split; auto. split; auto. intros i u H. destruct (nth_error_nil' _ _ H).
  - destruct Hhi as [Hhi|Hhi]; [discriminate|].
    split; [rewrite vmap2_length; congruence|]. split.
    + intros i l El. assert (i < d)%nat.
      { destruct Hlo as [Hlo|Hlo]; [rewrite Hlo in El; destruct (nth_error_nil' _ _ El)|].
        rewrite <- Hlo. apply nth_error_Some. congruence. }
      rewrite (vmap2_nth lower_to p1 (b :: hi) i 0 None 0) by congruence || lia.
      destruct (nth i (b :: hi) None) as [u|] eqn:Eu; cbn; [|auto].
      apply Rmin_glb; auto. apply (Hc i l u El).
      rewrite (nth_error_nth' _ None) by lia. congruence.
    + intros i u Eu. assert (i < d)%nat. { rewrite <- Hhi. apply nth_error_Some. congruence. }
      rewrite (vmap2_nth lower_to p1 (b :: hi) i 0 None 0) by congruence || lia.
      rewrite (nth_error_nth _ _ _ Eu). cbn. apply Rmin_r.
Qed.
Lemma clamp_id s p d : length p = d -> shaped d (lower s) -> shaped d (upper s) ->
  within (lower s) (upper s) p -> clamp s p = p.
Proof.
  intros Hp Hlo Hhi [W1 W2]. unfold clamp.
  assert (E : match lower s with [] => p | lo => vmap2 raise_to p lo end = p).
  { destruct (lower s) as [|b lo] eqn:E; auto. destruct Hlo as [Hlo|Hlo]; [discriminate|].
    apply nth_ext with (d := 0) (d' := 0); [rewrite vmap2_length; congruence|].
    intros i Hi. rewrite vmap2_length in Hi by congruence.
    rewrite (vmap2_nth raise_to p (b :: lo) i 0 None 0) by congruence || lia.
    destruct (nth i (b :: lo) None) as [u|] eqn:Eu; cbn; auto.
    apply Rmax_left, W1. rewrite (nth_error_nth' _ None) by lia. congruence. }
  rewrite E. destruct (upper s) as [|b lo] eqn:E'; auto. destruct Hhi as [Hhi|Hhi]; [discriminate|].
  apply nth_ext with (d := 0) (d' := 0); [rewrite vmap2_length; congruence|].
  intros i Hi. rewrite vmap2_length in Hi by congruence.
  rewrite (vmap2_nth lower_to p (b :: lo) i 0 None 0) by congruence || lia.
  destruct (nth i (b :: lo) None) as [u|] eqn:Eu; cbn; auto.
  apply Rmin_left, W2. rewrite (nth_error_nth' _ None) by lia. congruence.
Qed.
Lemma mid_within lo hi p q d : length p = d -> length q = d -> shaped d lo -> shaped d hi ->
  within lo hi p -> within lo hi q -> within lo hi (vscale (1 / 2) (vplus p q)).
Proof.
  intros Hp Hq Hlo Hhi [P1 P2] [Q1 Q2].
  assert (N : forall i, (i < d)%nat -> nth i (vscale (1 / 2) (vplus p q)) 0 = (nth i p 0 + nth i q 0) / 2).
  { intros i Hi. unfold vscale, vplus. rewrite (nth_indep _ 0 (1 / 2 * 0)) by (rewrite map_length, vmap2_length; lia).
    rewrite map_nth, (vmap2_nth Rplus p q i 0 0 0) by lia. lra. }
  assert (HS : forall b i v, shaped d b -> nth_error b i = Some (Some v : option R) -> (i < d)%nat).
  { intros b i v [->|Hb] E; [destruct (nth_error_nil' _ _ E)|]. rewrite <- Hb. apply nth_error_Some. congruence. }
  split; intros i v E.
  - rewrite N by (apply (HS lo i v Hlo E)). specialize (P1 i v E). specialize (Q1 i v E). lra.
  - rewrite N by (apply (HS hi i v Hhi E)). specialize (P2 i v E). specialize (Q2 i v E). lra.
Qed.
