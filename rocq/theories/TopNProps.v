(* C18: BatchTopN returns the best N of what was pushed.  C55: TopNPeaks. *)
From Verif Require Import Common ListLemmas NthLemmas TopNModel TopNSpec TopNProofs.
From Coq Require Import Permutation.

(* Whatever sort and nth_element do within the C++ standard, for every strict weak order, every
   limit and every interleaving of Push, GetTopElements and Reset: no call goes out of bounds and
   each GetTopElements returns the best N of everything pushed since the last Reset. *)
Theorem C18_top_n : forall (A : Type) (default : A) gt sort nth_element n ops,
  strict_weak gt -> sorts sort -> selects nth_element -> 1 <= n ->
  exists t t' outs, topn_make default n = Ok t /\ run (topn_step default gt sort nth_element) t ops = Ok (t', outs) /\
    length outs = length ops /\
    forall k ys, nth_error outs k = Some (Some ys) -> top_of gt n (pushed (firstn k ops)) ys.
Proof.
  intros A default gt sort nth_element n ops HW HS HN Hn.
  destruct (make_inv default gt n Hn) as (t & E & L & I). destruct (run_inv default gt HW sort nth_element HS HN ops t [] [] I) as (t' & outs & ER & LO & T).
  exists t, t', outs. split; [exact E|]. split; [exact ER|]. split; [exact LO|]. intros k ys H. rewrite <- L. now apply T.
Qed.
Print Assumptions C18_top_n.

(* the answer does not depend on when the intermediate queries happened: any two answers for the
   same pushed elements are equal position by position up to ties *)
Theorem C18_unique : forall (A : Type) gt n (xs ys zs : list A) d i, strict_weak gt -> top_of gt n xs ys -> top_of gt n xs zs -> i < length ys ->
  gt (nth i ys d) (nth i zs d) = false.
Proof.
  intros A gt n xs ys zs d i HW (L1 & S1 & r1 & P1 & B1) (L2 & S2 & r2 & P2 & B2) Hi.
  (* at least i+1 elements of xs are >= ys[i]; position i of zs ++ r2 is >= everything from there on *)
  set (t := nth i ys d).
  assert (C : S i <= atleast gt t (zs ++ r2)).
  { rewrite <- (atleast_perm gt t _ _ P2), (atleast_perm gt t _ _ P1), atleast_app.
    rewrite <- (firstn_skipn (S i) ys), atleast_app. rewrite (atleast_all gt t (firstn (S i) ys)).
    - rewrite firstn_length. lia.
    - intros v Hv. apply (In_nth _ _ d) in Hv as (k & Hk & <-). rewrite firstn_length in Hk. rewrite nth_firstn by lia.
      destruct (Nat.eq_dec k i) as [->|N]; [apply HW|]. apply S1. lia. }
  assert (E : nth i (zs ++ r2) d = nth i zs d) by (apply app_nth1; lia). rewrite <- E.
  apply (select_bound gt HW d t (zs ++ r2) i); [rewrite app_length; lia|exact C|].
  intros j H1 H2. rewrite E. destruct (Nat.lt_ge_cases j (length zs)) as [H|H].
  - rewrite app_nth1 by exact H. destruct (Nat.eq_dec j i) as [->|N]; [apply HW|]. apply S2. lia.
  - rewrite app_nth2 by lia. rewrite app_length in H2. apply B2; apply nth_In; lia.
Qed.
Print Assumptions C18_unique.

(* a sort and a selection that meet the hypotheses *)
Fixpoint insert (gt : nat -> nat -> bool) (x : nat) (l : list nat) : list nat :=
  match l with [] => [x] | y :: r => if gt y x then y :: insert gt x r else x :: l end.
Fixpoint isort (gt : nat -> nat -> bool) (l : list nat) : list nat :=
  match l with [] => [] | x :: r => insert gt x (isort gt r) end.
Lemma insert_perm gt x l : Permutation (x :: l) (insert gt x l).
Proof.
  induction l as [|y r IH]; cbn; [reflexivity|]. destruct (gt y x); [|reflexivity].
  rewrite perm_swap. now apply perm_skip.
Qed.
Lemma isort_perm gt l : Permutation l (isort gt l).
Proof. induction l as [|x r IH]; cbn; [reflexivity|]. rewrite <- insert_perm. now apply perm_skip. Qed.
Fixpoint ordered (gt : nat -> nat -> bool) (l : list nat) : Prop := match l with [] => True | x :: r => (forall y, In y r -> gt y x = false) /\ ordered gt r end.
Lemma insert_ordered gt x l : strict_weak gt -> ordered gt l -> ordered gt (insert gt x l).
Proof.
  intros (H1 & H2 & H3). induction l as [|y r IH]; cbn [insert ordered]; [intros _; split; [intros ? []|exact I]|]. intros [HY HR]. destruct (gt y x) eqn:E; cbn.
  - split; [|now apply IH]. intros z Hz. apply (Permutation_in z (Permutation_sym (insert_perm gt x r))) in Hz as [<-|Hz]; [|now apply HY].
    destruct (gt x y) eqn:E2; [|reflexivity]. pose proof (H2 x y x E2 E) as E3. rewrite H1 in E3. discriminate.
  - split; [|auto]. intros z [<-|Hz]; [exact E|]. apply (H3 z y x); [now apply HY|exact E].
Qed.
Lemma isort_ordered gt l : strict_weak gt -> ordered gt (isort gt l).
Proof. intros H. induction l as [|x r IH]; cbn; [exact I|]. now apply insert_ordered. Qed.
Lemma ordered_nth gt l : ordered gt l -> forall i j, i < j < length l -> gt (nth j l 0) (nth i l 0) = false.
Proof.
  induction l as [|x r IH]; cbn [length ordered]; intros HO i j H; [lia|]. destruct HO as [HX HR]. destruct i as [|i]; destruct j as [|j]; try lia; cbn [nth].
  - apply HX, nth_In. lia.
  - apply IH; [exact HR|lia].
Qed.
Lemma isort_sorts : sorts isort.
Proof.
  intros gt l HW. split; [apply isort_perm|]. intros i j H. apply ordered_nth; [now apply isort_ordered|]. now rewrite <- (Permutation_length (isort_perm gt l)).
Qed.
Lemma isort_selects : selects (fun gt _ l => isort gt l).
Proof.
  intros gt k l HW _. split; [apply isort_perm|]. intros i j H1 H2. destruct (Nat.eq_dec i j) as [->|N]; [apply HW|].
  apply ordered_nth; [now apply isort_ordered|]. rewrite <- (Permutation_length (isort_perm gt l)). lia.
Qed.

Definition zgt (x y : Z) : bool := (y <? x)%Z.
Lemma zgt_weak : strict_weak zgt.
Proof. unfold zgt. repeat split; intros *; lia. Qed.
(* the documented example of the header, continued past a query, a prune and a Reset *)
Example C18_example :
  omap snd (obind (topn_make 0%Z 3) (fun t =>
    run (topn_step 0%Z zgt isort (fun gt _ l => isort gt l)) t
      ([Push 0; Push 99; Get; Push 1; Push 2; Push 3; Push 4; Get; Push 3; Push 50; Push 60; Push 70; Get; Reset; Push 5; Get]%Z)))
  = Ok [None; None; Some [99; 0]; None; None; None; None; Some [99; 4; 3]; None; None; None; None; Some [99; 70; 60]; None; None; Some [5]]%Z.
Proof. vm_compute. reflexivity. Qed.

(* ---- peaks ---- *)
(* doc: a peak is strictly greater than its left point and not smaller than its right point;
   without wrap-around the endpoints only have one neighbour, which they must exceed *)
Definition peak {B} (gtb geb : B -> B -> bool) (d : B) (c : list B) (i : nat) : Prop :=
  let at_ k := nth k c d in let n := length c in
  2 <= n /\ i < n /\
  (0 < i -> gtb (at_ i) (at_ (i - 1)) = true) /\
  (i = 0 -> gtb (at_ 0) (at_ 1) = true) /\
  (0 < i < n - 1 -> geb (at_ i) (at_ (i + 1)) = true).
Definition circular_peak {B} (gtb geb : B -> B -> bool) (d : B) (c : list B) (i : nat) : Prop :=
  let n := length c in 2 <= n /\ i < n /\
  gtb (nth i c d) (nth ((i + n - 1) mod n) c d) = true /\ geb (nth i c d) (nth ((i + 1) mod n) c d) = true.

Lemma peaks_run {B} (d : B) gtb geb sort nth_element periodic n (c : list B) : strict_weak gtb -> sorts sort -> selects nth_element -> 1 <= n -> 2 <= length c ->
  exists ys, top_n_peaks d gtb geb sort nth_element periodic n c = Ok ys /\
    top_of (fun i j => gtb (nth i c d) (nth j c d)) n (pushes d gtb geb periodic c) ys.
Proof.
  intros HW HS HN Hn Hc. unfold top_n_peaks. replace (length c <? 2) with false by (symmetry; apply Nat.ltb_ge; lia). cbv zeta.
  set (gt := fun i j => gtb (nth i c d) (nth j c d)).
  assert (HG : strict_weak gt) by (unfold gt; destruct HW as (H1 & H2 & H3); repeat split; intros *; [apply H1|apply H2|apply H3]).
  destruct (make_inv 0 gt n Hn) as (t & E & L & I). rewrite E. cbn [obind].
  assert (PA : forall l t xs rest, inv 0 gt t xs rest -> limit t = n -> exists t' rest', push_all nth_element gt t l = Ok t' /\ inv 0 gt t' (xs ++ l) rest' /\ limit t' = n).
  { induction l as [|x l IH]; intros t1 xs rest I1 L1; cbn [push_all].
    - rewrite app_nil_r. eauto.
    - destruct (push_inv 0 gt HG nth_element HN t1 xs rest x I1) as (t2 & r2 & E2 & L2 & I2). rewrite E2. cbn [obind].
      destruct (IH t2 _ _ I2 ltac:(lia)) as (t' & r' & E' & I' & L'). exists t', r'. rewrite <- app_assoc in I'. auto. }
  destruct (PA (pushes d gtb geb periodic c) t [] [] I L) as (t' & r' & E' & I' & L'). rewrite E'. cbn [obind]. eexists. split; [reflexivity|].
  destruct (get_inv 0 gt HG sort HS t' _ _ I') as (_ & _ & _ & T). rewrite L' in T. exact T.
Qed.

Lemma pushes_nodup {B} (d : B) gtb geb periodic (c : list B) : 2 <= length c -> NoDup (pushes d gtb geb periodic c).
Proof.
  intros H. unfold pushes. cbv zeta. set (n := length c) in *.
  assert (N1 : NoDup (filter (fun i => gtb (nth i c d) (nth (i - 1) c d) && geb (nth i c d) (nth (i + 1) c d)) (seq 1 (n - 2)))) by (apply NoDup_filter, seq_NoDup).
  assert (R1 : forall i, In i (filter (fun i => gtb (nth i c d) (nth (i - 1) c d) && geb (nth i c d) (nth (i + 1) c d)) (seq 1 (n - 2))) -> 1 <= i < n - 1) by (intros i Hi; apply filter_In in Hi as [Hi _]; apply in_seq in Hi; lia).
  revert N1 R1. generalize (filter (fun i => gtb (nth i c d) (nth (i - 1) c d) && geb (nth i c d) (nth (i + 1) c d)) (seq 1 (n - 2))). intros l N1 R1.
  induction N1 as [|x l NI N1 IH]; cbn [app].
  - destruct (_ && _); destruct (_ && _); cbn [app]; repeat constructor; cbn; intuition lia.
  - constructor; [|apply IH; intros; apply R1; now right]. specialize (R1 x (or_introl eq_refl)). intros Hx. apply in_app_or in Hx as [Hx|Hx]; [contradiction|].
    destruct (_ && _); destruct (_ && _); cbn [app In] in Hx; intuition lia.
Qed.

(* the N largest documented peaks, largest first; an array shorter than two has none *)
Theorem C55_peaks : forall (B : Type) (d : B) gtb geb sort nth_element n (c : list B),
  strict_weak gtb -> sorts sort -> selects nth_element -> 1 <= n ->
  exists ps ys, top_n_peaks d gtb geb sort nth_element false n c = Ok ys /\ NoDup ps /\
    (forall i, In i ps <-> peak gtb geb d c i) /\ top_of (fun i j => gtb (nth i c d) (nth j c d)) n ps ys.
Proof.
  intros B d gtb geb sort nth_element n c HW HS HN Hn. destruct (Nat.lt_ge_cases (length c) 2) as [L|L].
  - exists [], []. unfold top_n_peaks. replace (length c <? 2) with true by (symmetry; apply Nat.ltb_lt; lia). split; [reflexivity|]. split; [constructor|].
    split; [intros i; split; [intros []|intros (H & _); lia]|]. split; [cbn; lia|]. split; [cbn; intros; lia|].
    exists []. split; [constructor|]. intros y r [].
  - destruct (peaks_run d gtb geb sort nth_element false n c HW HS HN Hn L) as (ys & E & T). exists (pushes d gtb geb false c), ys.
    split; [exact E|]. split; [now apply pushes_nodup|]. split; [|exact T]. intros i. unfold pushes, peak. cbv zeta. cbn [negb orb]. rewrite !in_app_iff, filter_In, in_seq, andb_true_iff.
    set (m := length c) in *. split.
    + intros [[Hi [H1 H2]]|[H|H]].
      * repeat split; try lia; intros; assumption || lia.
      * destruct (gtb (nth 0 c d) (nth 1 c d)) eqn:E0; cbn [andb In] in H; [|contradiction]. destruct H as [<-|[]]. repeat split; try lia; intros; assumption || lia.
      * destruct (gtb (nth (m - 1) c d) (nth (m - 2) c d)) eqn:E0; cbn [andb In] in H; [|contradiction]. destruct H as [<-|[]].
        repeat split; try lia; intros; try lia. replace (m - 1 - 1) with (m - 2) by lia. exact E0.
    + intros (_ & Hi & H1 & H2 & H3). destruct (Nat.eq_dec i 0) as [->|N0].
      * right. left. rewrite (H2 eq_refl). now left.
      * destruct (Nat.eq_dec i (m - 1)) as [->|N1].
        -- right. right. replace (m - 1 - 1) with (m - 2) in H1 by lia. rewrite H1 by lia. now left.
        -- left. split; [lia|]. split; [apply H1; lia|apply H3; lia].
Qed.
Print Assumptions C55_peaks.

(* with wrap-around the code tests the endpoints the other way round (strictly greater than the
   RIGHT point of position 0): a maximum on a plateau that starts at position 0 is not found *)
Theorem C55_periodic_peaks_refuted : exists c : list Z, circular_peak zgt Z.geb 0%Z c 0 /\
  (forall i, i < length c -> (nth i c 0 <= nth 0 c 0)%Z) /\
  forall sort nth_element n, sorts sort -> selects nth_element -> 1 <= n -> top_n_peaks 0%Z zgt Z.geb sort nth_element true n c = Ok [].
Proof.
  exists [5; 5; 1]%Z. split; [split; [cbn; lia|]; split; [cbn; lia|]; split; reflexivity|]. split; [intros [|[|[|i]]] H; cbn in *; lia|].
  intros sort nth_element n HS HN Hn. destruct (peaks_run 0%Z zgt Z.geb sort nth_element true n [5; 5; 1]%Z zgt_weak HS HN Hn ltac:(cbn; lia)) as (ys & E & (L & _)).
  rewrite E. f_equal. change (pushes 0%Z zgt Z.geb true [5; 5; 1]%Z) with (@nil nat) in L. cbn in L. rewrite Nat.min_0_r in L. now destruct ys.
Qed.
Print Assumptions C55_periodic_peaks_refuted.

(* it is right when neither endpoint ties with a neighbour *)
Definition differ {B} (gtb : B -> B -> bool) (x y : B) : Prop := gtb x y = true \/ gtb y x = true.
Theorem C55_periodic_peaks_partial : forall (B : Type) (d : B) gtb geb sort nth_element n (c : list B),
  strict_weak gtb -> (forall x y, geb x y = negb (gtb y x)) -> sorts sort -> selects nth_element -> 1 <= n -> 2 <= length c ->
  differ gtb (nth 0 c d) (nth 1 c d) -> differ gtb (nth 0 c d) (nth (length c - 1) c d) -> differ gtb (nth (length c - 1) c d) (nth (length c - 2) c d) ->
  exists ps ys, top_n_peaks d gtb geb sort nth_element true n c = Ok ys /\ NoDup ps /\
    (forall i, In i ps <-> circular_peak gtb geb d c i) /\ top_of (fun i j => gtb (nth i c d) (nth j c d)) n ps ys.
Proof.
  intros B d gtb geb sort nth_element n c HW HG HS HN Hn L D1 D2 D3.
  destruct (peaks_run d gtb geb sort nth_element true n c HW HS HN Hn L) as (ys & E & T). exists (pushes d gtb geb true c), ys.
  split; [exact E|]. split; [now apply pushes_nodup|]. split; [|exact T]. intros i. unfold pushes, circular_peak. cbv zeta. cbn [negb orb]. rewrite !in_app_iff, filter_In, in_seq, andb_true_iff.
  set (m := length c) in *.
  assert (GE : forall x y, differ gtb x y -> geb x y = gtb x y).
  { intros x y H. rewrite HG. destruct HW as (H1 & H2 & _). destruct H as [H|H]; rewrite H; cbn.
    - destruct (gtb y x) eqn:E2; [|reflexivity]. pose proof (H2 _ _ _ H E2) as E3. rewrite H1 in E3. discriminate.
    - destruct (gtb x y) eqn:E2; [|reflexivity]. pose proof (H2 _ _ _ H E2) as E3. rewrite H1 in E3. discriminate. }
  assert (DS : forall x y, differ gtb x y -> differ gtb y x) by (intros x y [H|H]; [now right|now left]).
  assert (M1 : forall j, 1 <= j < m -> (j + m - 1) mod m = j - 1) by (intros j Hj; replace (j + m - 1) with (j - 1 + 1 * m) by lia; rewrite Nat.mod_add by lia; apply Nat.mod_small; lia).
  assert (M0 : (0 + m - 1) mod m = m - 1) by (apply Nat.mod_small; lia).
  assert (R1 : forall j, j < m - 1 -> (j + 1) mod m = j + 1) by (intros j Hj; apply Nat.mod_small; lia).
  assert (R0 : (m - 1 + 1) mod m = 0) by (replace (m - 1 + 1) with m by lia; apply Nat.mod_same; lia).
  rewrite (GE _ _ D2), (GE _ _ (DS _ _ D2)).
  assert (P0 : gtb (nth 0 c d) (nth 1 c d) = geb (nth 0 c d) (nth 1 c d)) by (symmetry; now apply GE).
  split.
  - intros [[Hi [H1 H2]]|[H|H]].
    + rewrite M1, R1 by lia. repeat split; try lia; assumption.
    + destruct (_ && _) eqn:E0 in H; cbn [In] in H; [|contradiction]. destruct H as [<-|[]]. apply andb_true_iff in E0 as [E1 E2]. rewrite M0, R1 by lia. change (0 + 1) with 1. rewrite <- P0. repeat split; try lia; assumption.
    + destruct (_ && _) eqn:E0 in H; cbn [In] in H; [|contradiction]. destruct H as [<-|[]]. apply andb_true_iff in E0 as [E1 E2]. rewrite M1, R0 by lia. replace (m - 1 - 1) with (m - 2) by lia.
      rewrite (GE _ _ (DS _ _ D2)). repeat split; try lia; assumption.
  - intros (_ & Hi & H1 & H2). destruct (Nat.eq_dec i 0) as [->|N0].
    + rewrite M0 in H1. rewrite R1 in H2 by lia. cbn [Nat.add] in H2. rewrite <- P0 in H2. right. left. rewrite H1, H2. now left.
    + rewrite M1 in H1 by lia. destruct (Nat.eq_dec i (m - 1)) as [->|N1].
      * rewrite R0, (GE _ _ (DS _ _ D2)) in H2. right. right. replace (m - 1 - 1) with (m - 2) in H1 by lia. rewrite H1, H2. now left.
      * rewrite R1 in H2 by lia. left. repeat split; assumption || lia.
Qed.
Print Assumptions C55_periodic_peaks_partial.

Example C55_example :
  top_n_peaks 0%Z zgt Z.geb isort (fun gt _ l => isort gt l) false 2 [3; 1; 4; 4; 1; 5; 2; 6]%Z = Ok [7; 5] /\
  top_n_peaks 0%Z zgt Z.geb isort (fun gt _ l => isort gt l) true 9 [3; 1; 4; 4; 1; 5; 2; 6]%Z = Ok [7; 5; 2].
Proof. vm_compute. split; reflexivity. Qed.
