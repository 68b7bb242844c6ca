From Verif Require Import Common ListLemmas NthLemmas TopNModel TopNSpec.
From Coq Require Import Permutation.

Section Order.
Context {A : Type} (gt : A -> A -> bool) (HW : strict_weak gt).
Lemma gt_irr x : gt x x = false. Proof. apply HW. Qed.
Lemma gt_neg_trans x y z : gt x y = false -> gt y z = false -> gt x z = false. Proof. apply HW. Qed.
(* a > b and c not > b give a > c *)
Lemma gt_le a b c : gt a b = true -> gt c b = false -> gt a c = true.
Proof.
  intros H1 H2. destruct (gt a c) eqn:E; [reflexivity|]. now rewrite (gt_neg_trans a c b E H2) in H1.
Qed.
Definition atleast (t : A) (l : list A) : nat := length (filter (fun v => negb (gt t v)) l).
Lemma atleast_perm t l l' : Permutation l l' -> atleast t l = atleast t l'.
Proof.
  intros H. unfold atleast. induction H; cbn; try reflexivity; try congruence.
  - destruct (negb (gt t x)); cbn; congruence.
  - destruct (negb (gt t x)), (negb (gt t y)); reflexivity.
Qed.
Lemma atleast_app t l l' : atleast t (l ++ l') = atleast t l + atleast t l'.
Proof. unfold atleast. now rewrite filter_app, app_length. Qed.
Lemma atleast_none t l : (forall v, In v l -> gt t v = true) -> atleast t l = 0.
Proof. intros H. unfold atleast. induction l as [|v l IH]; [reflexivity|]. cbn. rewrite (H v (or_introl eq_refl)). cbn. apply IH. intros; apply H; now right. Qed.
Lemma atleast_all t l : (forall v, In v l -> gt t v = false) -> atleast t l = length l.
Proof. intros H. unfold atleast. induction l as [|v l IH]; [reflexivity|]. cbn. rewrite (H v (or_introl eq_refl)). cbn. rewrite IH; [reflexivity|]. intros; apply H; now right. Qed.
Lemma atleast_le t l : atleast t l <= length l.
Proof. unfold atleast. induction l as [|v l IH]; cbn; [lia|]. destruct (negb (gt t v)); cbn; lia. Qed.

(* if at least k+1 elements are >= t, and position k is >= everything from there on, then position k is >= t *)
Lemma select_bound (d t : A) l k : k < length l -> S k <= atleast t l ->
  (forall j, k <= j -> j < length l -> gt (nth j l d) (nth k l d) = false) -> gt t (nth k l d) = false.
Proof.
  intros HK HC HJ. destruct (gt t (nth k l d)) eqn:E; [|reflexivity]. exfalso.
  rewrite <- (firstn_skipn k l), atleast_app in HC.
  assert (Z : atleast t (skipn k l) = 0).
  { apply atleast_none. intros v Hv. apply (In_nth _ _ d) in Hv as (j & Hj & <-). rewrite nth_skipn. rewrite skipn_length in Hj.
    apply (gt_le _ _ _ E). apply HJ; lia. }
  rewrite Z in HC. pose proof (atleast_le t (firstn k l)) as L. rewrite firstn_length in L. lia.
Qed.
End Order.

Section Proofs.
Context {A : Type} (default : A) (gt : A -> A -> bool) (HW : strict_weak gt).
Variables (sort : (nat -> nat -> bool) -> list nat -> list nat) (nth_element : (nat -> nat -> bool) -> nat -> list nat -> list nat).
Hypothesis Hsort : sorts sort.
Hypothesis Hnth : selects nth_element.
Notation el := (element default).
Notation push := (topn_push default gt nth_element).
Notation get := (topn_get default gt sort).

Definition vals (t : topn A) : list A := map (el t) (firstn (size t) (indices t)).

Record inv (t : topn A) (xs rest : list A) : Prop := {
  i_limit : 1 <= limit t;
  i_size : size t < 2 * limit t;
  i_elements : length (elements t) = 2 * limit t;
  i_indices : Permutation (indices t) (seq 0 (2 * limit t));
  i_perm : Permutation xs (vals t ++ rest);
  i_small : size t < limit t -> rest = [] /\ threshold t = None /\ Permutation (firstn (size t) (indices t)) (seq 0 (size t)) /\ skipn (size t) (indices t) = seq (size t) (2 * limit t - size t);
  i_large : limit t <= size t -> exists th, threshold t = Some th /\ In th (firstn (size t) (indices t)) /\ (forall r, In r rest -> gt r (el t th) = false) /\ limit t <= atleast gt (el t th) (vals t) }.

Lemma index_weak t : strict_weak (index_gt default gt t).
Proof. unfold index_gt. destruct HW as (H1 & H2 & H3). split; [|split]; intros *; [apply H1|apply H2|apply H3]. Qed.

Lemma indices_length t xs rest : inv t xs rest -> length (indices t) = 2 * limit t.
Proof. intros I. rewrite (Permutation_length (i_indices _ _ _ I)). apply seq_length. Qed.

Lemma make_inv n : 1 <= n -> exists t, topn_make default n = Ok t /\ limit t = n /\ inv t [] [].
Proof.
  intros H. unfold topn_make. replace (1 <=? n) with true by (symmetry; apply Nat.leb_le; lia). eexists. split; [reflexivity|]. split; [reflexivity|].
  unfold topn_reset. cbn [limit]. constructor; cbn [limit size elements indices threshold vals firstn map]; try lia.
  - apply repeat_length.
  - apply Permutation_refl.
  - apply Permutation_refl.
  - intros _. rewrite Nat.sub_0_r. repeat split. constructor.
Qed.
Lemma reset_inv t xs rest : inv t xs rest -> inv (topn_reset t) [] [].
Proof.
  intros I. pose proof (i_limit _ _ _ I). constructor; cbn [topn_reset limit size elements indices threshold vals firstn map]; try lia.
  - apply (i_elements _ _ _ I).
  - apply Permutation_refl.
  - apply Permutation_refl.
  - intros _. rewrite Nat.sub_0_r. repeat split. constructor.
Qed.

(* partitioning the live indices around position limit - 1 *)
Lemma partition_inv t xs rest l : limit t <= size t <= 2 * limit t -> 1 <= limit t -> length (elements t) = 2 * limit t ->
  Permutation (indices t) (seq 0 (2 * limit t)) -> Permutation xs (vals t ++ rest) ->
  (exists th, (forall r, In r rest -> gt r (el t th) = false) /\ limit t <= atleast gt (el t th) (vals t)) ->
  Permutation (firstn (size t) (indices t)) l ->
  (forall i j, i <= limit t - 1 <= j -> j < size t -> gt (el t (nth j l 0)) (el t (nth i l 0)) = false) ->
  let l' := l ++ skipn (size t) (indices t) in
  let t' := {| limit := limit t; elements := elements t; indices := l'; threshold := Some (nth (limit t - 1) l' 0); size := limit t |} in
  exists rest', inv t' xs rest' /\ vals t' = map (el t) (firstn (limit t) l) /\ (forall y r, In y (vals t') -> In r rest' -> gt r y = false).
Proof.
  intros HS HL HE HI HP (th & HT & HC) PL HJ l' t'.
  assert (LL : length l = size t).
  { rewrite <- (Permutation_length PL), firstn_length. rewrite (Permutation_length HI), seq_length. lia. }
  assert (PI' : Permutation l' (seq 0 (2 * limit t))).
  { unfold l'. rewrite <- HI. rewrite <- (firstn_skipn (size t) (indices t)) at 2. apply Permutation_app_tail. now symmetry. }
  assert (FL : firstn (limit t) l' = firstn (limit t) l).
  { unfold l'. rewrite firstn_app, LL. replace (limit t - size t) with 0 by lia. rewrite firstn_O. apply app_nil_r. }
  assert (NL : nth (limit t - 1) l' 0 = nth (limit t - 1) l 0) by (unfold l'; apply app_nth1; lia).
  assert (EV : vals t' = map (el t) (firstn (limit t) l)) by (unfold vals, t'; cbn [size indices]; rewrite FL; reflexivity).
  assert (PV : Permutation (vals t) (map (el t) l)) by (unfold vals; now apply Permutation_map).
  set (k := limit t - 1) in *. set (m := map (el t) l).
  assert (MN : forall j, j < size t -> nth j m default = el t (nth j l 0)).
  { intros j Hj. unfold m. rewrite (nth_indep _ default (el t 0)) by (rewrite map_length; lia). apply map_nth. }
  assert (TH : gt (el t th) (el t (nth k l 0)) = false).
  { rewrite <- MN by lia. apply select_bound; [exact HW| | |].
    - unfold m. rewrite map_length. lia.
    - unfold m. rewrite <- (atleast_perm gt _ _ _ PV). lia.
    - intros j H1 H2. unfold m in H2. rewrite map_length in H2. rewrite !MN by lia. apply HJ; lia. }
  exists (map (el t) (skipn (limit t) l) ++ rest). 
  assert (BND : forall y, In y (vals t') -> gt (el t (nth k l 0)) y = false).
  { rewrite EV. intros y Hy. apply in_map_iff in Hy as (i & <- & Hi). apply (In_nth _ _ 0) in Hi as (n & Hn & <-). rewrite firstn_length in Hn.
    rewrite nth_firstn by lia. apply HJ; lia. }
  assert (RB : forall r, In r (map (el t) (skipn (limit t) l) ++ rest) -> gt r (el t (nth k l 0)) = false).
  { intros r Hr. apply in_app_or in Hr as [Hr|Hr].
    - apply in_map_iff in Hr as (i & <- & Hi). apply (In_nth _ _ 0) in Hi as (n & Hn & <-). rewrite skipn_length in Hn. rewrite nth_skipn. apply HJ; lia.
    - apply (gt_neg_trans gt HW _ (el t th)); [now apply HT|exact TH]. }
  split; [|split; [exact EV|]].
  - constructor; try (cbn [t' limit size]; lia); try assumption.
    + rewrite HP, PV, EV, app_assoc, <- map_app, firstn_skipn. reflexivity.
    + intros _. exists (nth k l 0). cbn [t' threshold size indices limit]. rewrite NL. split; [reflexivity|]. split.
      * rewrite FL. rewrite <- (nth_firstn 0 (limit t) k l) by lia. apply nth_In. rewrite firstn_length. lia.
      * split; [exact RB|]. change (el t' (nth k l 0)) with (el t (nth k l 0)). fold t'. rewrite (atleast_all gt _ (vals t') BND).
        rewrite EV, map_length, firstn_length. lia.
  - intros y r Hy Hr. apply (gt_neg_trans gt HW _ (el t (nth k l 0))); [now apply RB|now apply BND].
Qed.

Lemma find_threshold_spec t : 1 <= limit t -> find_threshold default gt t < limit t /\
  forall i, i < limit t -> gt (el t (find_threshold default gt t)) (el t i) = false.
Proof.
  intros HL. unfold find_threshold.
  assert (G : forall m k b, b < k -> (forall i, i < k -> gt (el t b) (el t i) = false) ->
    let r := fold_left (fun best i => if gt (el t best) (el t i) then i else best) (seq k m) b in
    r < k + m /\ forall i, i < k + m -> gt (el t r) (el t i) = false).
  { induction m as [|m IH]; intros k b Hb H; cbn [seq fold_left].
    - cbn. rewrite Nat.add_0_r. auto.
    - replace (k + S m) with (S k + m) by lia. apply IH.
      + destruct (gt (el t b) (el t k)); lia.
      + intros i Hi. destruct (gt (el t b) (el t k)) eqn:E.
        * destruct (Nat.eq_dec i k) as [->|N]; [apply (gt_irr gt HW)|].
          destruct (gt (el t k) (el t i)) eqn:E2; [|reflexivity].
          assert (E3 : gt (el t b) (el t i) = true) by (apply HW with (el t k); assumption).
          rewrite H in E3 by lia. discriminate.
        * destruct (Nat.eq_dec i k) as [->|N]; [exact E|]. apply H. lia. }
  specialize (G (limit t - 1) 1 0 ltac:(lia)). replace (1 + (limit t - 1)) with (limit t) in G by lia. apply G.
  intros i Hi. replace i with 0 by lia. apply (gt_irr gt HW).
Qed.

Lemma small_vals t xs rest : inv t xs rest -> length (vals t) = size t.
Proof. intros I. unfold vals. rewrite map_length, firstn_length, (indices_length _ _ _ I). pose proof (i_size _ _ _ I). lia. Qed.

Lemma push_inv t xs rest v : inv t xs rest -> exists t' rest', push t v = Ok t' /\ limit t' = limit t /\ inv t' (xs ++ [v]) rest'.
Proof.
  intros I. unfold topn_push.
  pose proof (i_limit _ _ _ I) as HL. pose proof (i_size _ _ _ I) as HS. pose proof (indices_length _ _ _ I) as LI.
  destruct (match threshold t with None => true | Some i => gt v (el t i) end) eqn:EA.
  2:{ exists t, (rest ++ [v]). split; [reflexivity|]. split; [reflexivity|]. destruct I as [I1 I2 I3 I4 I5 I6 I7]. constructor; try assumption.
      - rewrite app_assoc. now apply Permutation_app_tail.
      - intros H. destruct (I6 H) as (_ & E & _). rewrite E in EA. discriminate.
      - intros H. destruct (I7 H) as (th & E1 & E2 & E3 & E4). exists th. repeat split; try assumption.
        intros r Hr. apply in_app_or in Hr as [Hr|[<-|[]]]; [now apply E3|]. now rewrite E1 in EA. }
  replace (size t <? 2 * limit t) with true by (symmetry; apply Nat.ltb_lt; lia). cbn [oguard]. cbv zeta. cbn [size indices].
  set (p := nth (size t) (indices t) 0).
  assert (PN : NoDup (indices t)) by (apply (Permutation_NoDup (Permutation_sym (i_indices _ _ _ I))); apply seq_NoDup).
  assert (PB : p < 2 * limit t).
  { assert (In p (indices t)) by (apply nth_In; lia). apply (Permutation_in _ (i_indices _ _ _ I)) in H. apply in_seq in H. lia. }
  set (t1 := {| limit := limit t; elements := splice p [v] (elements t); indices := indices t; threshold := threshold t; size := S (size t) |}).
  assert (EP : el t1 p = v) by (unfold element, t1; cbn [elements]; apply nth_splice_same; rewrite (i_elements _ _ _ I); lia).
  assert (EO : forall i, i <> p -> el t1 i = el t i) by (intros i Hi; unfold element, t1; cbn [elements]; apply nth_splice_other; [rewrite (i_elements _ _ _ I); lia|exact Hi]).
  assert (NP : ~ In p (firstn (size t) (indices t))).
  { intros H. apply (In_nth _ _ 0) in H as (k & Hk & EK). rewrite firstn_length in Hk. rewrite nth_firstn in EK by lia.
    apply (proj1 (NoDup_nth (indices t) 0) PN k (size t)) in EK; lia. }
  assert (EI : forall i, In i (firstn (size t) (indices t)) -> el t1 i = el t i) by (intros i Hi; apply EO; intros ->; contradiction).
  assert (V1 : vals t1 = vals t ++ [v]).
  { unfold vals. cbn [size indices t1]. rewrite (firstn_S 0) by lia. rewrite map_app. cbn [map]. fold p. fold t1. rewrite EP. f_equal. now apply map_ext_in. }
  assert (LE1 : length (elements t1) = 2 * limit t) by (unfold t1; cbn [elements]; rewrite length_splice; rewrite (i_elements _ _ _ I); cbn; lia).
  assert (P1 : Permutation (xs ++ [v]) (vals t1 ++ rest)).
  { rewrite V1, <- app_assoc. rewrite (i_perm _ _ _ I) at 1. rewrite <- app_assoc. apply Permutation_app_head. apply Permutation_app_comm. }
  assert (LG : limit t <= size t -> exists th, threshold t1 = Some th /\ In th (firstn (size t) (indices t)) /\ (forall r, In r rest -> gt r (el t1 th) = false) /\ limit t <= atleast gt (el t1 th) (vals t1)).
  { intros H. destruct (i_large _ _ _ I H) as (th & E1 & E2 & E3 & E4). exists th. rewrite (EI th E2). repeat split; try assumption.
    rewrite V1, atleast_app. lia. }
  destruct (Nat.leb_spec (2 * limit t) (S (size t))) as [B|B].
  - destruct (LG ltac:(lia)) as (th & E1 & E2 & E3 & E4).
    set (l := nth_element (index_gt default gt t1) (limit t - 1) (firstn (S (size t)) (indices t))).
    assert (LF : length (firstn (S (size t)) (indices t)) = S (size t)) by (rewrite firstn_length; lia).
    destruct (Hnth (index_gt default gt t1) (limit t - 1) (firstn (S (size t)) (indices t)) (index_weak t1)) as [PL HJ]; [lia|].
    destruct (partition_inv t1 (xs ++ [v]) rest l) as (rest' & I' & _); cbn [t1 limit size indices]; try assumption; try lia.
    + apply (i_indices _ _ _ I).
    + exists th. split; assumption.
    + intros i j H1 H2. apply HJ; lia.
    + eexists _, rest'. split; [reflexivity|]. split; [reflexivity|]. exact I'.
  - destruct (Nat.eqb_spec (S (size t)) (limit t)) as [E|N].
    + destruct (i_small _ _ _ I ltac:(lia)) as (ER & ET & PS & SK). subst rest.
      eexists _, []. split; [reflexivity|]. split; [reflexivity|].
      destruct (find_threshold_spec t1 HL) as [F1 F2]. set (th := find_threshold default gt t1) in *.
      assert (PP : p = size t). { assert (H : nth 0 (skipn (size t) (indices t)) 0 = size t) by (rewrite SK; destruct (2 * limit t - size t) eqn:Z; [lia|reflexivity]). rewrite nth_skipn, Nat.add_0_r in H. exact H. }
      assert (PF : Permutation (firstn (S (size t)) (indices t)) (seq 0 (limit t))).
      { rewrite (firstn_S 0) by lia. fold p. rewrite PP. rewrite <- E. rewrite seq_S. cbn [Nat.add]. now apply Permutation_app_tail. }
      constructor; cbn [limit size elements indices threshold]; try lia; try assumption.
      * apply (i_indices _ _ _ I).
      * intros _. exists th. split; [reflexivity|]. split.
        -- apply (Permutation_in th (Permutation_sym PF)). apply in_seq. cbn [t1 limit] in F1. lia.
        -- split; [intros r []|]. change (vals _) with (vals t1). change (el _ th) with (el t1 th). rewrite atleast_all.
           ++ rewrite V1, app_length, (small_vals _ _ _ I). cbn. lia.
           ++ intros w Hw. unfold vals in Hw. apply in_map_iff in Hw as (i & <- & Hi). apply (Permutation_in i PF) in Hi. apply in_seq in Hi. apply F2. cbn [t1 limit]. lia.
    + exists t1, rest. split; [reflexivity|]. split; [reflexivity|]. constructor; cbn [t1 limit size elements indices threshold]; try lia; try assumption.
      * apply (i_indices _ _ _ I).
      * intros H. destruct (i_small _ _ _ I ltac:(lia)) as (ER & ET & PS & SK). split; [exact ER|]. split; [exact ET|].
        assert (PP : p = size t). { assert (HH : nth 0 (skipn (size t) (indices t)) 0 = size t) by (rewrite SK; destruct (2 * limit t - size t) eqn:Z; [lia|reflexivity]). rewrite nth_skipn, Nat.add_0_r in HH. exact HH. }
        split.
        -- rewrite (firstn_S 0) by lia. fold p. rewrite PP, seq_S. cbn [Nat.add]. now apply Permutation_app_tail.
        -- replace (S (size t)) with (size t + 1) by lia. rewrite <- skipn_skipn', SK.
           replace (2 * limit t - size t) with (S (2 * limit t - (size t + 1))) by lia. cbn [seq skipn]. f_equal. lia.
      * intros H. destruct (LG ltac:(lia)) as (th & E1 & E2 & E3 & E4). exists th. repeat split; try assumption.
        rewrite (firstn_S 0) by lia. apply in_or_app. now left.
Qed.

Lemma get_inv t xs rest : inv t xs rest -> exists rest', inv (fst (get t)) xs rest' /\ limit (fst (get t)) = limit t /\ top_of gt (limit t) xs (snd (get t)).
Proof.
  intros I. pose proof (i_limit _ _ _ I) as HL. pose proof (i_size _ _ _ I) as HS. pose proof (indices_length _ _ _ I) as LI.
  set (f := firstn (size t) (indices t)). assert (LF : length f = size t) by (unfold f; rewrite firstn_length; lia).
  destruct (Hsort (index_gt default gt t) f (index_weak t)) as [PL HJ]. set (l := sort (index_gt default gt t) f) in *.
  assert (LL : length l = size t) by (rewrite <- (Permutation_length PL); exact LF).
  assert (SO : forall n, n <= size t -> forall d i j, i < j < n -> gt (nth j (map (el t) (firstn n l)) d) (nth i (map (el t) (firstn n l)) d) = false).
  { intros n Hn d i j Hij. assert (LN : length (firstn n l) = n) by (rewrite firstn_length; lia).
    rewrite !(nth_indep _ d (el t 0)) by (rewrite map_length; lia). rewrite !map_nth, !nth_firstn by lia. apply HJ. lia. }
  unfold topn_get. cbv zeta. fold f. fold l.
  destruct (Nat.leb_spec (limit t) (size t)) as [B|B].
  - destruct (i_large _ _ _ I B) as (th & E1 & E2 & E3 & E4).
    destruct (partition_inv t xs rest l) as (rest' & I' & EV & HR); try assumption; try lia; try apply I.
    + exists th. split; assumption.
    + intros i j H1 H2. destruct (Nat.eq_dec i j) as [->|N]; [apply (gt_irr gt HW)|]. apply HJ. lia.
    + exists rest'. cbn [fst snd]. split; [exact I'|]. split; [reflexivity|].
      assert (EV' := EV). unfold vals in EV'. cbn [size indices] in EV' |- *. rewrite EV'.
      split; [|split].
      * rewrite map_length, firstn_length. rewrite (Permutation_length (i_perm _ _ _ I)), app_length, (small_vals _ _ _ I). lia.
      * intros d i j Hij. rewrite map_length, firstn_length in Hij. apply SO; lia.
      * exists rest'. split; [rewrite <- EV; apply (i_perm _ _ _ I')|]. intros y r Hy. apply HR. now rewrite EV.
  - destruct (i_small _ _ _ I B) as (ER & ET & PS & SK). subst rest. exists []. cbn [fst snd limit].
    assert (FL : firstn (size t) (l ++ skipn (size t) (indices t)) = l) by (rewrite <- LL at 1; apply firstn_app_exact).
    assert (SL : skipn (size t) (l ++ skipn (size t) (indices t)) = skipn (size t) (indices t)) by (rewrite <- LL at 1; apply skipn_app_exact).
    assert (PX : Permutation xs (map (el t) l)).
    { rewrite (i_perm _ _ _ I), app_nil_r. unfold vals. fold f. now apply Permutation_map. }
    split; [|split; [reflexivity|]].
    + constructor; cbn [limit size elements indices threshold]; try assumption; try lia.
      * apply (i_elements _ _ _ I).
      * rewrite <- (i_indices _ _ _ I). rewrite <- (firstn_skipn (size t) (indices t)) at 2. apply Permutation_app_tail. now symmetry.
      * rewrite app_nil_r. unfold vals. cbn [size indices]. rewrite FL. exact PX.
      * intros _. rewrite FL, SL. split; [reflexivity|]. split; [exact ET|]. split; [|exact SK]. rewrite <- PL. exact PS.
    + cbn [size indices]. rewrite FL. change (map (el _) l) with (map (el t) l). split; [|split].
      * rewrite map_length, (Permutation_length PX), map_length. lia.
      * intros d i j Hij. rewrite map_length in Hij. pose proof (SO (size t) (Nat.le_refl _) d i j) as S1. rewrite firstn_all2 in S1 by lia. apply S1. lia.
      * exists []. rewrite app_nil_r. split; [exact PX|]. intros y r _ [].
Qed.

Lemma run_inv : forall ops t xs rest, inv t xs rest ->
  exists t' outs, run (topn_step default gt sort nth_element) t ops = Ok (t', outs) /\ length outs = length ops /\
    forall n ys, nth_error outs n = Some (Some ys) -> top_of gt (limit t) (fold_left (fun l o => match o with Push v => l ++ [v] | Get => l | Reset => [] end) (firstn n ops) xs) ys.
Proof.
  induction ops as [|o ops IH]; intros t xs rest I.
  - exists t, []. split; [reflexivity|]. split; [reflexivity|]. intros [|n] ys H; discriminate.
  - cbn [run].
    assert (ST : exists t1 y xs1 rest1, topn_step default gt sort nth_element t o = Ok (t1, y) /\ inv t1 xs1 rest1 /\ limit t1 = limit t /\
       xs1 = (match o with Push v => xs ++ [v] | Get => xs | Reset => [] end) /\ (forall ys, y = Some ys -> top_of gt (limit t) xs ys)).
    { destruct o as [v| |]; cbn [topn_step].
      - destruct (push_inv t xs rest v I) as (t' & rest' & E & L & I'). rewrite E. cbn [obind]. do 4 eexists. split; [reflexivity|]. split; [exact I'|]. split; [exact L|]. split; [reflexivity|discriminate].
      - destruct (get_inv t xs rest I) as (rest' & I' & L & T). cbv zeta. do 4 eexists. split; [reflexivity|]. split; [exact I'|]. split; [exact L|]. split; [reflexivity|]. intros ys E. injection E as <-. exact T.
      - do 4 eexists. split; [reflexivity|]. split; [apply (reset_inv t xs rest I)|]. split; [reflexivity|]. split; [reflexivity|discriminate]. }
    destruct ST as (t1 & y & xs1 & rest1 & E1 & I1 & L1 & EX & T1). rewrite E1. cbn [obind fst snd].
    destruct (IH t1 xs1 rest1 I1) as (t' & outs & E2 & L2 & T2). rewrite E2. cbn [obind fst snd]. do 2 eexists. split; [reflexivity|]. split; [cbn; now rewrite L2|].
    intros [|n] ys H; cbn [nth_error firstn fold_left] in *.
    + injection H as ->. now apply T1.
    + rewrite <- EX. rewrite <- L1. now apply T2.
Qed.
End Proofs.
