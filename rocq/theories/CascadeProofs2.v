From Verif Require Import Common ListLemmas RealUtil BiquadModel DesignModel DesignSpec DesignProofs CascadeModel CascadeSpec CascadeProofs.
From Coquelicot Require Import Complex.
From Coq Require Import Psatz Permutation.
Local Open Scope R_scope.

(* products over the stages *)
Definition cprod (f : coeffs R -> C) (cs : list (coeffs R)) : C := fold_right (fun c x => Cmult (f c) x) (RtoC 1) cs.
Lemma cprod_cons f c cs : cprod f (c :: cs) = Cmult (f c) (cprod f cs).
Proof. reflexivity. Qed.
Lemma cprod_perm f l l' : Permutation l l' -> cprod f l = cprod f l'.
Proof.
  induction 1 as [|x l l' _ IH|x y l|l l' l'' _ IH1 _ IH2]; [reflexivity| | |congruence].
  - now rewrite !cprod_cons, IH.
  - rewrite !cprod_cons. ring.
Qed.
Lemma cprod_app f l l' : cprod f (l ++ l') = Cmult (cprod f l) (cprod f l').
Proof. induction l as [|c l IH]; cbn [app]; [cbn; ring|]. rewrite !cprod_cons, IH. ring. Qed.

Definition num (cs : list (coeffs R)) (z : C) : C := cprod (fun c => numerator c z) cs.
Definition den (cs : list (coeffs R)) (z : C) : C := cprod (fun c => denominator c z) cs.

Lemma cascade_value_iff cs z h : cascade_value cs z h <-> den cs z <> RtoC 0 /\ num cs z = Cmult h (den cs z).
Proof.
  revert h. induction cs as [|c cs IH]; intros h; cbn [cascade_value].
  - unfold den, num. cbn. split.
    + intros ->. split; [intros E; apply (f_equal fst) in E; cbn in E; lra|ring].
    + intros [_ E]. rewrite E. ring.
  - unfold den, num in *. rewrite !cprod_cons. set (D := cprod _ cs) in *. set (N := cprod (fun c => numerator c z) cs) in *. split.
    + intros (h1 & h2 & [HD HE] & H2 & ->). apply IH in H2. destruct H2 as [HD2 HE2].
      split; [now apply Cmult_neq|]. rewrite HE2, <- HE. field. exact HD.
    + intros [HD HE].
      assert (H1 : denominator c z <> RtoC 0) by (intros E; apply HD; rewrite E; ring).
      assert (H2 : D <> RtoC 0) by (intros E; apply HD; rewrite E; ring).
      exists (Cdiv (numerator c z) (denominator c z)), (Cdiv N D). split; [split; auto|]. split.
      * apply IH. split; [exact H2|]. field. exact H2.
      * transitivity (Cdiv (Cmult h (Cmult (denominator c z) D)) (Cmult (denominator c z) D)); [field; split; assumption|].
        rewrite <- HE. field. split; assumption.
Qed.

(* searching *)
Lemma find_from_some f cs i k : find_from f cs i = Some k ->
  exists pre c post, cs = pre ++ c :: post /\ k = (i + length pre)%nat /\ f c = true.
Proof.
  revert i. induction cs as [|c cs IH]; intros i; cbn [find_from]; [discriminate|].
  destruct (f c) eqn:E.
  - intros H. injection H as <-. exists [], c, cs. cbn. repeat split; auto; lia.
  - intros H. destruct (IH _ H) as (pre & c' & post & -> & -> & Hf). exists (c :: pre), c', post. cbn. repeat split; auto; lia.
Qed.
Lemma find_from_none f cs i : find_from f cs i = None -> Forall (fun c => f c = false) cs.
Proof.
  revert i. induction cs as [|c cs IH]; intros i; cbn [find_from]; [constructor|].
  destruct (f c) eqn:E; [discriminate|]. intros H. constructor; eauto.
Qed.
Lemma nth_mid (pre : list (coeffs R)) c post d : nth (length pre) (pre ++ c :: post) d = c.
Proof. rewrite app_nth2, Nat.sub_diag by lia. reflexivity. Qed.
Lemma update_mid pre c post c' : update (pre ++ c :: post) (length pre) c' = pre ++ c' :: post.
Proof.
  unfold update, splice. rewrite firstn_app, Nat.sub_diag, firstn_all, firstn_O, app_nil_r. cbn [length app]. f_equal. f_equal.
  rewrite skipn_app. rewrite skipn_all2 by lia. replace (length pre + 1 - length pre)%nat with 1%nat by lia. reflexivity.
Qed.
Lemma erase_mid (pre : list (coeffs R)) c post : firstn (length pre) (pre ++ c :: post) ++ skipn (S (length pre)) (pre ++ c :: post) = pre ++ post.
Proof.
  rewrite firstn_app, Nat.sub_diag, firstn_all, firstn_O, app_nil_r. f_equal.
  rewrite skipn_app. rewrite skipn_all2 by lia. replace (S (length pre) - length pre)%nat with 1%nat by lia. reflexivity.
Qed.

Lemma find_pair_some tol poly cs i j : find_pair tol poly cs = Some (i, j) ->
  exists pre ci mid cj post, cs = pre ++ ci :: mid ++ cj :: post /\ i = length pre /\
    j = length (pre ++ ci :: mid) /\ first_order tol (poly ci) = true /\ first_order tol (poly cj) = true.
Proof.
  unfold find_pair. destruct (find_from _ cs 0) as [i'|] eqn:E1; [|discriminate].
  destruct (find_from_some _ _ _ _ E1) as (pre & ci & rest & -> & -> & F1).
  replace (skipn (S (0 + length pre)) (pre ++ ci :: rest)) with rest.
  2:{ rewrite skipn_app. rewrite skipn_all2 by lia. replace (S (0 + length pre) - length pre)%nat with 1%nat by lia. reflexivity. }
  destruct (find_from _ rest _) as [j'|] eqn:E2; [|discriminate]. intros H. injection H as <- <-.
  destruct (find_from_some _ _ _ _ E2) as (mid & cj & post & -> & -> & F2).
  exists pre, ci, mid, cj, post. repeat split; auto. rewrite app_length. cbn. lia.
Qed.

(* evaluating a coefficient vector of length three *)
Definition ev (p : list R) (z : C) : C :=
  Cplus (Cplus (Cmult (Cmult (RtoC (nth 0 p 0)) z) z) (Cmult (RtoC (nth 1 p 0)) z)) (RtoC (nth 2 p 0)).

Lemma triple_product x0 x1 x2 y0 y1 y2 : product [x0; x1; x2] [y0; y1; y2]
  = [x0 * y0; x0 * y1 + x1 * y0; x0 * y2 + (x1 * y1 + x2 * y0); x1 * y2 + x2 * y1; x2 * y2].
Proof. cbn. repeat (f_equal; try ring). Qed.

Lemma drop_zeros_total l : Exists (fun x => x <> 0) l -> exists r, drop_zeros l = Ok r.
Proof.
  induction 1 as [a l H|a l H IH]; cbn [drop_zeros].
  - destruct (Reqb_spec (Rabs a) 0) as [E|E]; [exfalso; exact (Rabs_no_R0 a H E)|eauto].
  - destruct (Reqb (Rabs a) 0); eauto.
Qed.
(* the product of two vectors with a nonzero middle coefficient is not zero *)
Lemma convolve_total x0 x1 x2 y0 y1 y2 : x1 <> 0 -> y1 <> 0 -> exists p, convolve [x0; x1; x2] [y0; y1; y2] = Ok p.
Proof.
  intros HX HY. unfold convolve. rewrite triple_product.
  destruct (drop_zeros_total (rev [x0 * y0; x0 * y1 + x1 * y0; x0 * y2 + (x1 * y1 + x2 * y0); x1 * y2 + x2 * y1; x2 * y2])) as (r & ->).
  - destruct (Req_dec (x2 * y2) 0) as [E4|E4]; [|now constructor]. apply Exists_cons_tl.
    destruct (Req_dec (x1 * y2 + x2 * y1) 0) as [E3|E3]; [|now constructor]. apply Exists_cons_tl. apply Exists_cons_hd.
    assert (X2 : x2 = 0 /\ y2 = 0).
    { destruct (Rmult_integral _ _ E4) as [E|E]; rewrite E in E3.
      - assert (E' : x1 * y2 = 0) by lra. destruct (Rmult_integral _ _ E'); [contradiction|auto].
      - assert (E' : x2 * y1 = 0) by lra. destruct (Rmult_integral _ _ E'); [auto|contradiction]. }
    destruct X2 as [-> ->]. intros E. assert (E' : x1 * y1 = 0) by lra. destruct (Rmult_integral _ _ E'); contradiction.
  - cbn. eauto.
Qed.
Lemma convolve_nth x y p j : convolve x y = Ok p -> nth j p 0 = nth j (product x y) 0.
Proof. intros H. destruct (convolve_spec _ _ _ H) as (z & -> & HZ). now rewrite nth_app_zeros. Qed.
Lemma vresize3_nth (p : list R) j : (j < 3)%nat -> nth j (vresize 0 3 p) 0 = nth j p 0.
Proof.
  intros H. unfold vresize. destruct (lt_dec j (length p)) as [L|L].
  - rewrite app_nth1 by (rewrite firstn_length; lia). rewrite <- (firstn_skipn 3 p) at 2. rewrite app_nth1 by (rewrite firstn_length; lia). reflexivity.
  - rewrite (nth_overflow p) by lia. rewrite app_nth2 by (rewrite firstn_length; lia).
    apply nth_zeros. apply Forall_forall. intros x Hx. now apply repeat_spec in Hx.
Qed.

Section Merge.
Variables (tol : R) (poly other : coeffs R -> list R) (set : coeffs R -> list R -> coeffs R).
Hypothesis Htol : 0 <= tol.
Hypothesis poly_three : forall c, exists x y z, poly c = [x; y; z].
Hypothesis poly_set : forall c l, poly (set c l) = [nth 0 l 0; nth 1 l 0; nth 2 l 0].
Hypothesis other_set : forall c l, other (set c l) = other c.
Variable Inv : list R -> Prop.
Hypothesis Inv_exact : forall p, Inv p -> first_order tol p = true -> nth 2 p 0 = 0.
Hypothesis Inv_merge : forall p q, Inv p -> Inv q -> first_order tol p = true -> first_order tol q = true ->
  Inv [nth 0 p 0 * nth 0 q 0; nth 0 p 0 * nth 1 q 0 + nth 1 p 0 * nth 0 q 0; nth 1 p 0 * nth 1 q 0].
Hypothesis Inv_one : Inv [1; 0; 0].

Let fo (c : coeffs R) := first_order tol (poly c).
Definition first_orders (cs : list (coeffs R)) : nat := length (filter fo cs).

Lemma merge_pairs_spec fuel : forall cs, (first_orders cs <= fuel)%nat -> Forall (fun c => Inv (poly c)) cs ->
  exists cs', merge_pairs tol poly set fuel cs = Ok cs' /\ length cs' = length cs /\
    map other cs' = map other cs /\ Forall (fun c => Inv (poly c)) cs' /\
    find_pair tol poly cs' = None /\
    forall z, cprod (fun c => ev (poly c) z) cs' = cprod (fun c => ev (poly c) z) cs.
Proof.
  induction fuel as [|fuel IH]; intros cs HF HI.
  - exists cs. cbn [merge_pairs]. repeat split; auto.
    destruct (find_pair tol poly cs) as [[i j]|] eqn:E; [exfalso|reflexivity].
    destruct (find_pair_some _ _ _ _ _ E) as (pre & ci & mid & cj & post & -> & _ & _ & F1 & _).
    unfold first_orders in HF. rewrite filter_app, app_length in HF. cbn [filter] in HF. unfold fo at 2 in HF. rewrite F1 in HF. cbn [length] in HF. lia.
  - cbn [merge_pairs]. destruct (find_pair tol poly cs) as [[i j]|] eqn:E; [|exists cs; auto 10].
    destruct (find_pair_some _ _ _ _ _ E) as (pre & ci & mid & cj & post & EQ & Hi & Hj & F1 & F2). cbv zeta.
    assert (N1 : nth i cs identity_coeffs = ci) by (rewrite EQ, Hi; apply nth_mid).
    assert (EQ2 : cs = (pre ++ ci :: mid) ++ cj :: post) by (rewrite EQ, <- app_assoc; reflexivity).
    assert (N2 : nth j cs identity_coeffs = cj) by (rewrite EQ2, Hj; apply nth_mid).
    rewrite N1, N2.
    assert (HI1 : Inv (poly ci) /\ Inv (poly cj)).
    { rewrite Forall_forall in HI. split; apply HI; rewrite EQ; apply in_or_app; right; [now left|].
      right. apply in_or_app. right. now left. }
    destruct HI1 as [I1 I2].
    pose proof (Inv_exact _ I1 F1) as X2. pose proof (Inv_exact _ I2 F2) as Y2.
    assert (X1 : nth 1 (poly ci) 0 <> 0).
    { unfold first_order in F1. apply andb_true_iff in F1. destruct F1 as [_ F1]. destruct (Rltb_spec tol (Rabs (nth 1 (poly ci) 0))); [|discriminate].
      intros Z. rewrite Z, Rabs_R0 in *. lra. }
    assert (Y1 : nth 1 (poly cj) 0 <> 0).
    { unfold first_order in F2. apply andb_true_iff in F2. destruct F2 as [_ F2]. destruct (Rltb_spec tol (Rabs (nth 1 (poly cj) 0))); [|discriminate].
      intros Z. rewrite Z, Rabs_R0 in *. lra. }
    pose proof (Inv_merge _ _ I1 I2 F1 F2) as IM.
    destruct (poly_three ci) as (x0 & x1 & x2 & EX). destruct (poly_three cj) as (y0 & y1 & y2 & EY).
    rewrite EX in X1, X2. rewrite EY in Y1, Y2. cbn [nth] in X1, X2, Y1, Y2. subst x2 y2.
    rewrite EX, EY in IM. cbn [nth] in IM.
    destruct (convolve_total x0 x1 0 y0 y1 0 X1 Y1) as (p & EP). rewrite EX, EY, EP. cbn [obind].
    assert (P0 : nth 0 p 0 = x0 * y0) by (rewrite (convolve_nth _ _ _ 0 EP), triple_product; reflexivity).
    assert (P1 : nth 1 p 0 = x0 * y1 + x1 * y0) by (rewrite (convolve_nth _ _ _ 1 EP), triple_product; reflexivity).
    assert (P2 : nth 2 p 0 = x1 * y1) by (rewrite (convolve_nth _ _ _ 2 EP), triple_product; cbn [nth]; ring).
    set (ci' := set ci (vresize 0 3 p)). set (cj' := set cj [1; 0; 0]).
    assert (U : update (update cs i ci') j cj' = pre ++ ci' :: mid ++ cj' :: post).
    { rewrite EQ, Hi, update_mid.
      replace j with (length (pre ++ ci' :: mid)) by (rewrite Hj, !app_length; reflexivity).
      replace (pre ++ ci' :: mid ++ cj :: post) with ((pre ++ ci' :: mid) ++ cj :: post) by (rewrite <- app_assoc; reflexivity).
      rewrite update_mid, <- app_assoc. reflexivity. }
    rewrite U.
    assert (Pi : poly ci' = [x0 * y0; x0 * y1 + x1 * y0; x1 * y1]).
    { unfold ci'. rewrite poly_set, !vresize3_nth by lia. now rewrite P0, P1, P2. }
    assert (Pj : poly cj' = [1; 0; 0]) by (unfold cj'; rewrite poly_set; reflexivity).
    destruct (IH (pre ++ ci' :: mid ++ cj' :: post)) as (cs' & R1 & R2 & R3 & R4 & R5 & R6).
    + unfold first_orders in *. rewrite EQ in HF. rewrite !filter_app in *. cbn [filter] in *. rewrite !filter_app in *. cbn [filter] in *.
      unfold fo in *. rewrite F1, F2 in HF. rewrite Pj.
      assert (FJ : first_order tol [1; 0; 0] = false).
      { unfold first_order. cbn [nth]. rewrite (Rltb_false tol (Rabs 0)) by (rewrite Rabs_R0; lra). apply andb_false_r. }
      rewrite FJ. rewrite app_length in *. cbn [length] in *. rewrite app_length in *. cbn [length] in *.
      destruct (first_order tol (poly ci')); cbn [length]; rewrite ?app_length in *; cbn [length] in *; lia.
    + rewrite EQ in HI. apply Forall_app in HI. destruct HI as [A1 A2]. inversion A2 as [|? ? _ A3]; subst. apply Forall_app in A3. destruct A3 as [A3 A4].
      inversion A4 as [|? ? _ A5]; subst. apply Forall_app. split; [exact A1|]. constructor; [now rewrite Pi|].
      apply Forall_app. split; [exact A3|]. constructor; [now rewrite Pj|exact A5].
    + exists cs'. split; [exact R1|]. split; [rewrite R2, EQ, !app_length; cbn [length]; rewrite !app_length; reflexivity|].
      split; [|split; [exact R4|split; [exact R5|]]].
      * rewrite R3, EQ, !map_app. cbn [map]. rewrite !map_app. cbn [map]. unfold ci', cj'. now rewrite !other_set.
      * intros z. rewrite R6, EQ, !cprod_app, !cprod_cons, !cprod_app, !cprod_cons, Pi, Pj, EX, EY.
        unfold ev. cbn [nth]. rewrite !RtoC_plus, !RtoC_mult. ring.
Qed.
End Merge.

Lemma numerator_ev c z : numerator c z = ev (vec_b c) z.
Proof. reflexivity. Qed.
Lemma denominator_ev c z : denominator c z = ev (vec_a c) z.
Proof. reflexivity. Qed.
Lemma vec_b_set_b c l : vec_b (set_b c l) = [nth 0 l 0; nth 1 l 0; nth 2 l 0].
Proof. reflexivity. Qed.
Lemma vec_a_set_a c l : vec_a (set_a c l) = [nth 0 l 0; nth 1 l 0; nth 2 l 0].
Proof. reflexivity. Qed.
Lemma vec_a_set_b c l : vec_a (set_b c l) = vec_a c.
Proof. reflexivity. Qed.
Lemma vec_b_set_a c l : vec_b (set_a c l) = vec_b c.
Proof. reflexivity. Qed.

Lemma cprod_map (f : list R -> C) poly cs cs' : map poly cs = map poly cs' -> cprod (fun c => f (poly c)) cs = cprod (fun c => f (poly c)) cs'.
Proof.
  revert cs'. induction cs as [|c cs IH]; intros [|c' cs'] H; try discriminate; [reflexivity|].
  cbn [map] in H. injection H as H1 H2. rewrite !cprod_cons, H1. now rewrite (IH cs' H2).
Qed.
Lemma Forall_map_eq (P : list R -> Prop) (poly : coeffs R -> list R) cs cs' : map poly cs = map poly cs' ->
  Forall (fun c => P (poly c)) cs -> Forall (fun c => P (poly c)) cs'.
Proof.
  revert cs'. induction cs as [|c cs IH]; intros [|c' cs'] H HF; try discriminate; [constructor|].
  cbn [map] in H. injection H as H1 H2. inversion HF; subst. constructor; [now rewrite <- H1|now apply IH].
Qed.

Section Gains.
Variable tol : R.
Variables (IB IA : list R -> Prop).
Hypothesis IB_exact : forall p, IB p -> zero_order tol p = true -> nth 1 p 0 = 0 /\ nth 2 p 0 = 0.
Hypothesis IA_exact : forall p, IA p -> zero_order tol p = true -> nth 1 p 0 = 0 /\ nth 2 p 0 = 0.
Hypothesis IA_lead : forall p, IA p -> nth 0 p 0 <> 0.
Hypothesis IB_scale : forall p q r, IB p -> IB q -> IA r -> zero_order tol q = true -> zero_order tol r = true ->
  let g := nth 0 q 0 / nth 0 r 0 in IB [nth 0 p 0 * g; nth 1 p 0 * g; nth 2 p 0 * g].

Definition inv_stage (c : coeffs R) : Prop := IB (vec_b c) /\ IA (vec_a c).

Lemma same_response_of (cs cs' : list (coeffs R)) (x : R) : x <> 0 ->
  (forall z, z <> RtoC 0 -> num cs z = Cmult (Cmult (RtoC x) (Cmult z z)) (num cs' z)) ->
  (forall z, z <> RtoC 0 -> den cs z = Cmult (Cmult (RtoC x) (Cmult z z)) (den cs' z)) -> same_response cs cs'.
Proof.
  intros Hx HN HD z h Hz. rewrite !cascade_value_iff, (HN z Hz), (HD z Hz).
  assert (NX : Cmult (RtoC x) (Cmult z z) <> RtoC 0) by (apply Cmult_neq; [now apply RtoC_neq|now apply Cmult_neq]).
  split.
  - intros [A B]. split; [intros E; apply A; rewrite E; ring|].
    transitivity (Cmult (Cinv (Cmult (RtoC x) (Cmult z z))) (Cmult (Cmult (RtoC x) (Cmult z z)) (num cs' z))); [field; split; [exact Hz|now apply RtoC_neq]|].
    rewrite B. field. split; [exact Hz|now apply RtoC_neq].
  - intros [A B]. split; [now apply Cmult_neq|]. rewrite B. ring.
Qed.
Lemma same_response_trans a b c : same_response a b -> same_response b c -> same_response a c.
Proof. intros H1 H2 z h Hz. rewrite (H1 z h Hz). now apply H2. Qed.

Lemma adjust_num g cs z : cs <> [] -> num (adjust_gain g cs) z = Cmult (RtoC g) (num cs z).
Proof.
  destruct cs as [|c cs]; [congruence|]. intros _. unfold num. cbn [adjust_gain]. rewrite !cprod_cons, !numerator_ev, vec_b_set_b.
  unfold ev, vec_b. cbn [map nth]. rewrite !RtoC_mult. ring.
Qed.
Lemma adjust_den g cs z : den (adjust_gain g cs) z = den cs z.
Proof. destruct cs as [|c cs]; reflexivity. Qed.

(* one stage with trivial poles and one with trivial zeros, possibly the same *)
Lemma gain_step cs ai bi g : (1 < length cs)%nat -> Forall inv_stage cs -> find_zero_order tol cs = Some (ai, bi, g) ->
  let cs1 := if (ai =? bi)%nat then cs
             else update cs bi (set_b (nth bi cs identity_coeffs) (vec_b (nth ai cs identity_coeffs))) in
  let cs2 := firstn ai cs1 ++ skipn (S ai) cs1 in
  let cs3 := if Reqb g 1 then cs2 else adjust_gain g cs2 in
  S (length cs3) = length cs /\ Forall inv_stage cs3 /\ same_response cs cs3.
Proof.
  intros HL HI HZ. unfold find_zero_order in HZ.
  destruct (find_from (fun c => zero_order tol (vec_a c)) cs 0) as [ai'|] eqn:EA; [|discriminate].
  destruct (find_from (fun c => zero_order tol (vec_b c)) cs 0) as [bi'|] eqn:EB; [|discriminate].
  injection HZ as -> -> HG.
  destruct (find_from_some _ _ _ _ EA) as (p1 & ca & q1 & Q1 & HA & FA).
  destruct (find_from_some _ _ _ _ EB) as (p2 & cb & q2 & Q2 & HB & FB). cbn [Nat.add] in HA, HB.
  assert (NA : nth ai cs identity_coeffs = ca) by (rewrite Q1, HA; apply nth_mid).
  assert (NB : nth bi cs identity_coeffs = cb) by (rewrite Q2, HB; apply nth_mid).
  rewrite NA, NB in *.
  assert (IA1 : inv_stage ca) by (rewrite Forall_forall in HI; apply HI; rewrite Q1; apply in_elt).
  assert (IB1 : inv_stage cb) by (rewrite Forall_forall in HI; apply HI; rewrite Q2; apply in_elt).
  destruct IA1 as [IAb IAa], IB1 as [IBb IBa].
  destruct (IA_exact _ IAa FA) as [A1 A2]. destruct (IB_exact _ IBb FB) as [B1 B2]. pose proof (IA_lead _ IAa) as A0.
  cbn [vec_a vec_b nth] in A0, A1, A2, B1, B2.
  (* the stages before the gain adjustment *)
  assert (exists cs2, (let cs1 := if (ai =? bi)%nat then cs else update cs bi (set_b cb (vec_b ca)) in firstn ai cs1 ++ skipn (S ai) cs1) = cs2
    /\ S (length cs2) = length cs /\ Forall inv_stage cs2 /\ cs2 <> [] /\
    (forall z, num cs z = Cmult (Cmult (RtoC (b0 cb)) (Cmult z z)) (num cs2 z)) /\
    (forall z, den cs z = Cmult (Cmult (RtoC (a0 ca)) (Cmult z z)) (den cs2 z))) as (cs2 & E2 & L2 & I2 & N2 & NUM & DEN).
  { cbv zeta. destruct (Nat.eqb_spec ai bi) as [E|NE].
    - subst bi. assert (cb = ca) as -> by congruence.
      exists (p1 ++ q1). rewrite Q1 at 1 2. rewrite HA, erase_mid. split; [reflexivity|].
      rewrite Q1 in HL, HI. rewrite app_length in HL. cbn in HL. split; [rewrite Q1, !app_length; cbn; lia|].
      apply Forall_app in HI. destruct HI as [H1 H2]. inversion H2 as [|? ? _ H3]; subst.
      split; [now apply Forall_app|]. split; [intros E0; apply (f_equal (@length _)) in E0; rewrite app_length in E0; cbn in E0; lia|].
      split; intros z; unfold num, den; rewrite !cprod_app, cprod_cons.
      + rewrite numerator_ev. unfold ev, vec_b. cbn [nth]. rewrite B1, B2. ring.
      + rewrite denominator_ev. unfold ev, vec_a. cbn [nth]. rewrite A1, A2. ring.
    - set (cb' := set_b cb (vec_b ca)).
      assert (GEN : exists rest cs2, Permutation cs (ca :: cb :: rest) /\ firstn ai (update cs bi cb') ++ skipn (S ai) (update cs bi cb') = cs2 /\ Permutation cs2 (cb' :: rest)).
      { destruct (lt_dec ai bi) as [L|L].
        - (* ca first *)
          assert (exists mid, cs = p1 ++ ca :: mid ++ cb :: q2 /\ length p1 + S (length mid) = bi)%nat as (mid & EQ & LM).
          { assert (P2 : p2 = p1 ++ ca :: firstn (bi - S ai) q1).
            { assert (X : firstn bi cs = p2) by (rewrite Q2, HB, firstn_app, Nat.sub_diag, firstn_all, firstn_O; apply app_nil_r).
              rewrite <- X, Q1, firstn_app, firstn_all2 by lia. f_equal. replace (bi - length p1)%nat with (S (bi - S ai)) by lia. reflexivity. }
            exists (firstn (bi - S ai) q1). split.
            - rewrite Q2, P2, <- app_assoc. reflexivity.
            - apply (f_equal (@length _)) in P2. rewrite app_length in P2. cbn [length] in P2. lia. }
          exists (p1 ++ mid ++ q2), (p1 ++ mid ++ cb' :: q2). split; [|split].
          + rewrite EQ. etransitivity; [apply Permutation_sym, Permutation_middle|]. constructor.
            rewrite !app_assoc. apply Permutation_sym, Permutation_middle.
          + assert (U : update cs bi cb' = p1 ++ ca :: mid ++ cb' :: q2).
            { rewrite EQ. replace bi with (length (p1 ++ ca :: mid)) by (rewrite app_length; cbn; lia).
              replace (p1 ++ ca :: mid ++ cb :: q2) with ((p1 ++ ca :: mid) ++ cb :: q2) by (rewrite <- app_assoc; reflexivity).
              rewrite update_mid, <- app_assoc. reflexivity. }
            rewrite U, HA. apply erase_mid.
          + rewrite !app_assoc. apply Permutation_sym, Permutation_middle.
        - assert (exists mid, cs = p2 ++ cb :: mid ++ ca :: q1 /\ length p2 + S (length mid) = ai)%nat as (mid & EQ & LM).
          { assert (P1 : p1 = p2 ++ cb :: firstn (ai - S bi) q2).
            { assert (X : firstn ai cs = p1) by (rewrite Q1, HA, firstn_app, Nat.sub_diag, firstn_all, firstn_O; apply app_nil_r).
              rewrite <- X, Q2, firstn_app, firstn_all2 by lia. f_equal. replace (ai - length p2)%nat with (S (ai - S bi)) by lia. reflexivity. }
            exists (firstn (ai - S bi) q2). split.
            - rewrite Q1, P1, <- app_assoc. reflexivity.
            - apply (f_equal (@length _)) in P1. rewrite app_length in P1. cbn [length] in P1. lia. }
          exists (p2 ++ mid ++ q1), (p2 ++ cb' :: mid ++ q1). split; [|split].
          + rewrite EQ. transitivity (cb :: ca :: p2 ++ mid ++ q1); [|constructor].
            etransitivity; [apply Permutation_sym, Permutation_middle|]. constructor.
            rewrite !app_assoc. apply Permutation_sym, Permutation_middle.
          + assert (U : update cs bi cb' = (p2 ++ cb' :: mid) ++ ca :: q1).
            { rewrite EQ, HB, update_mid, <- app_assoc. reflexivity. }
            rewrite U. replace ai with (length (p2 ++ cb' :: mid)) by (rewrite app_length; cbn; lia).
            rewrite erase_mid, <- app_assoc. reflexivity.
          + apply Permutation_sym, Permutation_middle. }
      destruct GEN as (rest & cs2 & PM1 & E2 & PM2). exists cs2. split; [exact E2|].
      pose proof (Permutation_length PM1) as L1. pose proof (Permutation_length PM2) as L2. cbn in L1, L2.
      split; [lia|]. split; [|split].
      + apply (Permutation_Forall (Permutation_sym PM2)). apply (Permutation_Forall PM1) in HI.
        inversion HI as [|? ? _ HI']; subst. inversion HI'; subst. constructor; [|assumption]. split; assumption.
      + intros E. rewrite E in L2. discriminate.
      + unfold num, den. split; intros z; rewrite (cprod_perm _ _ _ PM1), (cprod_perm _ _ _ PM2), !cprod_cons.
        * rewrite !numerator_ev. unfold ev, vec_b, cb', set_b. cbn [nth b0 b1 b2 vec_b]. rewrite B1, B2. ring.
        * rewrite !denominator_ev. unfold ev, vec_a, cb', set_b. cbn [nth a0 a1 a2]. rewrite A1, A2. ring. }
  cbv zeta in E2 |- *. rewrite E2. clear E2.
  assert (HG' : b0 cb = g * a0 ca) by (rewrite <- HG; field; exact A0).
  assert (I3 : Forall inv_stage (adjust_gain g cs2)).
  { destruct cs2 as [|c r]; [constructor|]. destruct (Forall_inv I2) as [X Y]; pose proof (Forall_inv_tail I2) as Z. constructor; [|exact Z]. split; [|exact Y].
    rewrite vec_b_set_b. pose proof (IB_scale (vec_b c) (vec_b cb) (vec_a ca) X IBb IAa FB FA) as W. cbv zeta in W. cbn [vec_b vec_a nth map] in *. rewrite HG in W. exact W. }
  split; [|split].
  - destruct (Reqb g 1); [exact L2|]. destruct cs2; exact L2.
  - destruct (Reqb g 1); assumption.
  - apply (same_response_of cs _ (a0 ca) A0).
    + intros z Hz. rewrite NUM, HG'. destruct (Reqb_spec g 1) as [->|_]; [rewrite Rmult_1_l; reflexivity|].
      rewrite adjust_num by exact N2. rewrite RtoC_mult. ring.
    + intros z Hz. rewrite DEN. destruct (Reqb g 1); [reflexivity|]. rewrite adjust_den. reflexivity.
Qed.

Lemma merge_gains_spec fuel : forall cs, (1 <= length cs <= fuel)%nat -> Forall inv_stage cs ->
  let cs' := merge_gains tol fuel cs in
  Forall inv_stage cs' /\ same_response cs cs' /\ (1 <= length cs' <= length cs)%nat /\
  (length cs' = 1%nat \/ find_zero_order tol cs' = None).
Proof.
  induction fuel as [|fuel IH]; intros cs HL HI; [lia|]. cbn [merge_gains].
  assert (RF : same_response cs cs) by (intros z h _; reflexivity).
  destruct (Nat.ltb_spec 1 (length cs)) as [L|L].
  - destruct (find_zero_order tol cs) as [[[ai bi] g]|] eqn:E.
    + destruct (gain_step cs ai bi g L HI E) as (L3 & I3 & S3). cbv zeta in L3, I3, S3.
      match type of L3 with S (length ?x) = _ => set (cs3 := x) in * end.
      destruct (IH cs3) as (J1 & J2 & J3 & J4); [lia|exact I3|]. cbv zeta. split; [exact J1|].
      split; [eapply same_response_trans; eassumption|]. split; [lia|exact J4].
    + cbv zeta. split; [exact HI|]. split; [exact RF|]. split; [lia|now right].
  - cbv zeta. split; [exact HI|]. split; [exact RF|]. split; [lia|left; lia].
Qed.
End Gains.

Section SimplifySpec.
Variable tol : R.
Hypothesis Htol : 0 <= tol.
Variables (IB IA : list R -> Prop).
Hypothesis IB_first : forall p, IB p -> first_order tol p = true -> nth 2 p 0 = 0.
Hypothesis IA_first : forall p, IA p -> first_order tol p = true -> nth 2 p 0 = 0.
Hypothesis IB_merge : forall p q, IB p -> IB q -> first_order tol p = true -> first_order tol q = true ->
  IB [nth 0 p 0 * nth 0 q 0; nth 0 p 0 * nth 1 q 0 + nth 1 p 0 * nth 0 q 0; nth 1 p 0 * nth 1 q 0].
Hypothesis IA_merge : forall p q, IA p -> IA q -> first_order tol p = true -> first_order tol q = true ->
  IA [nth 0 p 0 * nth 0 q 0; nth 0 p 0 * nth 1 q 0 + nth 1 p 0 * nth 0 q 0; nth 1 p 0 * nth 1 q 0].
Hypothesis IB_one : IB [1; 0; 0].
Hypothesis IA_one : IA [1; 0; 0].
Hypothesis IB_exact : forall p, IB p -> zero_order tol p = true -> nth 1 p 0 = 0 /\ nth 2 p 0 = 0.
Hypothesis IA_exact : forall p, IA p -> zero_order tol p = true -> nth 1 p 0 = 0 /\ nth 2 p 0 = 0.
Hypothesis IA_lead : forall p, IA p -> nth 0 p 0 <> 0.
Hypothesis IB_scale : forall p q r, IB p -> IB q -> IA r -> zero_order tol q = true -> zero_order tol r = true ->
  let g := nth 0 q 0 / nth 0 r 0 in IB [nth 0 p 0 * g; nth 1 p 0 * g; nth 2 p 0 * g].

Lemma simplify_spec cs : cs <> [] -> Forall (inv_stage IB IA) cs ->
  exists cs', simplify tol cs = Ok cs' /\ Forall (inv_stage IB IA) cs' /\ same_response cs cs' /\
    (1 <= length cs' <= length cs)%nat /\
    (length cs' = 1%nat \/ find_zero_order tol cs' = None).
Proof.
  intros HN HI. unfold simplify.
  assert (H1 : Forall (fun c => IB (vec_b c)) cs) by (eapply Forall_impl; [|exact HI]; intros c [X _]; exact X).
  assert (H2 : Forall (fun c => IA (vec_a c)) cs) by (eapply Forall_impl; [|exact HI]; intros c [_ X]; exact X).
  assert (FL : forall (f : coeffs R -> bool) l, (length (filter f l) <= length l)%nat).
  { intros f l. induction l as [|x l IH]; cbn [filter length]; [lia|]. destruct (f x); cbn [length]; lia. }
  destruct (merge_pairs_spec tol vec_b vec_a set_b Htol (fun c => ex_intro _ (b0 c) (ex_intro _ (b1 c) (ex_intro _ (b2 c) eq_refl)))
    vec_b_set_b vec_a_set_b IB IB_first IB_merge IB_one (length cs) cs (FL _ _) H1) as (cs1 & E1 & L1 & M1 & J1 & _ & V1).
  rewrite E1. cbn [obind].
  assert (H2' : Forall (fun c => IA (vec_a c)) cs1) by (eapply Forall_map_eq; [symmetry; exact M1|exact H2]).
  destruct (merge_pairs_spec tol vec_a vec_b set_a Htol (fun c => ex_intro _ (a0 c) (ex_intro _ (a1 c) (ex_intro _ (a2 c) eq_refl)))
    vec_a_set_a vec_b_set_a IA IA_first IA_merge IA_one (length cs1) cs1 (FL _ _) H2') as (cs2 & E2 & L2 & M2 & J2 & _ & V2).
  rewrite E2. cbn [obind].
  assert (J1' : Forall (fun c => IB (vec_b c)) cs2) by (eapply Forall_map_eq; [symmetry; exact M2|exact J1]).
  assert (HI2 : Forall (inv_stage IB IA) cs2).
  { rewrite Forall_forall in *. intros c Hc. split; auto. }
  assert (HL : (1 <= length cs2 <= length cs2)%nat) by (rewrite L2, L1; destruct cs; [congruence|cbn; lia]).
  destruct (merge_gains_spec tol IB IA IB_exact IA_exact IA_lead IB_scale (length cs2) cs2 HL HI2) as (R1 & R2 & R3 & R4). cbv zeta in R1, R2, R3, R4.
  exists (merge_gains tol (length cs2) cs2). split; [reflexivity|]. split; [exact R1|]. split; [|split; [lia|exact R4]].
  apply (same_response_trans cs cs2 _); [|exact R2].
  intros z h Hz. rewrite !cascade_value_iff. unfold num, den.
  pose proof (cprod_map (fun p => ev p z) vec_b cs2 cs1 M2) as X1. pose proof (cprod_map (fun p => ev p z) vec_a cs1 cs M1) as X2. cbv beta in X1, X2.
  pose proof (V1 z) as Y1. pose proof (V2 z) as Y2.
  change (cprod (fun c => numerator c z)) with (cprod (fun c => ev (vec_b c) z)).
  change (cprod (fun c => denominator c z)) with (cprod (fun c => ev (vec_a c) z)).
  rewrite X1, Y1, Y2, X2. reflexivity.
Qed.
End SimplifySpec.

(* the find_pair facts of the result: pairs are not created by the gain merging *)
Lemma find_from_iff f cs i : find_from f cs i = None <-> Forall (fun c => f c = false) cs.
Proof.
  split; [apply find_from_none|]. revert i. induction cs as [|c cs IH]; intros i H; [reflexivity|].
  inversion H as [|? ? H1 H2]; subst. cbn [find_from]. rewrite H1. now apply IH.
Qed.

(* tolerance zero *)
Lemma Rabs_le0 x : Rabs x <= 0 -> x = 0.
Proof. intros H. pose proof (Rabs_pos x). destruct (Req_dec x 0) as [E|E]; [exact E|]. apply Rabs_pos_lt in E. lra. Qed.
Lemma first_order_true tol p : first_order tol p = true -> Rabs (nth 2 p 0) <= tol /\ tol < Rabs (nth 1 p 0).
Proof.
  unfold first_order. intros H. apply andb_true_iff in H. destruct H as [H1 H2].
  destruct (Rleb_spec (Rabs (nth 2 p 0)) tol); [|discriminate]. destruct (Rltb_spec tol (Rabs (nth 1 p 0))); [|discriminate]. auto.
Qed.
Lemma zero_order_true tol p : zero_order tol p = true -> Rabs (nth 1 p 0) <= tol /\ Rabs (nth 2 p 0) <= tol.
Proof.
  unfold zero_order. intros H. apply andb_true_iff in H. destruct H as [H1 H2].
  destruct (Rleb_spec (Rabs (nth 1 p 0)) tol); [|discriminate]. destruct (Rleb_spec (Rabs (nth 2 p 0)) tol); [|discriminate]. auto.
Qed.

Lemma simplify_exact cs : cs <> [] -> Forall (fun c => a0 c <> 0) cs ->
  exists cs', simplify 0 cs = Ok cs' /\ Forall (fun c => a0 c <> 0) cs' /\ same_response cs cs' /\
    (1 <= length cs' <= length cs)%nat /\ (length cs' = 1%nat \/ find_zero_order 0 cs' = None).
Proof.
  intros HN HI.
  destruct (simplify_spec 0 (Rle_refl 0) (fun _ => True) (fun p => nth 0 p 0 <> 0)) with (cs := cs) as (cs' & H1 & H2 & H3).
  - intros p _ H. apply first_order_true in H. apply Rabs_le0, H.
  - intros p _ H. apply first_order_true in H. apply Rabs_le0, H.
  - auto.
  - intros p q H1 H2 _ _. cbn [nth]. now apply Rmult_integral_contrapositive.
  - exact I.
  - cbn. lra.
  - intros p _ H. apply zero_order_true in H. split; apply Rabs_le0, H.
  - intros p _ H. apply zero_order_true in H. split; apply Rabs_le0, H.
  - auto.
  - auto.
  - exact HN.
  - eapply Forall_impl; [|exact HI]. intros c H. split; [exact I|exact H].
  - exists cs'. split; [exact H1|]. split; [eapply Forall_impl; [|exact H2]; intros c [_ H]; exact H|exact H3].
Qed.

(* the tolerance of the code, on well scaled stages *)
Definition nice_b (p : list R) : Prop :=
  separated (nth 0 p 0) (nth 1 p 0) (nth 2 p 0) /\ (nth 1 p 0 = 0 -> nth 2 p 0 = 0 -> 1 <= Rabs (nth 0 p 0)).
Definition nice_a (p : list R) : Prop :=
  separated (nth 0 p 0) (nth 1 p 0) (nth 2 p 0) /\ nth 0 p 0 <> 0 /\ (nth 1 p 0 = 0 -> nth 2 p 0 = 0 -> Rabs (nth 0 p 0) <= 1).

Lemma sep_first p0 p1 p2 : separated p0 p1 p2 -> Rabs p2 <= tolerance -> p2 = 0.
Proof. unfold separated, tolerance. intros [[H _]|H] H'; [exact H|lra]. Qed.
Lemma sep_zero p0 p1 p2 : separated p0 p1 p2 -> Rabs p1 <= tolerance -> Rabs p2 <= tolerance -> p1 = 0 /\ p2 = 0.
Proof. unfold separated, tolerance. intros [[H [E|E]]|H] H1 H2; [auto|exfalso; lra|exfalso; lra]. Qed.
Lemma sep_merge x0 x1 x2 y0 y1 y2 : separated x0 x1 x2 -> separated y0 y1 y2 ->
  Rabs x2 <= tolerance -> tolerance < Rabs x1 -> Rabs y2 <= tolerance -> tolerance < Rabs y1 ->
  / 10000000000 < Rabs (x1 * y1).
Proof.
  unfold separated, tolerance. intros HX HY X2 X1 Y2 Y1.
  assert (AX : / 100000 < Rabs x1).
  { destruct HX as [[_ [E|E]]|E]; [rewrite E, Rabs_R0 in X1; lra|exact E|lra]. }
  assert (AY : / 100000 < Rabs y1).
  { destruct HY as [[_ [E|E]]|E]; [rewrite E, Rabs_R0 in Y1; lra|exact E|lra]. }
  rewrite Rabs_mult. replace (/ 10000000000) with (/ 100000 * / 100000) by lra. apply Rmult_le_0_lt_compat; lra.
Qed.
Lemma sep_scale p0 p1 p2 g : 1 <= Rabs g -> separated p0 p1 p2 -> separated (p0 * g) (p1 * g) (p2 * g).
Proof.
  intros HG. unfold separated. rewrite !Rabs_mult.
  assert (UP : forall x e, e < x -> 0 <= x -> e < x * Rabs g) by (intros; nra).
  pose proof (Rabs_pos p1). pose proof (Rabs_pos p2).
  intros [[-> [->|H1]]|H1]; [left; split; [ring|left; ring]|left; split; [ring|right; now apply UP]|right; now apply UP].
Qed.

Lemma simplify_scaled cs : cs <> [] -> Forall well_scaled cs ->
  exists cs', simplify tolerance cs = Ok cs' /\ Forall well_scaled cs' /\ same_response cs cs' /\
    (1 <= length cs' <= length cs)%nat /\ (length cs' = 1%nat \/ find_zero_order tolerance cs' = None).
Proof.
  intros HN HI.
  assert (EQ : forall c, well_scaled c <-> inv_stage nice_b nice_a c).
  { intros c. unfold well_scaled, inv_stage, nice_b, nice_a. cbn [vec_a vec_b nth]. tauto. }
  destruct (simplify_spec tolerance) with (IB := nice_b) (IA := nice_a) (cs := cs) as (cs' & H1 & H2 & H3).
  - unfold tolerance. lra.
  - intros p [S _] H. apply first_order_true in H. eapply sep_first; [exact S|apply H].
  - intros p [S _] H. apply first_order_true in H. eapply sep_first; [exact S|apply H].
  - intros p q [S1 _] [S2 _] H1 H2. apply first_order_true in H1, H2.
    pose proof (sep_merge _ _ _ _ _ _ S1 S2 (proj1 H1) (proj2 H1) (proj1 H2) (proj2 H2)) as M.
    split; cbn [nth]; [right; exact M|]. intros _ E. rewrite E, Rabs_R0 in M. lra.
  - intros p q (S1 & N1 & _) (S2 & N2 & _) H1 H2. apply first_order_true in H1, H2.
    pose proof (sep_merge _ _ _ _ _ _ S1 S2 (proj1 H1) (proj2 H1) (proj1 H2) (proj2 H2)) as M.
    split; cbn [nth]; [right; exact M|]. split; [now apply Rmult_integral_contrapositive|].
    intros _ E. rewrite E, Rabs_R0 in M. lra.
  - split; cbn [nth]; [left; split; [reflexivity|now left]|]. rewrite Rabs_R1. lra.
  - split; cbn [nth]; [left; split; [reflexivity|now left]|]. split; [lra|]. rewrite Rabs_R1. lra.
  - intros p [S _] H. apply zero_order_true in H. eapply sep_zero; [exact S|apply H|apply H].
  - intros p [S _] H. apply zero_order_true in H. eapply sep_zero; [exact S|apply H|apply H].
  - intros p (_ & H & _). exact H.
  - intros p q r [S1 B1] [S2 B2] (S3 & N3 & A3) Hq Hr g. apply zero_order_true in Hq, Hr.
    destruct (sep_zero _ _ _ S2 (proj1 Hq) (proj2 Hq)) as [Q1 Q2]. destruct (sep_zero _ _ _ S3 (proj1 Hr) (proj2 Hr)) as [R1 R2].
    assert (HG : 1 <= Rabs g).
    { unfold g, Rdiv. rewrite Rabs_mult, Rabs_inv. specialize (B2 Q1 Q2). specialize (A3 R1 R2).
      apply Rabs_pos_lt in N3. assert (1 <= / Rabs (nth 0 r 0)) by (rewrite <- Rinv_1; apply Rinv_le_contravar; assumption). nra. }
    split; cbn [nth]; [now apply sep_scale|]. intros E1 E2.
    assert (HG0 : g <> 0) by (intros E; rewrite E, Rabs_R0 in HG; lra).
    assert (P1 : nth 1 p 0 = 0) by (apply Rmult_integral in E1; tauto). assert (P2 : nth 2 p 0 = 0) by (apply Rmult_integral in E2; tauto).
    specialize (B1 P1 P2). rewrite Rabs_mult. nra.
  - exact HN.
  - eapply Forall_impl; [|exact HI]. intros c. apply EQ.
  - exists cs'. split; [exact H1|]. split; [eapply Forall_impl; [|exact H2]; intros c; apply EQ|exact H3].
Qed.

Lemma cascade_value_app cs cs' z h : cascade_value (cs ++ cs') z h <-> exists h1 h2, cascade_value cs z h1 /\ cascade_value cs' z h2 /\ h = Cmult h1 h2.
Proof.
  rewrite cascade_value_iff. unfold num, den. rewrite !cprod_app. fold (num cs z) (num cs' z) (den cs z) (den cs' z). split.
  - intros [D E]. assert (D1 : den cs z <> RtoC 0) by (intros X; apply D; rewrite X; ring).
    assert (D2 : den cs' z <> RtoC 0) by (intros X; apply D; rewrite X; ring).
    exists (Cdiv (num cs z) (den cs z)), (Cdiv (num cs' z) (den cs' z)). rewrite !cascade_value_iff.
    split; [split; [exact D1|field; exact D1]|]. split; [split; [exact D2|field; exact D2]|].
    transitivity (Cdiv (Cmult h (Cmult (den cs z) (den cs' z))) (Cmult (den cs z) (den cs' z))); [field; split; assumption|].
    rewrite <- E. field. split; assumption.
  - intros (h1 & h2 & H1 & H2 & ->). apply cascade_value_iff in H1, H2. destruct H1 as [D1 E1], H2 as [D2 E2].
    split; [now apply Cmult_neq|]. rewrite E1, E2. ring.
Qed.
Lemma same_response_app a b c : same_response a b -> same_response (a ++ c) (b ++ c).
Proof.
  intros H z h Hz. rewrite !cascade_value_app. split; intros (h1 & h2 & H1 & H2 & H3); exists h1, h2; (split; [|auto]); now apply (H z h1 Hz).
Qed.

Lemma appends_of tol (P : coeffs R -> Prop) :
  (forall cs, cs <> [] -> Forall P cs -> exists cs', simplify tol cs = Ok cs' /\ Forall P cs' /\ same_response cs cs' /\ (1 <= length cs' <= length cs)%nat) ->
  forall l cs, cs <> [] -> Forall P cs -> Forall P l ->
  exists cs', appends tol cs l = Ok cs' /\ Forall P cs' /\ same_response (cs ++ l) cs' /\ (1 <= length cs')%nat.
Proof.
  intros HS. induction l as [|c l IH]; intros cs HN HC HL; cbn [appends].
  - exists cs. rewrite app_nil_r. split; [reflexivity|]. split; [exact HC|]. split; [intros z h _; reflexivity|]. destruct cs; [congruence|cbn; lia].
  - unfold append_biquad. destruct (HS (cs ++ [c])) as (cs1 & E1 & P1 & S1 & L1).
    + destruct cs; discriminate.
    + apply Forall_app. split; [exact HC|]. constructor; [exact (Forall_inv HL)|constructor].
    + rewrite E1. cbn [obind]. destruct (IH cs1) as (cs2 & E2 & P2 & S2 & L2).
      * intros E. rewrite E in L1. cbn in L1. lia.
      * exact P1.
      * exact (Forall_inv_tail HL).
      * exists cs2. split; [exact E2|]. split; [exact P2|]. split; [|exact L2].
        eapply same_response_trans; [|exact S2].
        replace (cs ++ c :: l) with ((cs ++ [c]) ++ l) by (rewrite <- app_assoc; reflexivity). now apply same_response_app.
Qed.

(* the loops of Simplify stop because their condition is false *)
Lemma find_pair_total tol poly cs i j : 0 <= tol -> (forall c, exists x y z, poly c = [x; y; z]) -> find_pair tol poly cs = Some (i, j) ->
  exists p, convolve (poly (nth i cs identity_coeffs)) (poly (nth j cs identity_coeffs)) = Ok p.
Proof.
  intros Ht P3 E. destruct (find_pair_some _ _ _ _ _ E) as (pre & ci & mid & cj & post & EQ & Hi & Hj & F1 & F2).
  assert (N1 : nth i cs identity_coeffs = ci) by (rewrite EQ, Hi; apply nth_mid).
  assert (EQ2 : cs = (pre ++ ci :: mid) ++ cj :: post) by (rewrite EQ, <- app_assoc; reflexivity).
  assert (N2 : nth j cs identity_coeffs = cj) by (rewrite EQ2, Hj; apply nth_mid).
  rewrite N1, N2. apply first_order_true in F1, F2. destruct (P3 ci) as (x0 & x1 & x2 & EX). destruct (P3 cj) as (y0 & y1 & y2 & EY).
  rewrite EX, EY in *. cbn [nth] in F1, F2. apply convolve_total.
  - intros Z. rewrite Z, Rabs_R0 in F1. lra.
  - intros Z. rewrite Z, Rabs_R0 in F2. lra.
Qed.
Lemma merge_pairs_done tol poly set : 0 <= tol -> (forall c, exists x y z, poly c = [x; y; z]) ->
  (forall c l, poly (set c l) = [nth 0 l 0; nth 1 l 0; nth 2 l 0]) ->
  forall fuel cs, (first_orders tol poly cs <= fuel)%nat ->
  exists cs', merge_pairs tol poly set fuel cs = Ok cs' /\ length cs' = length cs /\ find_pair tol poly cs' = None.
Proof.
  intros Ht P3 PS. induction fuel as [|fuel IH]; intros cs HF.
  - exists cs. cbn [merge_pairs]. repeat split; auto.
    destruct (find_pair tol poly cs) as [[i j]|] eqn:E; [exfalso|reflexivity].
    destruct (find_pair_some _ _ _ _ _ E) as (pre & ci & mid & cj & post & -> & _ & _ & F1 & _).
    unfold first_orders in HF. rewrite filter_app, app_length in HF. cbn [filter] in HF. rewrite F1 in HF. cbn [length] in HF. lia.
  - cbn [merge_pairs]. destruct (find_pair tol poly cs) as [[i j]|] eqn:E; [|exists cs; auto 10].
    destruct (find_pair_total tol poly cs i j Ht P3 E) as (p & EP). cbv zeta. rewrite EP. cbn [obind].
    destruct (find_pair_some _ _ _ _ _ E) as (pre & ci & mid & cj & post & EQ & Hi & Hj & F1 & F2).
    set (ci' := set _ (vresize 0 3 p)). set (cj' := set _ [1; 0; 0]).
    assert (U : update (update cs i ci') j cj' = pre ++ ci' :: mid ++ cj' :: post).
    { rewrite EQ, Hi, update_mid.
      replace j with (length (pre ++ ci' :: mid)) by (rewrite Hj, !app_length; reflexivity).
      replace (pre ++ ci' :: mid ++ cj :: post) with ((pre ++ ci' :: mid) ++ cj :: post) by (rewrite <- app_assoc; reflexivity).
      rewrite update_mid, <- app_assoc. reflexivity. }
    rewrite U. destruct (IH (pre ++ ci' :: mid ++ cj' :: post)) as (cs' & R1 & R2 & R3).
    + unfold first_orders in *. rewrite EQ in HF. rewrite !filter_app in *. cbn [filter] in *. rewrite !filter_app in *. cbn [filter] in *.
      rewrite F1, F2 in HF.
      assert (FJ : first_order tol (poly cj') = false).
      { unfold cj'. rewrite PS. unfold first_order. cbn [nth]. rewrite (Rltb_false tol (Rabs 0)) by (rewrite Rabs_R0; lra). apply andb_false_r. }
      rewrite FJ. rewrite app_length in *. cbn [length] in *. rewrite app_length in *. cbn [length] in *.
      destruct (first_order tol (poly ci')); cbn [length]; rewrite ?app_length in *; cbn [length] in *; lia.
    + exists cs'. split; [exact R1|]. split; [|exact R3]. rewrite R2, EQ, !app_length. cbn [length]. rewrite !app_length. reflexivity.
Qed.
Lemma update_length cs i c : (i < length cs)%nat -> length (update cs i c) = length cs.
Proof. intros H. unfold update, splice. rewrite !app_length, firstn_length, skipn_length. cbn. lia. Qed.
Lemma adjust_gain_length g cs : length (adjust_gain g cs) = length cs.
Proof. destruct cs; reflexivity. Qed.
Lemma find_from_lt f cs k : find_from f cs 0 = Some k -> (k < length cs)%nat.
Proof. intros H. destruct (find_from_some _ _ _ _ H) as (pre & c & post & -> & -> & _). rewrite app_length. cbn. lia. Qed.
Lemma merge_gains_done tol fuel : forall cs, (length cs <= fuel)%nat ->
  (length (merge_gains tol fuel cs) <= 1)%nat \/ find_zero_order tol (merge_gains tol fuel cs) = None.
Proof.
  induction fuel as [|fuel IH]; intros cs HL; cbn [merge_gains]; [left; lia|].
  destruct (Nat.ltb_spec 1 (length cs)) as [L|L]; [|left; lia].
  destruct (find_zero_order tol cs) as [[[ai bi] g]|] eqn:E; [|right; exact E].
  apply IH. unfold find_zero_order in E.
  destruct (find_from (fun c => zero_order tol (vec_a c)) cs 0) as [ai'|] eqn:EA; [|discriminate].
  destruct (find_from (fun c => zero_order tol (vec_b c)) cs 0) as [bi'|] eqn:EB; [|discriminate].
  apply find_from_lt in EA, EB. injection E as -> -> _.
  match goal with |- (length (if _ then ?x else adjust_gain _ ?x) <= _)%nat => assert (LX : (length x < length cs)%nat) end.
  { rewrite app_length, firstn_length, skipn_length. destruct (ai =? bi)%nat; rewrite ?update_length by exact EB; lia. }
  destruct (Reqb g 1); rewrite ?adjust_gain_length; lia.
Qed.
Lemma simplify_complete tol cs : 0 <= tol ->
  exists cs1 cs2, merge_pairs tol vec_b set_b (length cs) cs = Ok cs1 /\ find_pair tol vec_b cs1 = None /\
    merge_pairs tol vec_a set_a (length cs1) cs1 = Ok cs2 /\ find_pair tol vec_a cs2 = None /\
    simplify tol cs = Ok (merge_gains tol (length cs2) cs2) /\
    ((length (merge_gains tol (length cs2) cs2) <= 1)%nat \/ find_zero_order tol (merge_gains tol (length cs2) cs2) = None).
Proof.
  intros Ht. assert (FL : forall (f : coeffs R -> bool) l, (length (filter f l) <= length l)%nat).
  { intros f l. induction l as [|x l IH]; cbn [filter length]; [lia|]. destruct (f x); cbn [length]; lia. }
  destruct (merge_pairs_done tol vec_b set_b Ht (fun c => ex_intro _ (b0 c) (ex_intro _ (b1 c) (ex_intro _ (b2 c) eq_refl)))
    vec_b_set_b (length cs) cs (FL _ _)) as (cs1 & E1 & _ & F1).
  destruct (merge_pairs_done tol vec_a set_a Ht (fun c => ex_intro _ (a0 c) (ex_intro _ (a1 c) (ex_intro _ (a2 c) eq_refl)))
    vec_a_set_a (length cs1) cs1 (FL _ _)) as (cs2 & E2 & _ & F2).
  exists cs1, cs2. repeat split; auto.
  - unfold simplify. rewrite E1. cbn [obind]. rewrite E2. reflexivity.
  - apply merge_gains_done. lia.
Qed.

(* a witness against exactness with the tolerance of the code *)
Definition tiny_lowpass : coeffs R := {| b0 := / 100000000000; b1 := 2 / 100000000000; b2 := / 100000000000; a0 := 1; a1 := -1; a2 := / 4 |}.
Definition short_fir : coeffs R := {| b0 := 1; b1 := / 2; b2 := / 4; a0 := 1; a1 := 0; a2 := 0 |}.
Lemma first_order_false_hi tol p : tol < Rabs (nth 2 p 0) -> first_order tol p = false.
Proof. intros H. unfold first_order. now rewrite (Rleb_false (Rabs (nth 2 p 0)) tol H). Qed.
Lemma first_order_false_lo tol p : Rabs (nth 1 p 0) <= tol -> first_order tol p = false.
Proof. intros H. unfold first_order. rewrite (Rltb_false tol (Rabs (nth 1 p 0)) H). apply andb_false_r. Qed.
Lemma zero_order_false_hi tol p : tol < Rabs (nth 2 p 0) -> zero_order tol p = false.
Proof. intros H. unfold zero_order. rewrite (Rleb_false (Rabs (nth 2 p 0)) tol H). apply andb_false_r. Qed.
Lemma zero_order_is tol p : Rabs (nth 1 p 0) <= tol -> Rabs (nth 2 p 0) <= tol -> zero_order tol p = true.
Proof. intros H1 H2. unfold zero_order. now rewrite (Rleb_true _ _ H1), (Rleb_true _ _ H2). Qed.
Ltac rabs_pos := unfold tolerance; cbn [vec_a vec_b nth a0 a1 a2 b0 b1 b2 tiny_lowpass short_fir]; rewrite ?Rabs_R0; try (rewrite Rabs_pos_eq by lra); lra.
Lemma append_tiny : append_biquad tolerance [tiny_lowpass] short_fir
  = Ok [{| b0 := 1 * (b0 tiny_lowpass / a0 short_fir); b1 := / 2 * (b0 tiny_lowpass / a0 short_fir); b2 := / 4 * (b0 tiny_lowpass / a0 short_fir); a0 := 1; a1 := -1; a2 := / 4 |}].
Proof.
  assert (F1 : first_order tolerance (vec_b tiny_lowpass) = false) by (apply first_order_false_lo; rabs_pos).
  assert (F2 : first_order tolerance (vec_b short_fir) = false) by (apply first_order_false_hi; rabs_pos).
  assert (F3 : first_order tolerance (vec_a tiny_lowpass) = false) by (apply first_order_false_hi; rabs_pos).
  assert (F4 : first_order tolerance (vec_a short_fir) = false) by (apply first_order_false_lo; rabs_pos).
  assert (Z1 : zero_order tolerance (vec_b tiny_lowpass) = true) by (apply zero_order_is; rabs_pos).
  assert (Z3 : zero_order tolerance (vec_a tiny_lowpass) = false) by (apply zero_order_false_hi; rabs_pos).
  assert (Z4 : zero_order tolerance (vec_a short_fir) = true) by (apply zero_order_is; rabs_pos).
  unfold append_biquad, simplify. cbn [app length merge_pairs]. unfold find_pair. cbn [find_from]. rewrite F1, F2. cbn [obind length merge_pairs].
  unfold find_pair. cbn [find_from]. rewrite F3, F4. cbn [obind length merge_gains Nat.ltb Nat.leb].
  unfold find_zero_order. cbn [find_from]. rewrite Z1, Z3, Z4. cbn [nth Nat.eqb].
  cbv beta iota zeta. cbn [update splice firstn skipn app length Nat.add]. 
  destruct (Reqb_spec (b0 tiny_lowpass / a0 short_fir) 1) as [E|_]; [exfalso; cbn [b0 a0 tiny_lowpass short_fir] in E; lra|].
  reflexivity.
Qed.

Lemma polynomial_ratio_value cs b a z h : as_polynomial_ratio cs = Ok (b, a) -> z <> RtoC 0 ->
  (cascade_value cs z h <-> peval a (Cinv z) <> RtoC 0 /\ Cdiv (peval b (Cinv z)) (peval a (Cinv z)) = h).
Proof.
  unfold as_polynomial_ratio. intros H Hz.
  destruct (product_of (map vec_b cs) [1]) as [b'| |] eqn:EB; try discriminate. cbn [obind] in H.
  destruct (product_of (map vec_a cs) [1]) as [a'| |] eqn:EA; try discriminate. cbn [obind] in H. injection H as -> ->.
  rewrite cascade_value_iff.
  pose proof (product_of_eval _ _ _ (Cinv z) EB) as HB. pose proof (product_of_eval _ _ _ (Cinv z) EA) as HA.
  assert (ZZ : Cmult z z <> RtoC 0) by now apply Cmult_neq.
  assert (G : exists w, w <> RtoC 0 /\ num cs z = Cmult w (peval b (Cinv z)) /\ den cs z = Cmult w (peval a (Cinv z))).
  { rewrite HB, HA. clear - Hz ZZ. cbn [peval].
    induction cs as [|c cs IH].
    - exists (RtoC 1). split; [intros E; injection E; lra|]. unfold num, den. cbn [map fold_right cprod]. split; ring.
    - destruct IH as (w & W & N & D). exists (Cmult (Cmult z z) w). split; [now apply Cmult_neq|].
      unfold num, den in *. rewrite !cprod_cons, N, D, numerator_peval, denominator_peval by exact Hz. cbn [map fold_right]. split; ring. }
  destruct G as (w & W & -> & ->). split.
  - intros [X Y]. assert (A : peval a (Cinv z) <> RtoC 0) by (intros E; apply X; rewrite E; ring).
    split; [exact A|]. transitivity (Cdiv (Cmult w (peval b (Cinv z))) (Cmult w (peval a (Cinv z)))); [field; auto|]. rewrite Y. field. auto.
  - intros [A <-]. split; [now apply Cmult_neq|]. field. exact A.
Qed.
