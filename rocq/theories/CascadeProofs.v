From Verif Require Import Common ListLemmas RealUtil BiquadModel DesignModel DesignSpec DesignProofs CascadeModel CascadeSpec.
From Coquelicot Require Import Complex.
From Coq Require Import Psatz.
Local Open Scope R_scope.

(* polynomials *)
Lemma peval_zero p u : (forall j, nth j p 0 = 0) -> peval p u = RtoC 0.
Proof.
  induction p as [|a p IH]; intros H; [reflexivity|]. cbn [peval]. rewrite IH by (intros j; exact (H (S j))).
  pose proof (H O) as H0. cbn in H0. rewrite H0. ring.
Qed.
Lemma peval_ext p q u : (forall j, nth j p 0 = nth j q 0) -> peval p u = peval q u.
Proof.
  revert q. induction p as [|a p IH]; intros q H.
  - symmetry. apply peval_zero. intros j. rewrite <- H. now destruct j.
  - destruct q as [|b q].
    + apply peval_zero. intros j. rewrite H. now destruct j.
    + cbn [peval]. rewrite (IH q) by (intros j; exact (H (S j))). pose proof (H O) as H0. cbn in H0. now rewrite H0.
Qed.
Lemma peval_padd x y u : peval (padd x y) u = Cplus (peval x u) (peval y u).
Proof.
  revert y. induction x as [|a x IH]; intros [|b y]; cbn [padd peval]; try ring.
  rewrite IH, RtoC_plus. ring.
Qed.
Lemma peval_scale a y u : peval (map (Rmult a) y) u = Cmult (RtoC a) (peval y u).
Proof. induction y as [|b y IH]; cbn [map peval]; [ring|]. rewrite IH, RtoC_mult. ring. Qed.
Lemma peval_cons a p u : peval (a :: p) u = Cplus (RtoC a) (Cmult u (peval p u)).
Proof. reflexivity. Qed.
Lemma peval_product x y u : peval (product x y) u = Cmult (peval x u) (peval y u).
Proof.
  induction x as [|a x IH]; [cbn; ring|]. destruct x as [|b x].
  - cbn [product]. rewrite peval_scale. cbn [peval]. ring.
  - change (product (a :: b :: x) y) with (padd (map (Rmult a) y) (0 :: product (b :: x) y)).
    rewrite peval_padd, peval_scale, (peval_cons 0), IH, (peval_cons a). ring.
Qed.
Lemma peval_app p q u : (forall j, nth j q 0 = 0) -> peval (p ++ q) u = peval p u.
Proof.
  intros H. induction p as [|a p IH]; cbn [app peval]; [apply peval_zero, H|]. now rewrite IH.
Qed.
Lemma drop_zeros_spec l r : drop_zeros l = Ok r -> exists z, l = z ++ r /\ Forall (fun x => x = 0) z.
Proof.
  induction l as [|a l IH]; cbn; [discriminate|]. destruct (Reqb_spec (Rabs a) 0) as [E|E].
  - intros H. destruct (IH H) as (z & -> & HZ). exists (a :: z). split; [reflexivity|]. constructor; [|exact HZ].
    destruct (Req_dec a 0); auto. exfalso. apply (Rabs_no_R0 a); auto.
  - intros H. injection H as <-. exists []. auto.
Qed.
Lemma nth_zeros z j : Forall (fun x => x = 0) z -> nth j z 0 = 0.
Proof. intros H. revert j. induction H as [|a z -> _ IH]; intros [|j]; cbn; auto. Qed.
Lemma convolve_spec x y p : convolve x y = Ok p -> exists z, product x y = p ++ z /\ Forall (fun x => x = 0) z.
Proof.
  unfold convolve. destruct (drop_zeros (rev (product x y))) as [r| |] eqn:E; cbn; try discriminate.
  intros H. injection H as <-. destruct (drop_zeros_spec _ _ E) as (z & E' & HZ).
  exists (rev z). split; [|now apply Forall_rev].
  rewrite <- (rev_involutive (product x y)), E', rev_app_distr. reflexivity.
Qed.
Lemma convolve_eval x y p u : convolve x y = Ok p -> peval p u = Cmult (peval x u) (peval y u).
Proof.
  intros H. destruct (convolve_spec x y p H) as (z & E & HZ). rewrite <- peval_product, E, peval_app; [reflexivity|].
  intros j. now apply nth_zeros.
Qed.
Lemma nth_app_zeros p z j : Forall (fun x => x = 0) z -> nth j (p ++ z) 0 = nth j p 0.
Proof.
  intros H. destruct (lt_dec j (length p)) as [L|L].
  - now apply app_nth1.
  - rewrite app_nth2 by lia. rewrite (nth_overflow p) by lia. now apply nth_zeros.
Qed.

(* Schur-Cohn recursion *)
Lemma Cmod2 (z : C) : Cmod z * Cmod z = fst z * fst z + snd z * snd z.
Proof. unfold Cmod. rewrite sqrt_sqrt; [cbn; ring|]. cbn. nra. Qed.

Lemma lattice_step (A B : C) (k : R) (u : C) : Rabs k < 1 -> Cmod u <= 1 -> A <> RtoC 0 -> Cmod B <= Cmod A ->
  let A' := Cplus A (Cmult (RtoC k) (Cmult u B)) in let B' := Cplus (Cmult (RtoC k) A) (Cmult u B) in
  A' <> RtoC 0 /\ Cmod B' <= Cmod A'.
Proof.
  intros Hk Hu HA HB A' B'. apply Rabs_def2 in Hk.
  assert (HW : Cmod (Cmult u B) <= Cmod A).
  { rewrite Cmod_mult. pose proof (Cmod_ge_0 u). pose proof (Cmod_ge_0 B). nra. }
  assert (PA : 0 < Cmod A) by (apply Cmod_gt_0; exact HA).
  set (W := Cmult u B) in *. clearbody W.
  assert (D : Cmod A' * Cmod A' - Cmod B' * Cmod B' = (1 - k * k) * (Cmod A * Cmod A - Cmod W * Cmod W)).
  { unfold A', B'. rewrite !Cmod2. destruct A, W. cbn. ring. }
  assert (0 <= Cmod A * Cmod A - Cmod W * Cmod W) by (pose proof (Cmod_ge_0 W); nra).
  assert (0 <= Cmod A' * Cmod A' - Cmod B' * Cmod B') by (rewrite D; apply Rmult_le_pos; nra).
  pose proof (Cmod_ge_0 A'). pose proof (Cmod_ge_0 B').
  split; [|nra].
  intros E. assert (EA : A = Copp (Cmult (RtoC k) W)).
  { transitivity (Cplus A' (Copp (Cmult (RtoC k) W))); [unfold A'; ring|rewrite E; ring]. }
  assert (M : Cmod A = Rabs k * Cmod W) by (rewrite EA, Cmod_opp, Cmod_mult, Cmod_R; reflexivity).
  assert (Rabs k < 1) by (apply Rabs_def1; lra). pose proof (Rabs_pos k). pose proof (Cmod_ge_0 W). nra.
Qed.

Lemma nth_map_seq (f : nat -> R) m j : (j < m)%nat -> nth j (map f (seq 0 m)) 0 = f j.
Proof.
  intros H. rewrite (nth_indep _ 0 (f 0%nat)) by (rewrite map_length, seq_length; exact H).
  rewrite map_nth, seq_nth by exact H. reflexivity.
Qed.
Lemma nth_rev_R (l : list R) j : (j < length l)%nat -> nth j (rev l) 0 = nth (length l - S j) l 0.
Proof. intros H. now rewrite rev_nth. Qed.
Lemma nth_padd x y j : nth j (padd x y) 0 = nth j x 0 + nth j y 0.
Proof.
  revert y j. induction x as [|a x IH]; intros [|b y] [|j]; cbn [padd nth]; try lra. apply IH.
Qed.
Lemma nth_scale a y j : nth j (map (Rmult a) y) 0 = a * nth j y 0.
Proof. replace 0 with (a * 0) at 1 by ring. apply map_nth. Qed.

Lemma nth_div n y j : nth j (map (fun x => x / n) y) 0 = nth j y 0 / n.
Proof. revert j. induction y as [|a y IH]; intros [|j]; cbn [map nth]; auto; unfold Rdiv; ring. Qed.

Section Step.
Variables (m : nat) (pa : list R).
Hypothesis HL : length pa = S (S m).
Let k := nth (S m) pa 0.
Hypothesis Hk : 1 - k * k <> 0.
Hypothesis H0 : nth 0 pa 0 = 1.
Let pa' := map (fun j => (nth j pa 0 - k * nth (S m - j) pa 0) * (1 / (1 - k * k))) (seq 0 (S m)).
Lemma reduced_length : length pa' = S m.
Proof. unfold pa'. now rewrite map_length, seq_length. Qed.
Lemma reduced_nth j : (j <= m)%nat -> nth j pa' 0 = (nth j pa 0 - k * nth (S m - j) pa 0) * (1 / (1 - k * k)).
Proof. intros H. unfold pa'. now rewrite nth_map_seq by lia. Qed.
Lemma reduced_head : nth 0 pa' 0 = 1.
Proof. rewrite reduced_nth by lia. rewrite H0, Nat.sub_0_r. fold k. field. exact Hk. Qed.
Lemma forward_coef : forall j, nth j (pa) 0 = nth j (padd pa' (0 :: map (Rmult k) (rev pa'))) 0.
Proof.
  intros j. rewrite nth_padd. destruct j as [|j].
    + cbn [nth]. rewrite H0. rewrite reduced_head. lra.
    + cbn [nth]. rewrite nth_scale.
      destruct (le_lt_dec (S j) m) as [L|L].
      * rewrite nth_rev_R by (rewrite reduced_length; lia). rewrite reduced_length. rewrite !reduced_nth by lia.
        replace (S m - (S m - S j))%nat with (S j) by lia. replace (S m - S j)%nat with (m - j)%nat by lia.
        field. exact Hk.
      * rewrite (nth_overflow pa') by (rewrite reduced_length; lia).
        destruct (Nat.eq_dec j m) as [->|NE].
        -- rewrite nth_rev_R by (rewrite reduced_length; lia). rewrite reduced_length.
           replace (S m - S m)%nat with 0%nat by lia. rewrite reduced_head. unfold k. lra.
        -- rewrite (nth_overflow pa) by lia. rewrite (nth_overflow (rev pa')) by (rewrite rev_length, reduced_length; lia). lra.
Qed.
Lemma reduced_forward u : peval pa u = Cplus (peval pa' u) (Cmult (RtoC k) (Cmult u (peval (rev pa') u))).
Proof.
  transitivity (peval (padd pa' (0 :: map (Rmult k) (rev pa'))) u).
  - apply peval_ext. exact forward_coef.
  - rewrite peval_padd, peval_cons, peval_scale. ring.
Qed.
Lemma backward_coef : forall j, nth j (rev pa) 0 = nth j (padd (map (Rmult k) pa') (0 :: rev pa')) 0.
Proof.
  intros j. rewrite nth_padd, nth_scale. destruct j as [|j].
    + cbn [nth]. rewrite nth_rev_R by lia. rewrite HL, reduced_head. replace (S (S m) - 1)%nat with (S m) by lia. fold k. lra.
    + cbn [nth]. destruct (le_lt_dec (S j) m) as [L|L].
      * rewrite !nth_rev_R by (rewrite ?reduced_length; lia). rewrite reduced_length, HL. rewrite !reduced_nth by lia.
        replace (S m - (S m - S j))%nat with (S j) by lia. replace (S (S m) - S (S j))%nat with (m - j)%nat by lia.
        replace (S m - S j)%nat with (m - j)%nat by lia. field. exact Hk.
      * rewrite (nth_overflow pa') by (rewrite reduced_length; lia).
        destruct (Nat.eq_dec j m) as [->|NE].
        -- rewrite !nth_rev_R by (rewrite ?reduced_length; lia). rewrite reduced_length, HL.
           replace (S m - S m)%nat with 0%nat by lia. replace (S (S m) - S (S m))%nat with 0%nat by lia. rewrite reduced_head, H0. lra.
        -- rewrite (nth_overflow (rev pa)) by (rewrite rev_length; lia).
           rewrite (nth_overflow (rev pa')) by (rewrite rev_length, reduced_length; lia). lra.
Qed.
Lemma reduced_backward u : peval (rev pa) u = Cplus (Cmult (RtoC k) (peval pa' u)) (Cmult u (peval (rev pa') u)).
Proof.
  transitivity (peval (padd (map (Rmult k) pa') (0 :: rev pa')) u).
  - apply peval_ext. exact backward_coef.
  - rewrite peval_padd, peval_cons, peval_scale. ring.
Qed.
End Step.

Lemma ladder_loop_length m pa pp : length (fst (ladder_loop m pa pp)) = m /\ length (snd (ladder_loop m pa pp)) = S m.
Proof.
  revert pa pp. induction m as [|m IH]; intros pa pp; cbn [ladder_loop fst snd]; [auto|].
  rewrite !app_length. cbn [length]. match goal with |- context [ladder_loop m ?x ?y] => destruct (IH x y) end. lia.
Qed.

Lemma schur_cohn m : forall pa pp, length pa = S m -> nth 0 pa 0 = 1 ->
  Forall (fun k => Rabs k < 1) (fst (ladder_loop m pa pp)) ->
  forall u, Cmod u <= 1 -> peval pa u <> RtoC 0 /\ Cmod (peval (rev pa) u) <= Cmod (peval pa u).
Proof.
  induction m as [|m IH]; intros pa pp HL H0 HF u Hu.
  - destruct pa as [|a [|]]; try discriminate. cbn in H0. subst a. cbn [rev app peval]. split; [|lra].
    intros E. apply (f_equal fst) in E. cbn in E. lra.
  - cbn [ladder_loop fst] in HF. apply Forall_app in HF. destruct HF as [HF HK].
    inversion HK as [|? ? Hk _]; subst. set (k := nth (S m) pa 0) in *.
    assert (NK : 1 - k * k <> 0) by (apply Rabs_def2 in Hk; nra).
    pose proof (reduced_length m pa) as RL. cbv zeta in RL.
    rewrite (reduced_forward m pa HL NK H0 u), (reduced_backward m pa HL NK H0 u).
    fold k. set (pa' := map (fun j => (nth j pa 0 - k * nth (S m - j) pa 0) * (1 / (1 - k * k))) (seq 0 (S m))) in *.
    destruct (IH pa' _ RL (reduced_head m pa HL NK H0) HF u Hu) as [N B].
    exact (lattice_step (peval pa' u) (peval (rev pa') u) k u Hk Hu N B).
Qed.

Lemma vresize_nth (n : nat) (l : list R) j : (length l <= n)%nat -> nth j (vresize 0 n l) 0 = nth j l 0.
Proof.
  intros H. unfold vresize. rewrite firstn_all2 by exact H. apply nth_app_zeros.
  apply Forall_forall. intros x Hx. now apply repeat_spec in Hx.
Qed.
Lemma vresize_len (n : nat) (l : list R) : (length l <= n)%nat -> length (vresize 0 n l) = n.
Proof. intros H. unfold vresize. rewrite firstn_all2 by exact H. rewrite app_length, repeat_length. lia. Qed.

Lemma make_ladder_stable b a k v : make_ladder b a = Ok (k, v) -> Forall (fun x => Rabs x < 1) k -> stable_poly a.
Proof.
  unfold make_ladder. intros H HF. apply ocheck_ok in H. destruct H as [HB H]. apply ocheck_ok in H. destruct H as [HA H].
  apply ocheck_ok in H. destruct H as [H0 H]. destruct (Reqb_spec (nth 0 a 0) 0) as [E|NE]; [discriminate|].
  set (order := (Nat.max (length b) (length a) - 1)%nat) in *.
  set (pp := vresize 0 (S order) (map (fun x => x / nth 0 a 0) b)) in *.
  set (pa := vresize 0 (S order) (map (fun x => x / nth 0 a 0) a)) in *.
  assert (E : ladder_loop order pa pp = (k, v)) by congruence. clear H.
  assert (LA : le (length (map (fun x => x / nth 0 a 0) a)) (S order)).
  { rewrite map_length. unfold order. clear. lia. }
  assert (NA : forall j, nth j pa 0 = nth j a 0 / nth 0 a 0).
  { intros j. unfold pa. rewrite vresize_nth by exact LA.
    apply nth_div. }
  intros u Hu. destruct (schur_cohn order pa pp) with (u := u) as [N _].
  - unfold pa. now apply vresize_len.
  - rewrite NA. field. exact NE.
  - rewrite E. exact HF.
  - exact Hu.
  - intros Z. apply N. rewrite (peval_ext pa (map (Rmult (/ nth 0 a 0)) a)).
    + rewrite peval_scale, Z. ring.
    + intros j. rewrite NA, nth_scale. unfold Rdiv. ring.
Qed.

Lemma product_of_eval l acc p u : product_of l acc = Ok p ->
  peval p u = Cmult (fold_right (fun q x => Cmult (peval q u) x) (RtoC 1) l) (peval acc u).
Proof.
  revert acc. induction l as [|q l IH]; intros acc; cbn [product_of fold_right].
  - intros H. injection H as <-. ring.
  - destruct (convolve q acc) as [r| |] eqn:E; cbn; try discriminate. intros H. rewrite (IH r H).
    rewrite (convolve_eval _ _ _ u E). ring.
Qed.

Lemma denominator_peval c z : z <> RtoC 0 -> denominator c z = Cmult (Cmult z z) (peval (vec_a c) (Cinv z)).
Proof. intros H. unfold denominator, vec_a. cbn [peval]. field. exact H. Qed.
Lemma numerator_peval c z : z <> RtoC 0 -> numerator c z = Cmult (Cmult z z) (peval (vec_b c) (Cinv z)).
Proof. intros H. unfold numerator, vec_b. cbn [peval]. field. exact H. Qed.

Lemma fold_zero (l : list (list R)) u q : In q l -> peval q u = RtoC 0 ->
  fold_right (fun q x => Cmult (peval q u) x) (RtoC 1) l = RtoC 0.
Proof.
  induction l as [|p l IH]; [now intros []|]. intros [->|H] E; cbn [fold_right].
  - rewrite E. ring.
  - rewrite IH by assumption. ring.
Qed.

Lemma make_ladder_a0 b a kv : make_ladder b a = Ok kv -> nth 0 a 0 <> 0.
Proof.
  unfold make_ladder. intros H. apply ocheck_ok in H. destruct H as [HB H]. apply ocheck_ok in H. destruct H as [HA H].
  apply ocheck_ok in H. destruct H as [H0 H]. destruct (Reqb_spec (nth 0 a 0) 0); [discriminate|assumption].
Qed.
Lemma nth0_product x y : nth 0 (product x y) 0 = nth 0 x 0 * nth 0 y 0.
Proof.
  destruct x as [|a [|b x]]; cbn [product]; [cbn; lra|rewrite nth_scale; reflexivity|].
  rewrite nth_padd, nth_scale. cbn [nth]. lra.
Qed.
Lemma product_of_a0 l acc p : product_of l acc = Ok p -> nth 0 p 0 <> 0 -> Forall (fun q => nth 0 q 0 <> 0) l.
Proof.
  revert acc. assert (G : forall acc, product_of l acc = Ok p -> nth 0 p 0 = fold_right (fun q x => nth 0 q 0 * x) 1 l * nth 0 acc 0).
  { induction l as [|q l IH]; intros acc; cbn [product_of fold_right].
    - intros H. injection H as <-. ring.
    - destruct (convolve q acc) as [r| |] eqn:E; cbn; try discriminate. intros H. rewrite (IH r H).
      destruct (convolve_spec _ _ _ E) as (z & EP & HZ).
      assert (X : nth 0 r 0 = nth 0 q 0 * nth 0 acc 0) by (rewrite <- nth0_product, EP; now rewrite nth_app_zeros).
      rewrite X. ring. }
  intros acc H N. rewrite (G acc H) in N. clear G H.
  assert (M : fold_right (fun q x => nth 0 q 0 * x) 1 l <> 0) by (intros E; apply N; rewrite E; ring). clear N.
  induction l as [|q l IH]; [constructor|]. cbn [fold_right] in M. constructor.
  - intros E. apply M. rewrite E. ring.
  - apply IH. intros E. apply M. rewrite E. ring.
Qed.

Lemma cascade_stable_sound cs : cascade_is_stable cs = Ok true -> Forall stable cs.
Proof.
  unfold cascade_is_stable, as_polynomial_ratio.
  destruct (product_of (map vec_b cs) [1]) as [b| |] eqn:EB; cbn [obind]; try discriminate.
  destruct (product_of (map vec_a cs) [1]) as [a| |] eqn:EA; cbn [obind]; try discriminate. cbn [fst snd].
  destruct (make_ladder b a) as [[k v]| |] eqn:EL; cbn [obind fst]; try discriminate. intros H. injection H as H.
  assert (HF : Forall (fun x => Rabs x < 1) k).
  { rewrite forallb_forall in H. apply Forall_forall. intros x Hx. specialize (H x Hx). now destruct (Rltb_spec (Rabs x) 1). }
  pose proof (make_ladder_stable b a k v EL HF) as SP.
  pose proof (product_of_a0 _ _ _ EA (make_ladder_a0 _ _ _ EL)) as N0.
  apply Forall_forall. intros c Hc. rewrite Forall_forall in N0.
  assert (A0 : a0 c <> 0). { specialize (N0 (vec_a c) (in_map vec_a cs c Hc)). exact N0. }
  split; [exact A0|]. intros z HD. apply Rnot_le_lt. intros L.
  assert (NZ : z <> RtoC 0). { intros E. rewrite E, Cmod_0 in L. lra. }
  rewrite denominator_peval in HD by exact NZ.
  assert (Z : peval (vec_a c) (Cinv z) = RtoC 0).
  { transitivity (Cmult (Cinv (Cmult z z)) (Cmult (Cmult z z) (peval (vec_a c) (Cinv z)))); [field; exact NZ|]. rewrite HD. ring. }
  apply (SP (Cinv z)).
  - rewrite Cmod_inv by exact NZ. rewrite <- Rinv_1. apply Rinv_le_contravar; lra.
  - rewrite (product_of_eval _ _ _ _ EA). rewrite (fold_zero _ _ (vec_a c)); [ring|now apply in_map|exact Z].
Qed.

(* second order *)
Lemma is_stable_biquad c : a0 c <> 0 -> exists k1, make_ladder (vec_b c) (vec_a c) = Ok ([k1; a2 c / a0 c], snd (ladder_loop 2 (map (fun x => x / a0 c) (vec_a c)) (map (fun x => x / a0 c) (vec_b c)))) /\
  (1 - a2 c / a0 c * (a2 c / a0 c) <> 0 -> k1 * (1 + a2 c / a0 c) = a1 c / a0 c).
Proof.
  intros H. unfold make_ladder. cbn [length vec_a vec_b Nat.eqb negb ocheck Nat.max Nat.sub nth].
  destruct (Reqb_spec (a0 c) 0); [contradiction|]. cbn [negb ocheck].
  eexists. split.
  - unfold vresize. cbn [map firstn length Nat.sub repeat app]. unfold ladder_loop at 1. cbn [fst snd app nth seq map Nat.sub]. f_equal.
  - cbn. intros NK. set (k := a2 c / a0 c) in *. field. split; [exact H|].
    intros E. apply NK. lra.
Qed.

Lemma is_stable_exact c : a0 c <> 0 -> exists r, is_stable c = Ok r /\ (r = true <-> stable c).
Proof.
  intros H. destruct (is_stable_biquad c H) as (k1 & E & HK). unfold is_stable. rewrite E. cbn [obind fst forallb].
  eexists. split; [reflexivity|]. rewrite andb_true_r.
  assert (SN : stable c <-> stable (normalize c)).
  { split; [apply normalize_stable; exact H|]. intros [_ HS]. split; [exact H|]. intros z HD. apply HS.
    rewrite normalize_denominator in HD by exact H.
    transitivity (Cmult (Cinv (RtoC (a0 c))) (Cmult (RtoC (a0 c)) (denominator (normalize c) z))).
    - field. now apply RtoC_neq.
    - rewrite HD. ring. }
  rewrite SN. set (k2 := a2 c / a0 c) in *.
  assert (JA : a0 (normalize c) = 1) by (cbn; field; exact H).
  assert (J2 : a2 (normalize c) = k2) by reflexivity.
  assert (J1 : a1 (normalize c) = a1 c / a0 c) by reflexivity.
  split.
  - intros HB. apply andb_true_iff in HB. destruct HB as [B1 B2].
    destruct (Rleb_spec 1 (Rabs k1)) as [|N1]; [discriminate|]. destruct (Rleb_spec 1 (Rabs k2)) as [|N2]; [discriminate|].
    apply Rnot_le_lt in N1, N2. apply Rabs_def2 in N1. pose proof N2 as N2'. apply Rabs_def2 in N2.
    assert (NK : 1 - k2 * k2 <> 0) by nra. specialize (HK NK).
    apply jury; rewrite ?JA, ?J1, ?J2, <- ?HK; [lra|exact N2'|nra|nra].
  - intros HS. destruct (jury_inv (normalize c)) as (H2 & HP & HM); [rewrite JA; lra|exact HS|].
    rewrite JA, J2 in *. rewrite J1 in *. pose proof H2 as H2'. apply Rabs_def2 in H2.
    assert (NK : 1 - k2 * k2 <> 0) by nra. specialize (HK NK). rewrite <- HK in *.
    assert (-1 < k1) by nra. assert (k1 < 1) by nra.
    rewrite (Rleb_false 1 (Rabs k1)) by (apply Rabs_def1; lra). rewrite (Rleb_false 1 (Rabs k2)) by exact H2'. reflexivity.
Qed.
