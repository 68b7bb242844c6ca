From Verif Require Import Common ListLemmas RealUtil BiquadModel DesignModel DesignSpec DesignProofs DesignProofs2 DesignProofs3 CascadeModel CascadeSpec CascadeProofs CascadeProofs2 PoleZeroModel PoleZeroSpec PoleZeroProofs PoleZeroProofs2 PoleZeroProofs3 PoleZeroProofs4 PoleZeroProofs5 PolyRoots PoleZeroProofs6 PoleZeroProofs7.
From Coquelicot Require Import Complex.
Local Open Scope R_scope.

(* ---------- complex square roots ---------- *)
Lemma complex_sqrt_sq z : Cmult (complex_sqrt z) (complex_sqrt z) = z.
Proof.
  destruct z as [x y]. unfold complex_sqrt. cbn [fst snd]. pose proof (Cmod2 (x, y)) as M. cbn [fst snd] in M. pose proof (Cmod_ge_0 (x, y)) as M0. set (m := Cmod (x, y)) in *.
  assert (A : 0 <= (m + x) / 2) by nra. assert (B : 0 <= (m - x) / 2) by nra.
  pose proof (sqrt_sqrt _ A) as SA. pose proof (sqrt_sqrt _ B) as SB. pose proof (sqrt_pos ((m + x) / 2)) as PA. pose proof (sqrt_pos ((m - x) / 2)) as PB.
  assert (AB : sqrt ((m + x) / 2) * sqrt ((m - x) / 2) = Rabs y / 2).
  { rewrite <- sqrt_mult by assumption. replace ((m + x) / 2 * ((m - x) / 2)) with (Rabs y / 2 * (Rabs y / 2)).
    - apply sqrt_square. pose proof (Rabs_pos y). lra.
    - assert (Rabs y * Rabs y = y * y) by (rewrite <- Rabs_mult; apply Rabs_pos_eq; nra). nra. }
  set (a := sqrt ((m + x) / 2)) in *. set (b := sqrt ((m - x) / 2)) in *. apply injective_projections; unfold Cmult; cbn [fst snd]; destruct (Rltb_spec y 0) as [N|N].
  - nra.
  - nra.
  - rewrite Rabs_left in AB by exact N. nra.
  - rewrite Rabs_pos_eq in AB by lra. nra.
Qed.
Lemma complex_sqrt_neg x : 0 <= x -> complex_sqrt (RtoC (- x)) = (0, sqrt x).
Proof.
  intros H. unfold complex_sqrt. cbn [RtoC fst snd]. change ((- x, 0) : C) with (RtoC (- x)). rewrite Cmod_R, Rabs_Ropp, Rabs_pos_eq by exact H. destruct (Rltb_spec 0 0) as [X|_]; [lra|].
  replace ((x + - x) / 2) with 0 by field. replace ((x - - x) / 2) with x by field. now rewrite sqrt_0.
Qed.

(* ---------- moving the roots away from DC ---------- *)
Definition moved (c : R) (lone : list R) (paired : list C) : list C :=
  map (fun p => shifted_plus c (RtoC p)) lone ++ flat_map (fun p => [shifted_plus c p; shifted_minus c p]) paired.
Lemma add_both_poles c l : forall f, add_all (fun p h => add_pole_pair (shifted_minus c p) (add_pole_pair (shifted_plus c p) h)) l f =
  {| lone_zeros := lone_zeros f; lone_poles := lone_poles f; paired_zeros := paired_zeros f; paired_poles := paired_poles f ++ flat_map (fun p => [shifted_plus c p; shifted_minus c p]) l; pz_gain := pz_gain f |}.
Proof. unfold add_all. induction l as [|x l IH]; intros f; cbn [fold_left flat_map]; [rewrite app_nil_r; destruct f; reflexivity|]. rewrite IH. unfold add_pole_pair. cbn [lone_zeros lone_poles paired_zeros paired_poles pz_gain app]. rewrite <- !app_assoc. reflexivity. Qed.
Lemma add_both_zeros c l : forall f, add_all (fun p h => add_zero_pair (shifted_minus c p) (add_zero_pair (shifted_plus c p) h)) l f =
  {| lone_zeros := lone_zeros f; lone_poles := lone_poles f; paired_zeros := paired_zeros f ++ flat_map (fun p => [shifted_plus c p; shifted_minus c p]) l; paired_poles := paired_poles f; pz_gain := pz_gain f |}.
Proof. unfold add_all. induction l as [|x l IH]; intros f; cbn [fold_left flat_map]; [rewrite app_nil_r; destruct f; reflexivity|]. rewrite IH. unfold add_zero_pair. cbn [lone_zeros lone_poles paired_zeros paired_poles pz_gain app]. rewrite <- !app_assoc. reflexivity. Qed.
Lemma shift_roots_is c f : shift_roots c f = {| lone_zeros := []; lone_poles := []; paired_zeros := moved c (lone_zeros f) (paired_zeros f); paired_poles := moved c (lone_poles f) (paired_poles f); pz_gain := pz_gain f |}.
Proof. unfold shift_roots. rewrite add_both_zeros, add_zero_pairs, add_both_poles, add_pole_pairs. reflexivity. Qed.
Section Shift.
  Variable c : R.
  Notation quad s := (fun r => Cminus (Cplus (Cmult s s) (RtoC (c * c))) (Cmult (Cmult (RtoC 2) r) s)).
  Lemma lone_moved x : x * x <= c * c -> shifted_plus c (RtoC x) = (x, sqrt (c * c - x * x)).
  Proof.
    intros H. unfold shifted_plus. rewrite <- RtoC_mult, <- RtoC_minus. replace (x * x - c * c) with (- (c * c - x * x)) by ring. rewrite complex_sqrt_neg by lra. apply injective_projections; cbn; ring.
  Qed.
  Lemma pair_moved s p : Cmult (Cminus s (shifted_plus c p)) (Cminus s (shifted_minus c p)) = quad s p.
  Proof.
    unfold shifted_plus, shifted_minus. set (w := complex_sqrt _). assert (E : Cmult w w = Cminus (Cmult p p) (RtoC (c * c))) by apply complex_sqrt_sq.
    transitivity (Cplus (Cminus (Cmult s s) (Cmult (Cmult (RtoC 2) p) s)) (Cminus (Cmult p p) (Cmult w w))); [|rewrite E; ring].
    replace (RtoC 2) with (Cplus (RtoC 1) (RtoC 1)) by (apply injective_projections; cbn; ring). ring.
  Qed.
  Lemma pair_moved_conj s p : Cmult (Cminus s (Cconj (shifted_plus c p))) (Cminus s (Cconj (shifted_minus c p))) = quad s (Cconj p).
  Proof.
    pose proof (pair_moved (Cconj s) p) as H. apply (f_equal Cconj) in H. rewrite !Cconj_mult', !Cconj_minus, Cconj_conj, !Cconj_plus, !Cconj_mult', !Cconj_RtoC, Cconj_conj in H. exact H.
  Qed.
  Lemma po_moved s lone paired : (forall x, In x lone -> x * x <= c * c) ->
    po (fun r => Cminus s r) (roots [] (moved c lone paired)) = po (quad s) (roots lone paired).
  Proof.
    intros H. rewrite !po_roots. cbn [map product_over]. rewrite Cmult_1_l. unfold moved. rewrite po_app. f_equal.
    - induction lone as [|x l IH]; cbn [map product_over]; [reflexivity|]. rewrite IH by (intros y Hy; apply H; now right). f_equal. rewrite lone_moved by (apply H; now left).
      pose proof (sqrt_sqrt (c * c - x * x) ltac:(specialize (H x (or_introl eq_refl)); lra)) as Q. set (y := sqrt _) in *. destruct s as [u v]. apply injective_projections; cbn; nra.
    - clear H. induction paired as [|p l IH]; cbn [flat_map app product_over]; [reflexivity|]. rewrite IH, <- pair_moved, <- pair_moved_conj. ring.
  Qed.
  Lemma in_moved r lone paired : (forall x, In x lone -> x * x <= c * c) -> In r (roots [] (moved c lone paired)) ->
    exists p, In p (roots lone paired) /\ Cmult (Cmult (RtoC 2) p) r = Cplus (Cmult r r) (RtoC (c * c)).
  Proof.
    intros H Hr. assert (Z : po (fun q => Cminus r q) (roots [] (moved c lone paired)) = RtoC 0).
    { destruct (Ceq_dec (po (fun q => Cminus r q) (roots [] (moved c lone paired))) (RtoC 0)) as [E|E]; [exact E|]. exfalso. apply (proj1 (po_neq _ _) E r Hr). ring. }
    rewrite po_moved in Z by exact H. assert (X : exists p, In p (roots lone paired) /\ quad r p = RtoC 0).
    { revert Z. generalize (roots lone paired). intros l. induction l as [|p l IH]; cbn [product_over]; intros Z; [exfalso; revert Z; apply RtoC_neq; lra|].
      destruct (Ceq_dec (quad r p) (RtoC 0)) as [E|E]; [exists p; split; [now left|exact E]|]. destruct (Ceq_dec (po (quad r) l) (RtoC 0)) as [E'|E']; [destruct (IH E') as (q & Q1 & Q2); exists q; split; [now right|exact Q2]|].
      exfalso. revert Z. apply Cmult_neq; assumption. }
    destruct X as (p & Hp & E). exists p. split; [exact Hp|]. cbv beta in E. transitivity (Cminus (Cplus (Cmult r r) (RtoC (c * c))) (Cminus (Cplus (Cmult r r) (RtoC (c * c))) (Cmult (Cmult (RtoC 2) p) r))); [ring|rewrite E; ring].
  Qed.
  Lemma moved_length lone paired : length (roots [] (moved c lone paired)) = (2 * length (roots lone paired))%nat.
  Proof. rewrite !roots_length. unfold moved. rewrite app_length, map_length. cbn [length]. assert (E : forall l : list C, length (flat_map (fun p => [shifted_plus c p; shifted_minus c p]) l) = (2 * length l)%nat) by (induction l as [|x l IH]; cbn [flat_map app length]; lia). rewrite E. lia. Qed.
  (* the real part of a moved root has the sign of the original *)
  Lemma moved_nonzero r p : c <> 0 -> Cmult (Cmult (RtoC 2) p) r = Cplus (Cmult r r) (RtoC (c * c)) -> r <> RtoC 0.
  Proof. intros H E X. subst r. apply (f_equal fst) in E. cbn in E. assert (c * c = 0) by lra. destruct (Rmult_integral _ _ H0); lra. Qed.
  Lemma moved_re r p : c <> 0 -> Cmult (Cmult (RtoC 2) p) r = Cplus (Cmult r r) (RtoC (c * c)) -> exists k, 0 < k /\ fst r = k * fst p.
  Proof.
    intros H E. pose proof (moved_nonzero r p H E) as N. apply Cmod_gt_0 in N. assert (R2 := Cmod2 r). set (m := Cmod r) in *.
    assert (Q : fst r * (m * m + c * c) = 2 * fst p * (m * m)).
    { assert (F : Cmult (Cmult (RtoC 2) p) (Cmult r (Cconj r)) = Cmult (Cplus (Cmult r r) (RtoC (c * c))) (Cconj r)) by (rewrite <- E; ring). rewrite Cconj_mul in F. fold m in F. apply (f_equal fst) in F. cbn in F. rewrite R2 in F. rewrite R2. destruct r as [x y], p as [u v]. cbn [fst snd] in *. nra. }
    exists (2 * (m * m) / (m * m + c * c)). split; [apply Rdiv_lt_0_compat; nra|]. apply (Rmult_eq_reg_r (m * m + c * c)); [|nra]. rewrite Q. field. nra.
  Qed.
  (* a moved root is not taken close to zero by the bilinear transform *)
  Lemma moved_away K r p : 0 < K -> c <> 0 -> fst p <= 0 -> Cmult (Cmult (RtoC 2) p) r = Cplus (Cmult r r) (RtoC (c * c)) ->
    let t := RtoC (2 * K / (K * K + c * c)) in / 100000 * Cmod (Cminus (RtoC 1) (Cmult t p)) < Cmod (Cplus (RtoC 1) (Cmult t p)) ->
    / 100000 < Cmod (bilinear_root K r).
  Proof.
    intros HK Hc HP E t H. pose proof (moved_nonzero r p Hc E) as N. set (q := Cdiv (RtoC (c * c)) r).
    assert (SUM : Cplus r q = Cmult (RtoC 2) p) by (unfold q; transitivity (Cdiv (Cplus (Cmult r r) (RtoC (c * c))) r); [field; exact N|rewrite <- E; field; exact N]).
    assert (PROD : Cmult r q = RtoC (c * c)) by (unfold q; field; exact N).
    assert (EQ : Cmult (Cmult (RtoC 2) p) q = Cplus (Cmult q q) (RtoC (c * c))) by (rewrite <- SUM, <- PROD; ring).
    destruct (moved_re r p Hc E) as (k1 & K1 & F1). destruct (moved_re q p Hc EQ) as (k2 & K2 & F2).
    assert (KC : 0 < K * K + c * c) by nra. set (d := RtoC (K * K + c * c)). assert (D0 : d <> RtoC 0) by (apply RtoC_neq; lra).
    assert (ET : Cmult t d = Cmult (RtoC 2) (RtoC K)) by (unfold t, d; rewrite <- !RtoC_mult; f_equal; field; lra).
    assert (ED : d = Cplus (Cmult (RtoC K) (RtoC K)) (RtoC (c * c))) by (unfold d; now rewrite RtoC_plus, RtoC_mult).
    assert (E1 : Cmult (Cplus (RtoC K) r) (Cplus (RtoC K) q) = Cmult d (Cplus (RtoC 1) (Cmult t p))).
    { transitivity (Cplus (Cplus (Cmult (RtoC K) (RtoC K)) (Cmult r q)) (Cmult (RtoC K) (Cplus r q))); [ring|]. rewrite SUM, PROD, <- ED. transitivity (Cplus d (Cmult (Cmult t d) p)); [rewrite ET; ring|ring]. }
    assert (E2 : Cmult (Cminus (RtoC K) r) (Cminus (RtoC K) q) = Cmult d (Cminus (RtoC 1) (Cmult t p))).
    { transitivity (Cminus (Cplus (Cmult (RtoC K) (RtoC K)) (Cmult r q)) (Cmult (RtoC K) (Cplus r q))); [ring|]. rewrite SUM, PROD, <- ED. transitivity (Cminus d (Cmult (Cmult t d) p)); [rewrite ET; ring|ring]. }
    apply (f_equal Cmod) in E1. apply (f_equal Cmod) in E2. rewrite !Cmod_mult in E1, E2.
    assert (NR : Cminus (RtoC K) r <> RtoC 0) by (apply Cminus_neq; intros X; rewrite <- X in F1; cbn in F1; nra).
    assert (NQ : Cmod (Cplus (RtoC K) q) <= Cmod (Cminus (RtoC K) q)).
    { apply Rsqr_incr_0; [|apply Cmod_ge_0|apply Cmod_ge_0]. unfold Rsqr. rewrite !Cmod2. assert (fst q <= 0) by nra. destruct q as [x y]. cbn [fst snd Cplus Cminus Copp RtoC] in *. nra. }
    apply Cmod_gt_0 in D0. unfold bilinear_root. apply away_ratio; [exact NR|].
    set (a := Cmod (Cplus (RtoC K) r)) in *. set (b := Cmod (Cplus (RtoC K) q)) in *. set (a' := Cmod (Cminus (RtoC K) r)) in *. set (b' := Cmod (Cminus (RtoC K) q)) in *. set (u := Cmod (Cplus (RtoC 1) (Cmult t p))) in *. set (v := Cmod (Cminus (RtoC 1) (Cmult t p))) in *.
    assert (X : / 100000 * (a' * b') < a * b) by (rewrite E1, E2; nra).
    assert (B0 : 0 <= b) by apply Cmod_ge_0. assert (A0 : 0 < a') by (now apply Cmod_gt_0 in NR). assert (A1 : 0 <= a) by apply Cmod_ge_0.
    assert (BP : 0 < b') by (destruct (Rle_lt_or_eq_dec 0 b ltac:(lra)) as [Y|Y]; [lra|rewrite <- Y in X; nra]).
    apply (Rmult_lt_reg_r b'); [exact BP|]. nra.
  Qed.
End Shift.
