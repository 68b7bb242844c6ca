From Verif Require Import Common ListLemmas RealUtil BiquadModel DesignModel DesignSpec DesignProofs CascadeModel CascadeSpec CascadeProofs CascadeProofs2 PoleZeroModel PoleZeroSpec PoleZeroProofs PoleZeroProofs3 PoleZeroProofs4 PoleZeroProofs5 PoleZeroProofs6 PoleZeroProofs7 PoleZeroProofs11 PoleZeroProofs12 PoleZeroProofs13 PoleZeroProofs14 PoleZeroProofs15 ComplexModel ComplexProofs ZpkModel ZpkSpec ZpkProofs ZpkProofs2 ZpkProofs3.
From Coq Require Import Permutation Sorted.
From Coquelicot Require Import Complex.
Local Open Scope R_scope.

(* ---------- when the digital roots are plainly real or not ---------- *)
Definition tol : R := 100 / 2 ^ 52.
Lemma tol_pos : 0 < tol. Proof. unfold tol. lra. Qed.
Definition plain (w : C) : Prop := snd w = 0 \/ tol * (1 + Cmod w * Cmod w) < 2 * Rabs (snd w).
Lemma bilinear_plain K w : 0 < K -> plain w -> Cmult (RtoC K) w <> RtoC K -> plainly_real_or_not (bilinear_root K (Cmult (RtoC K) w)).
Proof.
  intros HK HP HN. assert (N : Cminus (RtoC 1) w <> RtoC 0) by (apply Cminus_neq; intros E; apply HN; rewrite <- E; ring).
  assert (E : bilinear_root K (Cmult (RtoC K) w) = Cdiv (Cplus (RtoC 1) w) (Cminus (RtoC 1) w)).
  { unfold bilinear_root. rewrite <- (Cdiv_cancel (Cplus (RtoC 1) w) (Cminus (RtoC 1) w) (RtoC K)) by (exact N || (apply RtoC_neq; lra)). f_equal; ring. }
  rewrite E. clear E HN. pose proof N as NP. apply Cmod_gt_0 in NP. set (m := Cmod (Cminus (RtoC 1) w)) in *.
  assert (M2 : m * m = (1 - fst w) * (1 - fst w) + snd w * snd w). { unfold m. rewrite Cmod2. destruct w; cbn. ring. }
  assert (S2 : snd (Cdiv (Cplus (RtoC 1) w) (Cminus (RtoC 1) w)) = 2 * snd w / (m * m)).
  { assert (D : 0 < m * m) by nra. rewrite M2 in D |- *. clear - D. destruct w as [x y]. cbn [fst snd] in *. unfold Cdiv, Cinv. cbn. field. nra. }
  assert (P2 : (m * Cmod (Cplus (RtoC 1) w)) <= 1 + Cmod w * Cmod w).
  { unfold m. rewrite <- Cmod_mult. replace (Cmult (Cminus (RtoC 1) w) (Cplus (RtoC 1) w)) with (Cplus (RtoC 1) (Copp (Cmult w w))) by ring. eapply Rle_trans; [apply Cmod_triangle|]. rewrite Cmod_opp, Cmod_mult, Cmod_1. lra. }
  destruct HP as [HP|HP].
  - left. rewrite S2, HP. unfold Rdiv. ring.
  - right. fold tol. rewrite S2, Cmod_div by exact N. fold m. unfold Rdiv at 2. rewrite Rabs_mult, Rabs_mult, (Rabs_pos_eq 2), (Rabs_pos_eq (/ (m * m))) by (try lra; left; apply Rinv_0_lt_compat; nra).
    apply (Rmult_lt_reg_r (m * m)); [nra|]. rewrite (Rmult_assoc (2 * Rabs (snd w))), Rinv_l, Rmult_1_r by nra.
    replace (tol * (Cmod (Cplus (RtoC 1) w) / m) * (m * m)) with (tol * (m * Cmod (Cplus (RtoC 1) w))) by (field; lra). pose proof tol_pos. nra.
Qed.
Lemma plain_real x : plain (RtoC x).
Proof. left. reflexivity. Qed.

Section Design.
Variables (ex : R -> Z) (qsort : list C -> list C).
Hypothesis HQ : sorts qsort.

Lemma clear_digital K l n : 0 < K -> (forall r, In r l -> exists w, r = Cmult (RtoC K) w /\ plain w /\ fst r <= 0) -> clear_cut (map (bilinear_root K) l ++ repeat (RtoC (-1)) n).
Proof.
  intros HK H r Hr. apply in_app_iff in Hr as [Hr|Hr].
  - apply in_map_iff in Hr as (x & <- & Hx). destruct (H x Hx) as (w & -> & P & F). apply bilinear_plain; try assumption. intros E. rewrite E in F. cbn in F. lra.
  - apply repeat_spec in Hr. subst. left. reflexivity.
Qed.
Lemma half_plus n : (1 <= n)%nat -> (1 <= Nat.div2 (n + 1))%nat.
Proof. intros H. destruct n as [|n]; [lia|]. rewrite Nat.add_comm. cbn. lia. Qed.
(* H(-1) of the discretised filter *)
Lemma po_nyquist K l : K <> 0 -> (forall r, In r l -> r <> RtoC K) -> po (fun r => Cminus (RtoC (-1)) r) (map (bilinear_root K) l) = Cdiv (cpow (RtoC (- 2 * K)) (length l)) (po (fun r => Cminus (RtoC K) r) l).
Proof.
  intros HK. induction l as [|r l IH]; intros H; cbn [map product_over length cpow]; [field; exact one_neq|].
  rewrite IH by (intros x Hx; apply H; now right). assert (N : Cminus (RtoC K) r <> RtoC 0) by (apply Cminus_neq, not_eq_sym, H; now left).
  assert (N2 : po (fun r => Cminus (RtoC K) r) l <> RtoC 0) by (apply po_minus_neq; intros x Hx; apply H; now right).
  assert (E : Cminus (RtoC (-1)) (bilinear_root K r) = Cdiv (RtoC (- 2 * K)) (Cminus (RtoC K) r)).
  { unfold bilinear_root. transitivity (Cdiv (Cminus (Cmult (RtoC (-1)) (Cminus (RtoC K) r)) (Cplus (RtoC K) r)) (Cminus (RtoC K) r)); [field; exact N|]. f_equal. apply injective_projections; cbn; ring. }
  rewrite E. set (P := po _ l) in *. set (Q := cpow _ (length l)) in *. field. split; assumption.
Qed.
Lemma discretize_ok f fs m : 0 < fs -> real_filter f -> (length (z_zeros f) <= length (z_poles f))%nat -> (1 <= length (z_poles f))%nat ->
  (forall r, In r (z_zeros f ++ z_poles f) -> exists w, r = Cmult (RtoC (2 * fs)) w /\ plain w /\ fst r <= 0) -> (forall r, In r (z_poles f) -> fst r < 0) ->
  (Z.of_nat (Nat.div2 (length (z_poles f) + 1)) <= m)%Z ->
  exists cs, discretize_to_biquads ex qsort f fs m = Ok (Some cs) /\ length cs = Nat.div2 (length (z_poles f) + 1) /\ stable_cascade cs /\
    (forall z h, z <> RtoC 0 -> z <> RtoC (-1) -> cascade_value cs z h <-> zpk_value f (Cdiv (Cmult (RtoC (2 * fs)) (Cminus z (RtoC 1))) (Cplus z (RtoC 1))) h) /\
    ((length (z_zeros f) < length (z_poles f))%nat -> cascade_value cs (RtoC (-1)) (RtoC 0)) /\
    (length (z_zeros f) = length (z_poles f) -> cascade_value cs (RtoC (-1)) (RtoC (z_gain f))).
Proof.
  intros HF HR HL HN HP HS HM. set (K := 2 * fs) in *. assert (HK : 0 < K) by (unfold K; lra).
  assert (NR : no_root_at (RtoC K) f) by (intros r Hr E; destruct (HP r Hr) as (_ & _ & _ & X); rewrite E in X; cbn in X; lra).
  assert (MX : max_num f = length (z_poles f)) by (unfold max_num; lia). destruct (digital_lengths K f) as (L1 & L2).
  destruct (to_biquads_ok ex qsort HQ (digital K f) m) as (cs & E & EL & V).
  - change cplx with C. change cplx with C in L1, L2. congruence.
  - unfold digital. cbn [z_zeros]. apply clear_digital; [exact HK|]. intros r Hr. apply HP, in_or_app. now left.
  - unfold digital. cbn [z_poles]. apply clear_digital; [exact HK|]. intros r Hr. apply HP, in_or_app. now right.
  - now apply digital_real.
  - pose proof (half_plus _ HN). lia.
  - change cplx with C in L2 |- *. rewrite L2, MX. exact HM.
  - change cplx with C in L2, EL. rewrite L2, MX in EL. exists cs. unfold discretize_to_biquads. rewrite zpk_bilinear_is by assumption. cbn [obind fst snd]. split; [exact E|]. split; [rewrite EL; pose proof (half_plus _ HN); lia|].
    assert (NP : forall z, 1 <= Cmod z -> po (fun r => Cminus z r) (z_poles (digital K f)) <> RtoC 0).
    { intros z Hz. apply po_minus_neq. intros r Hr ->. unfold digital in Hr. cbn [z_poles] in Hr. rewrite MX, Nat.sub_diag in Hr. cbn [repeat] in Hr. rewrite app_nil_r in Hr. apply in_map_iff in Hr as (p & <- & Hp). pose proof (bilinear_inside K p HK (HS p Hp)). lra. }
    assert (VN : forall h, cascade_value cs (RtoC (-1)) h <-> zpk_value (digital K f) (RtoC (-1)) h) by (intros h; apply V, RtoC_neq; lra).
    assert (N1 : po (fun r => Cminus (RtoC (-1)) r) (z_poles (digital K f)) <> RtoC 0) by (apply NP; rewrite Cmod_R, Rabs_left; lra).
    split; [|split; [|split]].
    + intros z Hz. eexists. apply V; [intros ->; rewrite Cmod_0 in Hz; lra|]. split; [now apply NP|reflexivity].
    + intros z h Z0 Z1. rewrite V by exact Z0. now apply digital_value.
    + intros LT. apply VN. split; [exact N1|]. assert (Z0 : po (fun z => Cminus (RtoC (-1)) z) (z_zeros (digital K f)) = RtoC 0).
      { unfold digital. cbn [z_zeros]. rewrite po_app, po_rep, MX. replace (length (z_poles f) - length (z_zeros f))%nat with (S (length (z_poles f) - length (z_zeros f) - 1)) by lia. cbn [cpow]. replace (Cminus (RtoC (-1)) (RtoC (-1))) with (RtoC 0) by ring. ring. }
      rewrite Z0. field. exact N1.
    + intros EQ. apply VN. split; [exact N1|]. unfold digital. cbn [z_zeros z_poles z_gain]. change (@length cplx) with (@length C) in *. rewrite MX, EQ, Nat.sub_diag. cbn [repeat]. rewrite !app_nil_r.
      assert (PK : po (fun p => Cminus (RtoC K) p) (z_poles f) <> RtoC 0) by (apply po_minus_neq; intros r Hr; apply NR, in_or_app; now right).
      assert (ZK : po (fun p => Cminus (RtoC K) p) (z_zeros f) <> RtoC 0) by (apply po_minus_neq; intros r Hr; apply NR, in_or_app; now left).
      rewrite value_real by assumption. rewrite !po_nyquist by (try lra; intros r Hr; apply NR, in_or_app; auto). change (@length cplx) with (@length C) in *. rewrite EQ. unfold value_of.
      assert (CN : cpow (RtoC (- 2 * K)) (length (z_poles f)) <> RtoC 0) by (apply cpow_neq, RtoC_neq; lra). set (A := po _ (z_poles f)) in *. set (B := po _ (z_zeros f)) in *. set (D := cpow _ _) in *. clearbody A B D. set (g := RtoC (z_gain f)). clearbody g. clear - PK ZK CN. field. repeat split; assumption.
Qed.
End Design.
