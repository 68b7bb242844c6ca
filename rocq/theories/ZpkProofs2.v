From Verif Require Import Common ListLemmas RealUtil BiquadModel DesignModel DesignSpec DesignProofs CascadeModel CascadeSpec CascadeProofs CascadeProofs2 PoleZeroModel PoleZeroSpec PoleZeroProofs PoleZeroProofs3 PoleZeroProofs4 PoleZeroProofs5 PoleZeroProofs6 ComplexModel ComplexProofs ZpkModel ZpkSpec ZpkProofs.
From Coq Require Import Permutation Sorted.
From Coquelicot Require Import Complex.
Local Open Scope R_scope.

(* ---------- the bilinear transform ---------- *)
Definition max_num (f : zpk) : nat := Nat.max (length (z_poles f)) (length (z_zeros f)).
Definition digital (K : R) (f : zpk) : zpk :=
  {| z_zeros := map (bilinear_root K) (z_zeros f) ++ repeat (RtoC (-1)) (max_num f - length (z_zeros f));
     z_poles := map (bilinear_root K) (z_poles f) ++ repeat (RtoC (-1)) (max_num f - length (z_poles f));
     z_gain := fst (value_of f (RtoC K)) |}.
Lemma warp_root_ok K (s : C) : s <> RtoC K -> warp_root K s = Ok (bilinear_root K s).
Proof.
  intros H. unfold warp_root. cbv zeta. set (d := (K - fst s) * (K - fst s) + snd s * snd s). assert (D : d <> 0).
  { unfold d. intros E. apply H. destruct s as [x y]. cbn [fst snd] in E. assert (K - x = 0) by nra. assert (y = 0) by nra. apply injective_projections; cbn; lra. }
  destruct (Reqb_spec d 0) as [E|_]; [contradiction|]. cbn [negb oguard]. f_equal. unfold bilinear_root, Cdiv, Cinv. destruct s as [x y]. unfold d in *. cbn [fst snd] in *.
  assert (D' : (K - x) ^ 2 + (0 - y) ^ 2 <> 0) by (intros X; apply D; rewrite <- X; ring).
  apply injective_projections; cbn [fst snd Cmult Cplus Cminus Copp RtoC]; field; try split; try assumption; intros X; (apply D; rewrite <- X; ring) || (apply D'; rewrite <- X; ring).
Qed.
Lemma zpk_bilinear_is ex f fs : 0 < fs -> no_root_at (RtoC (2 * fs)) f -> zpk_bilinear ex f fs = Ok (true, digital (2 * fs) f).
Proof.
  intros HF H. assert (HP : po (fun p => Cminus (RtoC (2 * fs)) p) (z_poles f) <> RtoC 0) by (apply po_minus_neq; intros r Hr; apply H, in_or_app; now right).
  unfold zpk_bilinear. destruct (Rltb_spec 0 fs) as [_|X]; [|contradiction]. cbn [negb]. cbv zeta. change ((2 * fs, 0) : C) with (RtoC (2 * fs)). rewrite zpk_eval_ok by exact HP. cbn [obind].
  rewrite (map_outcome_ok _ (bilinear_root (2 * fs)) (z_zeros f)) by (intros r Hr; apply warp_root_ok; apply H, in_or_app; now left). cbn [obind].
  rewrite (map_outcome_ok _ (bilinear_root (2 * fs)) (z_poles f)) by (intros r Hr; apply warp_root_ok; apply H, in_or_app; now right). cbn [obind].
  unfold digital, pad, max_num. rewrite !map_length. reflexivity.
Qed.
Lemma bilinear_factor' K z r : z <> RtoC (-1) -> r <> RtoC K ->
  Cminus z (bilinear_root K r) = Cmult (Cdiv (Cplus z (RtoC 1)) (Cminus (RtoC K) r)) (Cminus (Cdiv (Cmult (RtoC K) (Cminus z (RtoC 1))) (Cplus z (RtoC 1))) r).
Proof.
  intros HZ HR. assert (A : Cplus z (RtoC 1) <> RtoC 0) by now apply plus_one_neq. assert (B : Cminus (RtoC K) r <> RtoC 0) by (apply Cminus_neq; now apply not_eq_sym).
  unfold bilinear_root. field. split; assumption.
Qed.
Lemma po_bilinear K z l : z <> RtoC (-1) -> (forall r, In r l -> r <> RtoC K) ->
  po (fun r => Cminus z r) (map (bilinear_root K) l) = Cmult (Cdiv (cpow (Cplus z (RtoC 1)) (length l)) (po (fun r => Cminus (RtoC K) r) l)) (po (fun r => Cminus (Cdiv (Cmult (RtoC K) (Cminus z (RtoC 1))) (Cplus z (RtoC 1))) r) l).
Proof.
  intros HZ. induction l as [|r l IH]; intros H; cbn [map product_over length cpow]; [field; exact one_neq|].
  rewrite IH by (intros x Hx; apply H; now right). rewrite bilinear_factor' by (assumption || (apply H; now left)).
  assert (P0 : po (fun r => Cminus (RtoC K) r) l <> RtoC 0) by (apply po_minus_neq; intros x Hx; apply H; now right).
  assert (M0 : Cminus (RtoC K) r <> RtoC 0) by (apply Cminus_neq, not_eq_sym, H; now left).
  set (u := Cminus (RtoC K) r) in *. set (v := Cminus (Cdiv _ _) r). set (P := po _ l) in *. set (Q := po _ l). set (w := Cplus z (RtoC 1)). field. now split.
Qed.
Lemma digital_value K f z h : real_filter f -> no_root_at (RtoC K) f -> z <> RtoC (-1) ->
  zpk_value (digital K f) z h <-> zpk_value f (Cdiv (Cmult (RtoC K) (Cminus z (RtoC 1))) (Cplus z (RtoC 1))) h.
Proof.
  intros HR H HZ. assert (A : Cplus z (RtoC 1) <> RtoC 0) by now apply plus_one_neq.
  assert (NP : forall r, In r (z_poles f) -> r <> RtoC K) by (intros r Hr; apply H, in_or_app; now right).
  assert (NZ : forall r, In r (z_zeros f) -> r <> RtoC K) by (intros r Hr; apply H, in_or_app; now left).
  pose proof (po_minus_neq (RtoC K) _ NP) as HP. pose proof (po_minus_neq (RtoC K) _ NZ) as HQ.
  assert (E : forall n, (n <= max_num f)%nat -> cpow (Cplus z (RtoC 1)) (max_num f) = Cmult (cpow (Cplus z (RtoC 1)) n) (cpow (Cplus z (RtoC 1)) (max_num f - n))) by (intros n Hn; rewrite <- cpow_add; f_equal; lia).
  assert (M : Cminus z (RtoC (-1)) = Cplus z (RtoC 1)) by (apply injective_projections; cbn; ring).
  apply (value_iff _ _ _ _ (Cdiv (cpow (Cplus z (RtoC 1)) (max_num f)) (po (fun r => Cminus (RtoC K) r) (z_zeros f))) (Cdiv (cpow (Cplus z (RtoC 1)) (max_num f)) (po (fun r => Cminus (RtoC K) r) (z_poles f)))).
  - cbn [digital z_zeros]. rewrite po_app, po_rep, po_bilinear, M by assumption. rewrite (E (length (z_zeros f))) by (unfold max_num; lia). now apply alg1.
  - cbn [digital z_poles]. rewrite po_app, po_rep, po_bilinear, M by assumption. rewrite (E (length (z_poles f))) by (unfold max_num; lia). now apply alg1.
  - apply Cdiv_neq; [now apply cpow_neq|exact HP].
  - cbn [digital z_gain]. rewrite value_real by assumption. unfold value_of. now apply alg2.
Qed.
Lemma digital_real K f : real_filter f -> real_filter (digital K f).
Proof. intros (A & B). split; (apply conj_closed_app; [|apply conj_closed_rep]); (apply conj_closed_map; [|assumption]); intros r; apply bilinear_conj. Qed.
Lemma digital_lengths K f : length (z_zeros (digital K f)) = max_num f /\ length (z_poles (digital K f)) = max_num f.
Proof. cbn [digital z_zeros z_poles]. rewrite !app_length, !map_length, !repeat_length. unfold max_num. change (@length cplx) with (@length C). lia. Qed.

(* ---------- order ---------- *)
Definition keyeq (w z : C) : Prop := fst w = fst z /\ Rabs (snd w) = Rabs (snd z).
Definition before (w z : C) : Prop := fst w < fst z \/ fst w = fst z /\ Rabs (snd w) < Rabs (snd z).
Lemma order_eq (w z : C) : order_complex w z = Eq <-> keyeq w z.
Proof.
  unfold order_complex, keyeq. destruct (Rltb_spec (fst w) (fst z)); [split; [discriminate|intros (? & ?); exfalso; lra]|]. destruct (Rltb_spec (fst z) (fst w)); [split; [discriminate|intros (? & ?); exfalso; lra]|].
  destruct (Rltb_spec (Rabs (snd w)) (Rabs (snd z))); [split; [discriminate|intros (? & ?); exfalso; lra]|]. destruct (Rltb_spec (Rabs (snd z)) (Rabs (snd w))); [split; [discriminate|intros (? & ?); exfalso; lra]|]. split; [intros _; split; lra|reflexivity].
Qed.
Lemma order_gt (w z : C) : order_complex w z <> Gt <-> not_after w z.
Proof.
  unfold order_complex, not_after. destruct (Rltb_spec (fst w) (fst z)); [split; [now left|discriminate]|]. destruct (Rltb_spec (fst z) (fst w)); [split; [intros X; now elim X|intros [?|(? & ?)]; exfalso; lra]|].
  destruct (Rltb_spec (Rabs (snd w)) (Rabs (snd z))); [split; [intros _; right; split; lra|discriminate]|]. destruct (Rltb_spec (Rabs (snd z)) (Rabs (snd w))); [split; [intros X; now elim X|intros [?|(? & ?)]; exfalso; lra]|]. split; [intros _; right; split; lra|discriminate].
Qed.
Lemma not_after_before w z : not_after w z -> ~ keyeq w z -> before w z.
Proof. unfold not_after, keyeq, before. intros [H|(H1 & H2)] N; [now left|]. right. split; [exact H1|]. destruct (Req_dec (Rabs (snd w)) (Rabs (snd z))) as [E|E]; [tauto|lra]. Qed.
Lemma before_trans w z x : before w z -> not_after z x -> before w x.
Proof. unfold not_after, before. intros [A|(A & B)] [D|(D & E)]; [left; lra|left; lra|left; lra|right; split; lra]. Qed.
Lemma before_neq w z : before w z -> ~ keyeq w z.
Proof. unfold before, keyeq. intros [A|(A & B)] (D & E); lra. Qed.
Lemma before_after w z : before w z -> not_after w z.
Proof. unfold not_after, before. intros [A|(A & B)]; [left; lra|right; split; lra]. Qed.

(* ---------- counting ---------- *)
Notation cnt := (count_occ Ceq_dec).
Lemma conj_inj x y : Cconj x = Cconj y -> x = y.
Proof. intros H. rewrite <- (Cconj_conj x), H. apply Cconj_conj. Qed.
Lemma cnt_conj l x : cnt (map Cconj l) x = cnt l (Cconj x).
Proof. rewrite <- (Cconj_conj x) at 1. symmetry. apply count_occ_map. exact conj_inj. Qed.
Lemma conj_closed_cnt l : conj_closed l <-> forall x, cnt l (Cconj x) = cnt l x.
Proof.
  unfold conj_closed. rewrite (Permutation_count_occ Ceq_dec). split; intros H x; specialize (H x); rewrite cnt_conj in *; exact H.
Qed.
Lemma cnt_app l l' x : cnt (l ++ l') x = (cnt l x + cnt l' x)%nat.
Proof. apply count_occ_app. Qed.
Lemma cnt_notin l x : (forall y, In y l -> y <> x) -> cnt l x = 0%nat.
Proof. intros H. apply count_occ_not_In. intros X. now apply (H x X). Qed.

(* ---------- runs ---------- *)
Lemma split_run_spec (root : C) (l run rest : list C) : split_run root l = (run, rest) -> StronglySorted not_after l -> (forall x, In x l -> not_after root x) ->
  l = run ++ rest /\ (forall x, In x run -> keyeq root x) /\ (forall x, In x rest -> before root x) /\ StronglySorted not_after rest.
Proof.
  revert run rest. induction l as [|r l IH]; cbn [split_run]; intros run rest H HS HA.
  - injection H as <- <-. split; [reflexivity|]. split; [intros x []|]. split; [intros x []|exact HS].
  - inversion HS as [|? ? S1 S2]; subst. destruct (order_complex root r) eqn:O.
    + destruct (split_run root l) as [run' rest'] eqn:E. cbn [fst snd] in H. injection H as <- <-. destruct (IH run' rest' eq_refl S1 ltac:(intros x Hx; apply HA; now right)) as (A & B & D & F).
      split; [cbn [app]; now f_equal|]. split; [|now split]. intros x [<-|Hx]; [now apply order_eq|now apply B].
    + injection H as <- <-. assert (N : before root r) by (apply not_after_before; [apply HA; now left|rewrite <- order_eq; congruence]).
      split; [reflexivity|]. split; [intros x []|]. split; [|exact HS]. intros x [<-|Hx]; [exact N|]. apply (before_trans _ r); [exact N|]. rewrite Forall_forall in S2. now apply S2.
    + exfalso. assert (X : not_after root r) by (apply HA; now left). apply order_gt in X. now apply X.
Qed.
Definition pair_of (r : C) : list C := [Cconj r; r].
Lemma concat_pairs r n : concat (repeat (pair_of r) n) = flat_map pair_of (repeat r n).
Proof. induction n as [|n IH]; cbn [repeat concat flat_map]; [reflexivity|now rewrite IH]. Qed.
Lemma keyeq_cases (root x : C) : 0 < snd root -> keyeq root x -> snd x <> 0 -> (x = root /\ 0 < snd x) \/ (x = Cconj root /\ snd x < 0).
Proof.
  intros H (A & B) N. rewrite (Rabs_pos_eq (snd root)) in B by lra. destruct (Rtotal_order (snd x) 0) as [D|[D|D]]; [right|contradiction|left].
  - rewrite Rabs_left in B by exact D. split; [|exact D]. apply injective_projections; cbn; lra.
  - rewrite Rabs_pos_eq in B by lra. split; [|exact D]. apply injective_projections; lra.
Qed.
Lemma conj_neq (root : C) : 0 < snd root -> Cconj root <> root.
Proof. intros H E. apply (f_equal snd) in E. cbn in E. lra. Qed.
Lemma run_counts (root : C) run : 0 < snd root -> (forall x, In x run -> keyeq root x) -> (forall x, In x run -> snd x <> 0) ->
  length (filter (fun x : C => Rltb (snd x) 0) run) = cnt run (Cconj root) /\ length run = (cnt run root + cnt run (Cconj root))%nat /\
  forall x, x <> root -> x <> Cconj root -> cnt run x = 0%nat.
Proof.
  intros HR. pose proof (conj_neq root HR) as N. induction run as [|r run IH]; intros H1 H2; [repeat split; reflexivity|].
  destruct IH as (A & B & D); [intros x Hx; apply H1; now right|intros x Hx; apply H2; now right|].
  destruct (keyeq_cases root r HR (H1 r (or_introl eq_refl)) (H2 r (or_introl eq_refl))) as [(E & P)|(E & P)].
  - split; [|split].
    + cbn [filter]. destruct (Rltb_spec (snd r) 0) as [X|_]; [lra|]. rewrite count_occ_cons_neq by (rewrite E; now apply not_eq_sym). exact A.
    + cbn [length]. rewrite count_occ_cons_eq by exact E. rewrite count_occ_cons_neq by (rewrite E; now apply not_eq_sym). lia.
    + intros x X1 X2. rewrite count_occ_cons_neq by (rewrite E; now apply not_eq_sym). now apply D.
  - split; [|split].
    + cbn [filter]. destruct (Rltb_spec (snd r) 0) as [_|X]; [|lra]. cbn [length]. rewrite count_occ_cons_eq by exact E. now rewrite A.
    + cbn [length]. rewrite count_occ_cons_neq by (rewrite E; exact N). rewrite count_occ_cons_eq by exact E. lia.
    + intros x X1 X2. rewrite count_occ_cons_neq by (rewrite E; now apply not_eq_sym). now apply D.
Qed.
Lemma pairs_counts (root : C) n : 0 < snd root -> let l := flat_map pair_of (repeat root n) in cnt l root = n /\ cnt l (Cconj root) = n /\ forall x, x <> root -> x <> Cconj root -> cnt l x = 0%nat.
Proof.
  intros HR. cbv zeta. pose proof (conj_neq root HR) as N. induction n as [|n (A & B & D)]; cbn [repeat flat_map pair_of app]; [repeat split; reflexivity|]. split; [|split].
  - rewrite count_occ_cons_neq by exact N. rewrite count_occ_cons_eq by reflexivity. now f_equal.
  - rewrite count_occ_cons_eq by reflexivity. rewrite count_occ_cons_neq by now apply not_eq_sym. now f_equal.
  - intros x X1 X2. rewrite !count_occ_cons_neq by now apply not_eq_sym. now apply D.
Qed.
Lemma run_perm (root : C) run n : 0 < snd root -> (forall x, In x run -> keyeq root x) -> (forall x, In x run -> snd x <> 0) -> cnt run root = n -> cnt run (Cconj root) = n ->
  Permutation (flat_map pair_of (repeat root n)) run.
Proof.
  intros HR H1 H2 A B. apply (Permutation_count_occ Ceq_dec). intros x. destruct (pairs_counts root n HR) as (P1 & P2 & P3). destruct (run_counts root run HR H1 H2) as (_ & _ & R3).
  destruct (Ceq_dec x root) as [->|X1]; [congruence|]. destruct (Ceq_dec x (Cconj root)) as [->|X2]; [congruence|]. now rewrite P3, R3.
Qed.
Section Runs.
(* one iteration of the loop over the runs *)
Variables (fuel : nat) (r : C) (l : list C).
Hypothesis (HS : StronglySorted not_after (r :: l)) (HN : forall x, In x (r :: l) -> snd x <> 0).
Let root : C := (fst r, Rabs (snd r)).
Lemma one_run : exists run rest : list C, split_run root (r :: l) = (run, rest) /\ r :: l = run ++ rest /\ (length rest <= length l)%nat /\ 0 < snd root /\
  (forall x, In x run -> keyeq root x /\ snd x <> 0) /\ (forall x, In x rest -> before root x /\ snd x <> 0) /\ StronglySorted not_after rest /\
  pair_runs (S fuel) (r :: l) = if (cnt run root =? cnt run (Cconj root))%nat then (fst (pair_runs fuel rest), flat_map pair_of (repeat root (cnt run root)) ++ snd (pair_runs fuel rest)) else (false, r :: l).
Proof.
  assert (HR : 0 < snd root) by (cbn [root snd]; apply Rabs_pos_lt, HN; now left).
  assert (KR : keyeq root r) by (unfold keyeq; cbn [root fst snd]; rewrite Rabs_Rabsolu; now split).
  assert (HA : forall x, In x (r :: l) -> not_after root x).
  { intros x [<-|Hx]; [right; split; [apply KR|]; apply Req_le, KR|]. inversion HS as [|? ? S1 S2]; subst. rewrite Forall_forall in S2. specialize (S2 x Hx). unfold not_after in *. cbn [root fst snd]. now rewrite Rabs_Rabsolu. }
  destruct (split_run root (r :: l)) as [run rest] eqn:E. change (list C) in run. change (list C) in rest. exists run, rest. split; [reflexivity|]. destruct (split_run_spec _ _ _ _ E HS HA) as (A & B & D & F).
  assert (NE : run <> []). { cbn [split_run] in E. rewrite (proj2 (order_eq root r) KR) in E. intros X. rewrite X in E. discriminate E. }
  assert (HRun : forall x, In x run -> keyeq root x /\ snd x <> 0) by (intros x Hx; split; [now apply B|apply HN; rewrite A; apply in_or_app; now left]).
  split; [exact A|]. split; [apply (f_equal (@length C)) in A; change (@app cplx) with (@app C) in A; rewrite app_length in A; cbn [length] in A; destruct run as [|? run]; [congruence|cbn [length] in A; clear - A; lia]|]. split; [exact HR|]. split; [exact HRun|].
  split; [intros x Hx; split; [now apply D|apply HN; rewrite A; apply in_or_app; now right]|]. split; [exact F|].
  cbn [pair_runs]. fold root. rewrite E. cbv beta iota zeta. change cplx with C. change (prod R R) with C. destruct (run_counts root run HR (fun x Hx => proj1 (HRun x Hx)) (fun x Hx => proj2 (HRun x Hx))) as (C1 & C2 & _). rewrite C1, C2.
  assert (L0 : (cnt run root + cnt run (Cconj root) =? 0)%nat = false) by (apply Nat.eqb_neq; rewrite <- C2; destruct run; [congruence|discriminate]). rewrite L0. cbn [orb]. replace (cnt run root + cnt run (Cconj root) - cnt run (Cconj root))%nat with (cnt run root) by lia.
  destruct (Nat.eqb_spec (cnt run root) (cnt run (Cconj root))) as [X|X]; cbn [negb]; [|reflexivity]. destruct (pair_runs fuel rest) as [ok tail]. cbn [fst snd]. rewrite <- X. change [cconj root; root] with (pair_of root). now rewrite concat_pairs.
Qed.
End Runs.
Lemma before_cnt (root : C) rest : (forall x, In x rest -> before root x) -> cnt rest root = 0%nat /\ cnt rest (Cconj root) = 0%nat.
Proof.
  intros H. split; apply cnt_notin; intros y Hy E; subst; specialize (H _ Hy); apply before_neq in H; apply H; split; [reflexivity|reflexivity|reflexivity|]. cbn. now rewrite Rabs_Ropp.
Qed.
Lemma pair_runs_ok fuel : forall l, (length l <= fuel)%nat -> StronglySorted not_after l -> (forall x, In x l -> snd x <> 0) -> (forall x, cnt l (Cconj x) = cnt l x) ->
  exists up, pair_runs fuel l = (true, flat_map pair_of up) /\ Permutation (flat_map pair_of up) l /\ Forall (fun r => 0 < snd r) up /\ StronglySorted not_after up.
Proof.
  induction fuel as [|fuel IH]; intros l HL HS HN HC.
  - destruct l; [|cbn in HL; lia]. exists []. repeat split; constructor.
  - destruct l as [|r l]; [exists []; repeat split; constructor|]. destruct (one_run fuel r l HS HN) as (run & rest & E & A & L & HR & H1 & H2 & S' & P). cbn [length] in HL. set (root := (fst r, Rabs (snd r)) : C) in *.
    destruct (before_cnt root rest (fun x Hx => proj1 (H2 x Hx))) as (Z1 & Z2).
    assert (EQ : cnt run root = cnt run (Cconj root)) by (pose proof (HC root) as Q; rewrite A, !cnt_app, Z1, Z2 in Q; lia).
    assert (HC' : forall x, cnt rest (Cconj x) = cnt rest x).
    { intros x. destruct (Ceq_dec x root) as [->|X1]; [congruence|]. destruct (Ceq_dec x (Cconj root)) as [->|X2]; [rewrite Cconj_conj; congruence|].
      pose proof (HC x) as Q. rewrite A, !cnt_app in Q. destruct (run_counts root run HR (fun x Hx => proj1 (H1 x Hx)) (fun x Hx => proj2 (H1 x Hx))) as (_ & _ & R3).
      rewrite (R3 x X1 X2), (R3 (Cconj x)) in Q; [exact Q|intros X; apply X2; now rewrite <- X, Cconj_conj|intros X; apply X1, conj_inj, X]. }
    destruct (IH rest ltac:(lia) S' (fun x Hx => proj2 (H2 x Hx)) HC') as (up & U1 & U2 & U3 & U4).
    exists (repeat root (cnt run root) ++ up). rewrite P, (proj2 (Nat.eqb_eq _ _) EQ), U1. cbn [fst snd]. rewrite flat_map_app. split; [reflexivity|]. split; [|split].
    + rewrite A. apply Permutation_app; [|exact U2]. apply run_perm; auto; intros x Hx; apply H1; exact Hx.
    + apply Forall_app. split; [|exact U3]. apply Forall_forall. intros x Hx. apply repeat_spec in Hx. now subst.
    + assert (UB : Forall (not_after root) up).
      { apply Forall_forall. intros x Hx. apply before_after. apply H2. apply (Permutation_in _ U2). apply in_flat_map. exists x. split; [exact Hx|]. right. now left. }
      clear - U4 UB. induction (cnt run root) as [|n IHn]; cbn [repeat app]; [exact U4|]. constructor; [exact IHn|]. apply Forall_app. split; [|exact UB]. apply Forall_forall. intros x Hx. apply repeat_spec in Hx. subst. right. split; [reflexivity|lra].
Qed.
Lemma pair_runs_only fuel : forall l, (length l <= fuel)%nat -> StronglySorted not_after l -> (forall x, In x l -> snd x <> 0) -> fst (pair_runs fuel l) = true -> forall x, cnt l (Cconj x) = cnt l x.
Proof.
  induction fuel as [|fuel IH]; intros l HL HS HN HT x.
  - destruct l; [reflexivity|cbn in HL; lia].
  - destruct l as [|r l]; [reflexivity|]. destruct (one_run fuel r l HS HN) as (run & rest & E & A & L & HR & H1 & H2 & S' & P). cbn [length] in HL. set (root := (fst r, Rabs (snd r)) : C) in *.
    rewrite P in HT. destruct (Nat.eqb_spec (cnt run root) (cnt run (Cconj root))) as [EQ|EQ]; [|discriminate HT]. cbn [fst] in HT.
    pose proof (IH rest ltac:(lia) S' (fun x Hx => proj2 (H2 x Hx)) HT x) as Q. rewrite A, !cnt_app, Q. f_equal.
    destruct (Ceq_dec x root) as [->|X1]; [now symmetry|]. destruct (Ceq_dec x (Cconj root)) as [->|X2]; [now rewrite Cconj_conj|].
    destruct (run_counts root run HR (fun x Hx => proj1 (H1 x Hx)) (fun x Hx => proj2 (H1 x Hx))) as (_ & _ & R3).
    rewrite (R3 x X1 X2). apply R3; [intros X; apply X2; now rewrite <- X, Cconj_conj|intros X; apply X1, conj_inj, X].
Qed.
