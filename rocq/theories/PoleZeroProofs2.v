From Verif Require Import Common ListLemmas RealUtil BiquadModel DesignModel DesignSpec DesignProofs CascadeModel CascadeSpec CascadeProofs CascadeProofs2 PoleZeroModel PoleZeroSpec EqualizerSpec EqualizerProofs PoleZeroProofs.
From Coquelicot Require Import Complex.
Local Open Scope R_scope.

(* ---------- balanced filters: the stages are kept as they are ---------- *)
Lemma merge_pairs_one tol poly set fuel pre c : Forall (fun c => first_order tol (poly c) = false) pre -> merge_pairs tol poly set fuel (pre ++ [c]) = Ok (pre ++ [c]).
Proof.
  intros H. destruct fuel; cbn [merge_pairs]; [reflexivity|]. unfold find_pair. destruct (first_order tol (poly c)) eqn:E.
  - rewrite (find_last (fun c => first_order tol (poly c)) pre c H E 0). cbn [Nat.add]. rewrite skipn_all2 by (rewrite app_length; cbn; lia). reflexivity.
  - rewrite find_none; [reflexivity|]. apply Forall_app. split; [exact H|now constructor].
Qed.
Lemma simplify_one_first pre c : Forall (fun c => first_order tolerance (vec_b c) = false /\ first_order tolerance (vec_a c) = false) pre ->
  simplify tolerance (pre ++ [c]) = Ok (merge_gains tolerance (length (pre ++ [c])) (pre ++ [c])).
Proof.
  intros H. unfold simplify. rewrite merge_pairs_one by (revert H; apply Forall_impl; tauto). cbn [obind]. rewrite merge_pairs_one by (revert H; apply Forall_impl; tauto). reflexivity.
Qed.
Definition proper_b (c : coeffs R) : Prop := zero_order tolerance (vec_b c) = false.
Lemma append_last cs c : Forall second_order cs -> proper_b c -> append_biquad tolerance cs c = Ok (cs ++ [c]).
Proof.
  intros H HC. unfold append_biquad. rewrite simplify_one_first by (revert H; apply Forall_impl; exact so_first).
  f_equal. destruct (length (cs ++ [c])) as [|n] eqn:L; cbn [merge_gains]; [reflexivity|]. rewrite L. destruct (1 <? S n)%nat; [|reflexivity].
  unfold find_zero_order. rewrite (find_none (fun c => zero_order tolerance (vec_b c))); [destruct (find_from _ _ _); reflexivity|].
  apply Forall_app. split; [revert H; apply Forall_impl; intros d Hd; exact (proj1 (so_zero d Hd))|constructor; [exact HC|constructor]].
Qed.
Lemma append_only c : append_biquad tolerance [identity_coeffs] c = Ok [c].
Proof.
  unfold append_biquad. rewrite simplify_one_first by (constructor; [exact id_first|constructor]). f_equal. cbn [app length merge_gains Nat.ltb Nat.leb].
  unfold find_zero_order. cbn [find_from]. destruct id_zero as [-> ->]. cbn [nth Nat.eqb firstn skipn app].
  destruct (Reqb_spec (b0 identity_coeffs / a0 identity_coeffs) 1) as [_|N]; [reflexivity|]. exfalso. apply N. cbn. field.
Qed.
Lemma appends_so l : forall cs, Forall second_order cs -> Forall second_order l -> forall last, (length last <= 1)%nat -> Forall proper_b last ->
  appends tolerance cs (l ++ last) = Ok (cs ++ l ++ last).
Proof.
  induction l as [|c l IH]; intros cs HC HL last L1 PB; cbn [app appends].
  - destruct last as [|c [|d last]]; [cbn [appends]; now rewrite app_nil_r| |cbn [length] in L1; lia]. cbn [appends]. rewrite append_last; [reflexivity|exact HC|now apply Forall_inv in PB].
  - pose proof (Forall_inv HL) as H1. apply Forall_inv_tail in HL. rewrite append_so by assumption. cbn [obind]. rewrite IH; try assumption; [now rewrite <- app_assoc|]. apply Forall_app. split; [exact HC|now constructor].
Qed.
Definition kept (cs : list (coeffs R)) : Prop := exists l last, cs = l ++ last /\ Forall second_order l /\ (length last <= 1)%nat /\ Forall proper_b last.
Lemma appends_kept cs : kept cs -> cs <> [] -> appends tolerance [identity_coeffs] cs = Ok cs.
Proof.
  intros (l & last & -> & HL & L1 & PB) N. destruct l as [|c l].
  - destruct last as [|c [|d last]]; [contradiction| |cbn [length] in L1; lia]. cbn [app appends]. rewrite append_only. reflexivity.
  - cbn [app appends]. rewrite append_only. cbn [obind]. pose proof (Forall_inv HL) as H1. apply Forall_inv_tail in HL. rewrite (appends_so l [c]); try assumption; [reflexivity|]. now constructor.
Qed.
Lemma small_prod x y : / 100000 < x -> / 100000 < y -> / 10000000000 < x * y.
Proof. intros H1 H2. apply Rlt_trans with (/ 100000 * y); [|apply Rmult_lt_compat_r; lra]. replace (/ 10000000000) with (/ 100000 * / 100000) by lra. apply Rmult_lt_compat_l; lra. Qed.
Lemma pair_second r : / 100000 < Cmod r -> tolerance < Rabs (snd (from_pair r)).
Proof. intros H. unfold from_pair. cbn [snd]. rewrite Cconj_mul. cbn [RtoC fst]. rewrite Rabs_pos_eq by (assert (0 < Cmod r) by lra; nra). now apply small_prod. Qed.
Lemma lone_second r1 r2 : / 100000 < Rabs r1 -> / 100000 < Rabs r2 -> tolerance < Rabs (snd (from_lone r1 r2)).
Proof. intros H1 H2. unfold from_lone. cbn [snd]. rewrite Rabs_mult. now apply small_prod. Qed.
Lemma second_make b a : tolerance < Rabs (snd b) -> tolerance < Rabs (snd a) -> second_order (make_coeffs b a).
Proof. intros H1 H2. split; cbn [make_coeffs b2 a2]; assumption. Qed.

Lemma pz_stages_kept fuel : forall pz lz pp lp, (length lz + length pz + (length lp + length pp) <= fuel)%nat ->
  (length lz + 2 * length pz = length lp + 2 * length pp)%nat -> (length lp <= 1)%nat ->
  Forall (fun r => / 100000 < Rabs r) lz -> Forall (fun r => / 100000 < Cmod r) pz -> Forall (fun r => / 100000 < Cmod r) pp ->
  kept (pz_stages fuel pz lz pp lp) /\ ((length lz + length pz + (length lp + length pp) <> 0)%nat -> pz_stages fuel pz lz pp lp <> []).
Proof.
  assert (K0 : kept []) by (exists [], []; repeat split; auto).
  induction fuel as [|fuel IH]; intros pz lz pp lp HF HB HL H1 H2 H3; cbn [pz_stages]; [split; [exact K0|lia]|]. destruct (_ =? 0)%nat eqn:E; [split; [exact K0|lia]|]. apply Nat.eqb_neq in E.
  destruct pp as [|p pp].
  - destruct lp as [|p lp]; [cbn [length] in *; lia|]. destruct lp; [|cbn [length] in *; lia]. cbn [length] in HB. destruct pz as [|? pz]; [|cbn [length] in HB; lia].
    destruct lz as [|z lz]; [cbn [length] in HB; lia|]. destruct lz; [|cbn [length] in HB; lia]. cbn [next_poly]. split; [|intros _; discriminate].
    replace (pz_stages fuel [] [] [] []) with (@nil (coeffs R)) by (destruct fuel; reflexivity). exists [], [make_coeffs (from_lone z 0) (from_lone p 0)]. split; [reflexivity|]. split; [constructor|]. split; [cbn; lia|].
    constructor; [|constructor]. unfold proper_b, zero_order. cbn [make_coeffs vec_b b0 b1 b2 nth from_lone fst snd]. apply Forall_inv in H1. cbn beta in H1. replace (- z - 0) with (- z) by ring. rewrite Rabs_Ropp.
    rewrite (proj2 (Rleb_false (Rabs z) tolerance)) || idtac. destruct (Rleb_spec (Rabs z) tolerance) as [X|X]; [unfold tolerance in X; lra|reflexivity].
  - assert (AS : tolerance < Rabs (snd (from_pair p))) by (apply pair_second; now apply Forall_inv in H3). apply Forall_inv_tail in H3.
    assert (STEP : forall b pz' lz', tolerance < Rabs (snd b) -> (length lz' + 2 * length pz' + 2 = length lz + 2 * length pz)%nat -> (length lz' + length pz' < length lz + length pz)%nat -> Forall (fun r => / 100000 < Rabs r) lz' -> Forall (fun r => / 100000 < Cmod r) pz' ->
      kept (make_coeffs b (from_pair p) :: pz_stages fuel pz' lz' pp lp)).
    { intros b pz' lz' HS HN HN2 F1 F2. destruct (IH pz' lz' pp lp) as [(l & last & EQ & A & B & C1) _]; try assumption; try (cbn [length] in *; lia).
      exists (make_coeffs b (from_pair p) :: l), last. split; [rewrite EQ; reflexivity|]. split; [constructor; [now apply second_make|exact A]|]. split; assumption. }
    destruct pz as [|z pz].
    + destruct lz as [|z1 [|z2 lz]]; [cbn [length] in *; lia|cbn [length] in *; lia|]. cbn [next_poly]. split; [|intros _; discriminate].
      inversion H1 as [|? ? X1 X2]; subst. inversion X2 as [|? ? X3 X4]; subst. apply STEP; try assumption; [now apply lone_second|cbn [length]; lia|cbn [length]; lia].
    + cbn [next_poly]. split; [|intros _; discriminate]. apply STEP; try assumption; [apply pair_second; now apply Forall_inv in H2|cbn [length]; lia|cbn [length]; lia|now apply Forall_inv_tail in H2].
Qed.
Lemma stages_balanced f : balanced f -> total_roots f <> 0%nat -> kept (stages_of f) /\ stages_of f <> [].
Proof.
  intros (B1 & B2 & B3 & B4) HT. destruct (pz_stages_kept (total_roots f) (paired_zeros f) (lone_zeros f) (paired_poles f) (lone_poles f)) as [K N].
  - unfold total_roots. lia.
  - unfold zeros, poles in B1. rewrite !roots_length in B1. exact B1.
  - exact B2.
  - apply Forall_forall. exact B3.
  - apply Forall_forall. intros r Hr. apply B4, in_app_iff. now left.
  - apply Forall_forall. intros r Hr. apply B4, in_app_iff. now right.
  - split; [exact K|]. apply N. unfold total_roots in HT. lia.
Qed.
Lemma get_coefficients_balanced f : balanced f -> total_roots f <> 0%nat ->
  get_coefficients f = Ok (adjust_gain (pz_gain f) (stages_of f)) /\ stages_of f <> [].
Proof.
  intros HB HT. destruct (stages_balanced f HB HT) as [K N]. split; [|exact N]. unfold get_coefficients. replace (total_roots f =? 0)%nat with false by lia.
  fold (stages_of f). rewrite (appends_kept _ K N). reflexivity.
Qed.
Lemma stages_value' f z h : stages_of f <> [] -> z <> RtoC 0 -> cascade_value (adjust_gain (pz_gain f) (stages_of f)) z h <-> digital_value f z h.
Proof.
  intros N Hz. rewrite <- (stages_value f z h Hz). apply adjust_same; try assumption; [discriminate|].
  intros z' h' Hz'. cbn [cascade_value]. split.
  - intros V. exists (RtoC 1), h'. split; [|split; [exact V|ring]]. apply has_value_intro; unfold numerator, denominator; cbn [identity_coeffs a0 a1 a2 b0 b1 b2]; [|symmetry; apply Cmult_1_l].
    replace (Cplus (Cplus (Cmult (Cmult (RtoC 1) z') z') (Cmult (RtoC 0) z')) (RtoC 0)) with (Cmult z' z') by ring. now apply Cmult_neq.
  - intros (h1 & h2 & V1 & V2 & ->). destruct V1 as [D E]. unfold numerator, denominator in *. cbn [identity_coeffs a0 a1 a2 b0 b1 b2] in *.
    replace (Cmult h1 h2) with h2; [exact V2|]. rewrite <- E. field. exact Hz'.
Qed.
(* GetCoefficients realises the digital transfer function *)
Definition realised (f : pole_zero) : Prop := exists cs, get_coefficients f = Ok cs /\ forall z h, z <> RtoC 0 -> cascade_value cs z h <-> digital_value f z h.
Lemma realised_of f : total_roots f <> 0%nat -> clear_roots f \/ balanced f -> realised f.
Proof.
  intros HT [H|H].
  - destruct (get_coefficients_clear f H) as (cs & E & V). exists cs. split; [exact E|exact (V HT)].
  - destruct (get_coefficients_balanced f H HT) as [E N]. eexists. split; [exact E|]. intros z h Hz. now apply stages_value'.
Qed.
