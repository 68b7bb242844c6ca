From Verif Require Import Common ListLemmas RealUtil BiquadModel DesignModel DesignSpec DesignProofs DesignProofs2 DesignProofs3 CascadeModel CascadeSpec CascadeProofs CascadeProofs2 PoleZeroModel PoleZeroSpec EqualizerSpec EqualizerProofs PoleZeroProofs PoleZeroProofs2 PoleZeroProofs3 PoleZeroProofs4 PoleZeroProofs5 PolyRoots PoleZeroProofs6 PoleZeroProofs7.
From Coquelicot Require Import Complex.
Local Open Scope R_scope.

(* ---------- appending the stages of a cascade to itself ---------- *)
Fixpoint copies (is : list nat) (cs : list (coeffs R)) : outcome (list (coeffs R)) :=
  match is with
  | [] => Ok cs
  | i :: is' => oguard (i <? length cs)%nat (obind (append_biquad tolerance cs (nth i cs identity_coeffs)) (copies is'))
  end.
Lemma append_copies_of is : forall a b a' b', copies is a = Ok a' -> copies is b = Ok b' -> append_copies is (a, b) = Ok (a', b').
Proof.
  induction is as [|i is IH]; intros a b a' b' HA HB; cbn [copies append_copies fst snd] in *; [congruence|].
  destruct (i <? length a)%nat; [|discriminate]. destruct (i <? length b)%nat; [|discriminate]. cbn [oguard] in *.
  destruct (append_biquad tolerance a _) as [a1| |]; try discriminate. destruct (append_biquad tolerance b _) as [b1| |]; try discriminate. cbn [obind] in *. now apply IH.
Qed.
Lemma firstn_S {A} (d : A) l i : (i < length l)%nat -> firstn (S i) l = firstn i l ++ [nth i l d].
Proof. revert i. induction l as [|x l IH]; intros [|i] H; cbn [firstn nth app length] in *; try lia; [reflexivity|]. f_equal. apply IH. lia. Qed.
Lemma firstn_Forall {A} (P : A -> Prop) l i : Forall P l -> Forall P (firstn i l).
Proof. intros H. revert i. induction H as [|x l Hx _ IH]; intros [|i]; cbn [firstn]; constructor; auto. Qed.
Lemma nth_Forall {A} (P : A -> Prop) d l i : Forall P l -> (i < length l)%nat -> P (nth i l d).
Proof. intros H Hi. rewrite Forall_forall in H. apply H, nth_In, Hi. Qed.
Lemma copies_so cs : Forall second_order cs -> forall k i, (i + k = length cs)%nat -> copies (seq i k) (cs ++ firstn i cs) = Ok (cs ++ cs).
Proof.
  intros H. induction k as [|k IH]; intros i E; cbn [seq copies]; [rewrite firstn_all2 by lia; reflexivity|].
  rewrite app_length. replace (i <? _)%nat with true by lia. cbn [oguard]. rewrite app_nth1 by lia. rewrite append_so.
  - cbn [obind]. rewrite <- app_assoc, <- (firstn_S identity_coeffs) by lia. apply IH. lia.
  - apply Forall_app. split; [exact H|now apply firstn_Forall].
  - apply nth_Forall; [exact H|lia].
Qed.
Lemma find_mid f pre c post i : Forall (fun c => f c = false) pre -> Forall (fun c => f c = false) post ->
  find_from f (pre ++ c :: post) i = if f c then Some (i + length pre)%nat else None.
Proof.
  intros H1 H2. revert i. induction H1 as [|d pre HD _ IH]; intros i; cbn [app find_from length].
  - destruct (f c); [f_equal; lia|now apply find_none].
  - rewrite HD, IH. destruct (f c); [f_equal; lia|reflexivity].
Qed.
Lemma merge_pairs_mid tol poly set fuel pre c post : Forall (fun c => first_order tol (poly c) = false) pre -> Forall (fun c => first_order tol (poly c) = false) post ->
  merge_pairs tol poly set fuel (pre ++ c :: post) = Ok (pre ++ c :: post).
Proof.
  intros H1 H2. destruct fuel; cbn [merge_pairs]; [reflexivity|]. unfold find_pair. rewrite (find_mid (fun c => first_order tol (poly c))) by assumption. destruct (first_order tol (poly c)); [|reflexivity].
  cbn [Nat.add]. replace (skipn (S (length pre)) (pre ++ c :: post)) with post; [now rewrite find_none|].
  change (c :: post) with ([c] ++ post). rewrite app_assoc, skipn_app, skipn_all2 by (rewrite app_length; cbn; lia). rewrite app_length. cbn [length]. replace (S (length pre) - (length pre + 1))%nat with 0%nat by lia. reflexivity.
Qed.
Lemma append_mid pre c post d : Forall second_order pre -> Forall second_order post -> second_order d -> proper_b c -> append_biquad tolerance (pre ++ c :: post) d = Ok (pre ++ c :: post ++ [d]).
Proof.
  intros H1 H2 H3 HC. unfold append_biquad. rewrite <- app_assoc. cbn [app]. assert (H4 : Forall second_order (post ++ [d])) by (apply Forall_app; split; [exact H2|now constructor]). set (q := post ++ [d]) in *. clearbody q.
  assert (FB : forall l, Forall second_order l -> Forall (fun c => first_order tolerance (vec_b c) = false) l) by (intros l; apply Forall_impl; intros e He; apply (so_first e He)).
  assert (FA : forall l, Forall second_order l -> Forall (fun c => first_order tolerance (vec_a c) = false) l) by (intros l; apply Forall_impl; intros e He; apply (so_first e He)).
  unfold simplify. rewrite merge_pairs_mid by auto. cbn [obind]. rewrite merge_pairs_mid by auto. cbn [obind]. f_equal.
  destruct (length (pre ++ c :: q)) as [|n] eqn:L; cbn [merge_gains]; [reflexivity|]. rewrite L. destruct (1 <? S n)%nat; [|reflexivity].
  unfold find_zero_order. rewrite (find_none (fun c => zero_order tolerance (vec_b c))); [destruct (find_from _ _ _); reflexivity|].
  apply Forall_app. split; [revert H1; apply Forall_impl; intros e He; exact (proj1 (so_zero e He))|]. constructor; [exact HC|]. revert H4. apply Forall_impl. intros e He. exact (proj1 (so_zero e He)).
Qed.
Lemma copies_mid l c : Forall second_order l -> proper_b c -> forall k i, (i + k = length l)%nat ->
  copies (seq i (k + 1)) (l ++ c :: firstn i l) = simplify tolerance ((l ++ [c]) ++ (l ++ [c])).
Proof.
  intros H HC. induction k as [|k IH]; intros i E; cbn [Nat.add seq copies].
  - rewrite firstn_all2 by lia. rewrite app_length. cbn [length]. replace (i <? _)%nat with true by lia. cbn [oguard]. rewrite app_nth2 by lia. replace (i - length l)%nat with 0%nat by lia. cbn [nth]. unfold append_biquad. rewrite <- !app_assoc. cbn [app]. destruct (simplify _ _); reflexivity.
  - rewrite app_length. replace (i <? _)%nat with true by lia. cbn [oguard]. rewrite app_nth1 by lia. rewrite append_mid; try assumption.
    + cbn [obind]. rewrite <- (firstn_S identity_coeffs) by lia. apply IH. lia.
    + now apply firstn_Forall.
    + apply nth_Forall; [exact H|lia].
Qed.
Lemma so_scaled c : second_order c -> a0 c <> 0 -> well_scaled c.
Proof.
  intros [H1 H2] H. unfold tolerance in *. split; [right; exact H1|]. split; [right; exact H2|]. split; [exact H|]. split; intros _ E; rewrite E, Rabs_R0 in *; lra.
Qed.
Lemma doubled l last : Forall (fun c => second_order c /\ a0 c <> 0) l -> last = [] \/ (exists c, last = [c] /\ well_scaled c /\ proper_b c) -> l ++ last <> [] ->
  exists cs, copies (seq 0 (length (l ++ last))) (l ++ last) = Ok cs /\ same_response ((l ++ last) ++ (l ++ last)) cs /\ cs <> [] /\ Forall well_scaled (l ++ last) /\ Forall well_scaled cs.
Proof.
  intros H HL HN. assert (HS : Forall second_order l) by (revert H; apply Forall_impl; tauto).
  assert (HW : Forall well_scaled l) by (revert H; apply Forall_impl; intros c [A B]; now apply so_scaled).
  destruct HL as [-> |(c & -> & WC & PC)].
  - rewrite app_nil_r in *. exists (l ++ l). split; [|split; [intros z h _; tauto|split; [destruct l; [contradiction|discriminate]|split; [exact HW|now apply Forall_app]]]]. pose proof (copies_so l HS (length l) 0 eq_refl) as X. cbn [firstn] in X. now rewrite app_nil_r in X.
  - assert (HA : Forall well_scaled (l ++ [c])) by (apply Forall_app; split; [exact HW|now constructor]). destruct (simplify_scaled ((l ++ [c]) ++ (l ++ [c]))) as (cs & E & S0 & S1 & S2 & _).
    + destruct l; discriminate.
    + now apply Forall_app.
    + exists cs. split; [|split; [exact S1|split; [destruct cs; [cbn in S2; lia|discriminate]|split; [exact HA|exact S0]]]]. rewrite app_length. cbn [length]. rewrite <- E. exact (copies_mid l c HS PC (length l) 0 eq_refl).
Qed.

(* ---------- the stages of a Butterworth filter ---------- *)
Definition pair_stage (x : R) (p : C) : coeffs R := make_coeffs (from_lone x x) (from_pair p).
Definition lone_stage (x : R) (p : R) : coeffs R := make_coeffs (from_lone x 0) (from_lone p 0).
Lemma stages_repeat x : forall pp lp fuel, (length lp <= 1)%nat -> (length pp + length lp <= fuel)%nat ->
  pz_stages fuel [] (repeat x (2 * length pp + length lp)) pp lp = map (pair_stage x) pp ++ map (lone_stage x) lp.
Proof.
  induction pp as [|p pp IH]; intros lp fuel H1 H2.
  - destruct lp as [|q [|? ?]]; cbn [length] in *; [|destruct fuel as [|fuel]; [lia|]|lia].
    + destruct fuel; reflexivity.
    + cbn [Nat.mul Nat.add repeat pz_stages length Nat.eqb next_poly map app]. f_equal. destruct fuel; reflexivity.
  - destruct fuel as [|fuel]; [cbn [length] in *; lia|]. replace (2 * length (p :: pp) + length lp)%nat with (S (S (2 * length pp + length lp))) by (cbn [length]; lia).
    cbn [repeat pz_stages]. replace (_ =? 0)%nat with false by (cbn [length]; lia). cbn [next_poly map app]. f_equal. apply IH; [exact H1|cbn [length] in H2; lia].
Qed.
Lemma po_le K w l : 0 <= K -> (forall q, In q l -> Cmod q <= w) -> 0 <= w -> Cmod (po (fun q => Cminus (RtoC K) q) l) <= (K + w) ^ length l.
Proof.
  intros HK HL HW. induction l as [|q l IH]; cbn [product_over length pow]; [rewrite Cmod_1; lra|]. rewrite Cmod_mult. apply Rmult_le_compat; try apply Cmod_ge_0.
  - eapply Rle_trans; [apply Cmod_triangle|]. rewrite Cmod_opp, Cmod_R, Rabs_pos_eq by exact HK. specialize (HL q (or_introl eq_refl)). lra.
  - apply IH. intros r Hr. apply HL. now right.
Qed.
Lemma po_ge K l : 0 <= K -> (forall q, In q l -> fst q < 0) -> K ^ length l <= Cmod (po (fun q => Cminus (RtoC K) q) l).
Proof.
  intros HK HL. induction l as [|q l IH]; cbn [product_over length pow]; [rewrite Cmod_1; lra|]. rewrite Cmod_mult. apply Rmult_le_compat; [exact HK|now apply pow_le| |apply IH; intros r Hr; apply HL; now right].
  specialize (HL q (or_introl eq_refl)). apply Rle_trans with (Rabs (fst (Cminus (RtoC K) q))); [|eapply Rle_trans; [apply Rmax_l|apply Rmax_Cmod]]. cbn. rewrite Rabs_pos_eq; lra.
Qed.
Lemma realised_stages m fs w n x e : 0 < fs -> 0 < w -> 0 < pz_gain m -> (1 <= n)%nat ->
  paired_zeros m = [] -> (e = 0%nat /\ x = -1 \/ e = n /\ x = 1) -> lone_zeros m = repeat 0 e -> length (poles m) = n -> (length (lone_poles m) <= 1)%nat ->
  (forall p, In p (poles m) -> fst p < 0 /\ Cmod p <= w) ->
  (forall r, In r (paired_poles m) -> / 100000 < Cmod (bilinear_root (2 * fs) r)) ->
  exists g, pz_gain m * (2 * fs) ^ e / (2 * fs + w) ^ n <= g <= pz_gain m * (2 * fs) ^ e / (2 * fs) ^ n /\
    obind (bilinear_pz m fs 0) get_coefficients = Ok (adjust_gain g (map (pair_stage x) (map (bilinear_root (2 * fs)) (paired_poles m)) ++ map (lone_stage x) (map (fun p => (2 * fs + p) / (2 * fs - p)) (lone_poles m)))).
Proof.
  intros Hfs HW HG Hn PZ HE LZ LP LO HP HA. pose proof (compute_K_0 fs Hfs) as EK. set (K := 2 * fs) in *. assert (HK0 : 0 < K) by (unfold K; lra).
  assert (HZ : zeros m = roots (repeat 0 e) []) by (unfold zeros; now rewrite LZ, PZ). assert (LZm : length (zeros m) = e) by (rewrite HZ, roots_length, repeat_length; cbn [length]; lia).
  assert (HK : forall r, In r (zeros m ++ poles m) -> r <> RtoC K).
  { intros r Hr E. apply in_app_iff in Hr. destruct Hr as [Hr|Hr].
    - rewrite HZ in Hr. apply in_roots in Hr. destruct Hr as [(y & Hy & ->)|[[]|(y & [] & _)]]. apply repeat_spec in Hy. subst y. apply (f_equal fst) in E. cbn in E. lra.
    - destruct (HP r Hr) as [X _]. rewrite E in X. cbn in X. lra. }
  assert (PN : po (fun q => Cminus (RtoC K) q) (poles m) <> RtoC 0) by (apply po_neq; intros r Hr; apply Cminus_neq; intros X; apply (HK r); [apply in_app_iff; now right|now symmetry]).
  set (h := Cdiv (Cmult (RtoC (pz_gain m)) (po (fun z => Cminus (RtoC K) z) (zeros m))) (po (fun q => Cminus (RtoC K) q) (poles m))).
  assert (V : analog_value m (RtoC K) h) by (split; [exact PN|reflexivity]).
  exists (Cmod h). split.
  { unfold h. rewrite Cmod_div, Cmod_mult, Cmod_R, Rabs_pos_eq by (lra || exact PN). rewrite HZ, po_repeat. replace (Cminus (RtoC K) (RtoC 0)) with (RtoC K) by ring. rewrite cpow_RtoC, Cmod_R, Rabs_pos_eq by (apply pow_le; lra).
    unfold Rdiv. split; (apply Rmult_le_compat_l; [apply Rmult_le_pos; [lra|apply pow_le; lra]|]).
    - apply Rinv_le_contravar; [now apply Cmod_gt_0|]. rewrite <- LP. apply po_le; [lra|intros q Hq; apply HP, Hq|lra].
    - apply Rinv_le_contravar; [now apply pow_lt|]. rewrite <- LP. apply po_ge; [lra|intros q Hq; apply HP, Hq]. }
  pose proof (bilinear_pz_ok m fs 0 h) as B. rewrite EK in B. rewrite (B HK V). cbn [obind].
  assert (RD : Z.to_nat (relative_degree m) = (n - e)%nat) by (rewrite relative_degree_is, LZm, LP; lia).
  assert (PQ : (length (lone_poles m) + 2 * length (paired_poles m) = n)%nat) by (unfold poles in LP; now rewrite roots_length in LP).
  assert (LD : lone_zeros (discretized K m (Cmod h)) = repeat x n).
  { unfold discretized. cbn [lone_zeros]. rewrite RD, LZ. destruct HE as [[-> ->]|[-> ->]].
    - cbn [repeat map app]. now rewrite Nat.sub_0_r.
    - rewrite Nat.sub_diag. cbn [repeat]. rewrite app_nil_r. clear - HK0. induction n as [|n IH]; cbn [repeat map]; [reflexivity|]. rewrite IH. f_equal. field. lra. }
  assert (BAL : balanced (discretized K m (Cmod h))).
  { split; [|split; [|split]].
    - rewrite discretized_zeros_length, discretized_poles, map_length by exact HK. rewrite LZm, LP, RD. destruct HE as [[-> _]|[-> _]]; lia.
    - unfold discretized. cbn [lone_poles]. now rewrite map_length.
    - rewrite LD. intros r Hr. apply repeat_spec in Hr. subst r. destruct HE as [[_ ->]|[_ ->]]; [rewrite Rabs_left; lra|rewrite Rabs_R1; lra].
    - unfold discretized. cbn [paired_zeros paired_poles]. rewrite PZ. cbn [map app]. intros r Hr. apply in_map_iff in Hr. destruct Hr as (y & <- & Hy). now apply HA. }
  assert (TR : (total_roots (discretized K m (Cmod h)) = n + (length (lone_poles m) + length (paired_poles m)))%nat).
  { unfold total_roots. rewrite LD. unfold discretized. cbn [paired_zeros lone_poles paired_poles]. rewrite PZ, repeat_length, !map_length. cbn [map length]. lia. }
  destruct (get_coefficients_balanced _ BAL ltac:(lia)) as [-> _]. f_equal. f_equal; [unfold discretized; cbn [pz_gain]; ring|].
  unfold stages_of. rewrite TR, LD. unfold discretized. cbn [paired_zeros lone_poles paired_poles]. rewrite PZ. cbn [map].
  replace (repeat x n) with (repeat x (2 * length (map (bilinear_root K) (paired_poles m)) + length (map (fun p => (K + p) / (K - p)) (lone_poles m)))) by (rewrite !map_length; f_equal; lia).
  apply stages_repeat; rewrite !map_length; lia.
Qed.
