From Verif Require Import Common ListLemmas RealUtil BiquadModel DesignModel DesignSpec DesignProofs DesignProofs2 DesignProofs3 CascadeModel CascadeSpec CascadeProofs CascadeProofs2 PoleZeroModel PoleZeroSpec EqualizerSpec EqualizerProofs PoleZeroProofs PoleZeroProofs2 PoleZeroProofs3 PoleZeroProofs4 PoleZeroProofs5 PolyRoots PoleZeroProofs6 PoleZeroProofs7 PoleZeroProofs12 PoleZeroProofs16 PoleZeroProofs17 PoleZeroProofs18.
From Coquelicot Require Import Complex.
Local Open Scope R_scope.

(* ---------- a Linkwitz-Riley crossover that is not flat ---------- *)
Lemma simplify_b cs cs' : merge_pairs tolerance vec_b set_b (length cs) cs = Ok cs' -> Forall (fun c => tolerance < Rabs (a2 c)) cs' -> simplify tolerance cs = Ok cs'.
Proof.
  intros E H. unfold simplify. rewrite E. cbn [obind]. rewrite merge_pairs_none by (revert H; apply Forall_impl; intros c; exact (first_order_false_hi tolerance (vec_a c))). cbn [obind]. f_equal.
  destruct (length cs'); cbn [merge_gains]; [reflexivity|]. destruct (1 <? length cs')%nat; [|reflexivity]. unfold find_zero_order. rewrite (find_none (fun c => zero_order tolerance (vec_a c))); [reflexivity|]. revert H. apply Forall_impl. intros c. exact (zero_order_false_hi tolerance (vec_a c)).
Qed.
Lemma copies_tiny g c1 c2 : 0 < g -> g <= tolerance -> tolerance < 2 * g -> vec_b c1 = [g; 2 * g; g] -> second_order c2 -> tolerance < Rabs (a2 c1) ->
  copies (seq 0 2) [c1; c2] = Ok [set_b c1 [g * g; 4 * (g * g); 6 * (g * g)]; c2; set_b c1 [1; 0; 0]; c2].
Proof.
  intros G0 G1 G2 B S2 A. pose proof tol_is as T.
  assert (F1 : first_order tolerance (vec_b c1) = true).
  { unfold first_order. rewrite B. cbn [nth]. rewrite !Rabs_pos_eq by lra. rewrite (Rleb_true g), (Rltb_true tolerance (2 * g)) by assumption. reflexivity. }
  destruct (so_first c2 S2) as [F2 _]. destruct S2 as [B2 A2].
  set (d := set_b c1 [g * g; 4 * (g * g); 6 * (g * g)]). set (e := set_b c1 [1; 0; 0]).
  assert (GG : 4 * (g * g) <= tolerance) by (assert (g * g <= tolerance * g) by (apply Rmult_le_compat_r; lra); rewrite T in *; nra).
  assert (F3 : first_order tolerance (vec_b d) = false) by (apply first_order_false_lo; cbn; rewrite Rabs_pos_eq; [exact GG|nra]).
  assert (F4 : first_order tolerance (vec_b e) = false) by (apply first_order_false_lo; cbn; rewrite Rabs_R0; lra).
  cbn [seq copies length Nat.ltb Nat.leb oguard nth]. unfold append_biquad at 1. cbn [app].
  rewrite (simplify_b [c1; c2; c1] [d; c2; e]).
  - cbn [obind copies length Nat.ltb Nat.leb oguard nth]. unfold append_biquad. cbn [app]. rewrite (simplify_b _ [d; c2; e; c2]); [reflexivity| |].
    + apply merge_pairs_none. repeat constructor; assumption.
    + repeat constructor; assumption.
  - cbn [length merge_pairs]. unfold find_pair. cbn [find_from]. rewrite F1. cbn [skipn find_from]. rewrite F2, F1. cbn [nth].
    destruct (convolve_total g (2 * g) g g (2 * g) g) as [p E]; try lra. rewrite B, E. cbn [obind]. pose proof (fun j => convolve_nth _ _ _ j E) as EN. rewrite triple_product in EN.
    replace (set_b c1 (vresize 0 3 p)) with d.
    + cbn [update splice firstn skipn app length Nat.add]. change (update (update [c1; c2; c1] 0 d) 2 (set_b c1 [1; 0; 0])) with [d; c2; e]. apply (merge_pairs_none _ _ _ 2). repeat constructor; assumption.
    + unfold d, set_b. rewrite !vresize3_nth by lia. rewrite !EN. cbn [nth]. f_equal; ring.
  - repeat constructor; assumption.
Qed.
Lemma pi_upper : PI <= 3.34.
Proof. pose proof (proj2 (PI_ineq 2)) as H. unfold tg_alt, PI_tg in H. cbn [Nat.mul Nat.add sum_f_R0] in H. cbn [INR pow Nat.mul Nat.add] in H. lra. Qed.
Lemma cos_lower x : 0 < x -> 1 - x * x / 2 <= cos x.
Proof.
  intros H. replace x with (2 * (x / 2)) at 3 by field. rewrite cos_2a_sin. assert (S : Rabs (sin (x / 2)) <= x / 2).
  { destruct (Rle_dec (x / 2) 1) as [L|L].
    - assert (0 <= sin (x / 2)) by (apply sin_ge_0; [lra|pose proof PI2_1; lra]). rewrite Rabs_pos_eq by assumption. left. apply sin_lt_x. lra.
    - pose proof (SIN_bound (x / 2)). apply Rabs_le. lra. }
  assert (0 <= Rabs (sin (x / 2))) by apply Rabs_pos. pose proof (Rsqr_abs (sin (x / 2))) as E. unfold Rsqr in E. rewrite Rmult_assoc, E. nra.
Qed.
Lemma witness_t : 9 / 3200 < tan (PI * 45 / 48000) /\ tan (PI * 45 / 48000) <= 0.00316.
Proof.
  pose proof pi_upper as U. pose proof PI2_3_2 as L. replace (PI * 45 / 48000) with (PI * 3 / 3200) by field. set (x := PI * 3 / 3200). assert (X : 9 / 3200 < x <= 0.00314) by (unfold x; lra).
  split; [apply Rlt_trans with x; [lra|]; apply tan_gt; lra|]. unfold tan. pose proof (cos_lower x ltac:(lra)) as CL. assert (S : sin x <= x) by (left; apply sin_lt_x; lra).
  assert (CP : 0.9999 < cos x) by nra. apply (Rmult_le_reg_r (cos x)); [lra|]. unfold Rdiv. rewrite Rmult_assoc, Rinv_l by lra. nra.
Qed.
Lemma linkwitz_riley_dip : exists lo hi hl, crossover Linkwitz_Riley_crossover 8 45 48000 = Ok (lo, hi) /\
  cascade_value lo (on_circle 0 48000) hl /\ cascade_value hi (on_circle 0 48000) (RtoC 0) /\ Cmod hl = 11 / 16.
Proof.
  pose proof witness_t as [T1 T2]. pose proof tol_is as TT. set (t := tan (PI * 45 / 48000)) in *.
  assert (HN : (Z.of_nat 4 <= 50000)%Z) by lia. assert (HC : lone_clear 4 t) by (intros X; discriminate).
  destruct (butterworth_pair 4 48000 45) as (lo & hi & EL & EH & SL & SH & V & NL & h1 & NH & MH); try lra; try lia.
  destruct (lowpass_stages 4 48000 45) as (g & pp & lp & ED & [G1 G2] & L1 & L2 & CP & _); try lra; try lia; [exact HC|]. fold t in G1, G2.
  rewrite EL in ED. injection ED as ED.
  destruct (double_highpass 4 48000 45) as (D & E2 & LD' & hi2 & CH & RH & NEH & _); try lra; try lia; [exact HC|fold t; unfold highpass_gain; cbn [Nat.max]; assert ((1 + t) ^ 4 <= 2 ^ 4) by (apply pow_incr; lra); lra|].
  rewrite EH in E2. injection E2 as <-.
  change (length (paired_poles (butterworth 4))) with 2%nat in L1. change (length (lone_poles (butterworth 4))) with 0%nat in L2. destruct lp; [|discriminate]. destruct pp as [|p1 [|p2 [|? ?]]]; try discriminate.
  cbn [map app adjust_gain] in ED. set (c1 := set_b _ _) in ED. set (c2 := pair_stage (-1) p2) in ED.
  assert (T4 : (9 / 3200) ^ 4 <= t ^ 4 <= (0.00316) ^ 4) by (split; apply pow_incr; lra).
  assert (Q : t ^ 4 <= g * (1 + t) ^ 4).
  { assert (0 < (1 + t) ^ 4) by (apply pow_lt; lra). apply (Rmult_le_compat_r ((1 + t) ^ 4)) in G1; [|lra]. unfold Rdiv in G1. rewrite Rmult_assoc, Rinv_l in G1; lra. }
  assert (Q2 : (1 + t) ^ 4 <= (1.00316) ^ 4) by (apply pow_incr; lra).
  assert (G0 : 0 < g). { destruct (Rlt_le_dec 0 g) as [?|NO]; [assumption|exfalso]. assert (0 < (1 + t) ^ 4) by (apply pow_lt; lra). assert (0 < (9 / 3200) ^ 4) by (apply pow_lt; lra). nra. }
  assert (GB : g <= tolerance /\ tolerance < 2 * g).
  { split; [rewrite TT; lra|]. destruct (Rlt_le_dec tolerance (2 * g)) as [?|NO]; [assumption|exfalso]. rewrite TT in NO. assert (g * (1 + t) ^ 4 <= / 20000000000 * (1.00316) ^ 4) by (apply Rmult_le_compat; try lra; apply pow_le; lra). lra. }
  destruct GB as [GB1 GB2].
  assert (B1 : vec_b c1 = [g; 2 * g; g]) by (unfold c1, vec_b, set_b; cbn; repeat (apply f_equal2; [ring|]); reflexivity).
  destruct (pair_stage_so (-1) 1 p2 ltac:(ring) ltac:(lra) (CP p2 ltac:(cbn; auto))) as [_ S2]. fold c2 in S2.
  destruct (pair_stage_so (-1) 1 p1 ltac:(ring) ltac:(lra) (CP p1 ltac:(cbn; auto))) as [_ [_ A1]]. change (a2 (pair_stage (-1) p1)) with (a2 c1) in A1.
  pose proof (copies_tiny g c1 c2 G0 GB1 GB2 B1 S2 A1) as CT. set (lo2 := [_; _; _; _]) in CT.
  destruct (V 0 ltac:(lra)) as (h & VL & VH & M). cbv zeta in *. replace (PI * 0 / 48000) with 0 in * by field. rewrite tan_0 in *. replace (0 / tan (PI * 45 / 48000)) with 0 in * by (fold t; field; lra).
  rewrite on_circle_0 in * by lra. cbn [Nat.mul Nat.add pow] in M.
  exists lo2, hi2, (Cmult (RtoC (11 / 16)) (Cmult h h)). split; [|split; [|split]].
  - unfold crossover, make_linkwitz_riley, make_butterworth. rewrite (Rltb_true 0 45), (Rltb_true 45 (48000 / 2)) by lra. change (0 <? 8)%Z with true. change (Z.rem 8 2) with 0%Z. change (Z.quot 8 2) with (Z.of_nat 4). cbn [ocheck Z.eqb].
    rewrite EL, EH. cbn [obind fst]. rewrite (append_copies_of _ lo hi lo2 hi2); [reflexivity|rewrite ED; exact CT|]. replace (length lo) with (length hi) by (rewrite LD', ED; reflexivity). exact CH.
  - rewrite ED in VL. apply cascade_value_iff in VL. destruct VL as [DN NE]. apply cascade_value_iff. unfold num, den in *. rewrite !cprod_cons in *. unfold lo2. rewrite !cprod_cons. 
    change (cprod (fun c => numerator c (RtoC 1)) []) with (RtoC 1) in *. change (cprod (fun c => denominator c (RtoC 1)) []) with (RtoC 1) in *.
    rewrite !numerator_ev, !denominator_ev in *. unfold ev in *. rewrite B1 in NE. rewrite !vec_b_set_b, !vec_a_set_b. cbn [nth] in *.
    set (a1 := Cplus (Cplus (Cmult (Cmult (RtoC (nth 0 (vec_a c1) 0)) (RtoC 1)) (RtoC 1)) (Cmult (RtoC (nth 1 (vec_a c1) 0)) (RtoC 1))) (RtoC (nth 2 (vec_a c1) 0))) in *.
    set (a2 := Cplus (Cplus (Cmult (Cmult (RtoC (nth 0 (vec_a c2) 0)) (RtoC 1)) (RtoC 1)) (Cmult (RtoC (nth 1 (vec_a c2) 0)) (RtoC 1))) (RtoC (nth 2 (vec_a c2) 0))) in *.
    set (n2 := Cplus (Cplus (Cmult (Cmult (RtoC (nth 0 (vec_b c2) 0)) (RtoC 1)) (RtoC 1)) (Cmult (RtoC (nth 1 (vec_b c2) 0)) (RtoC 1))) (RtoC (nth 2 (vec_b c2) 0))) in *.
    split.
    + replace (Cmult a1 (Cmult a2 (Cmult a1 (Cmult a2 (RtoC 1))))) with (Cmult (Cmult a1 (Cmult a2 (RtoC 1))) (Cmult a1 (Cmult a2 (RtoC 1)))) by ring. now apply Cmult_neq.
    + replace (Cmult (Cmult (RtoC (11 / 16)) (Cmult h h)) (Cmult a1 (Cmult a2 (Cmult a1 (Cmult a2 (RtoC 1)))))) with (Cmult (RtoC (11 / 16)) (Cmult (Cmult h (Cmult a1 (Cmult a2 (RtoC 1)))) (Cmult h (Cmult a1 (Cmult a2 (RtoC 1)))))) by ring.
      rewrite <- NE. clearbody n2. clear. destruct n2 as [x y]. apply injective_projections; cbn; field.
  - replace (RtoC 0) with (Cmult (RtoC 0) (RtoC 0)) by ring. apply RH; [apply RtoC_neq; lra|]. apply cascade_value_app. exists (RtoC 0), (RtoC 0).
    replace (Cmult (cpow (0, 0) 4) h) with (RtoC 0) in VH by (change (0, 0) with (RtoC 0); cbn [cpow]; ring). auto.
  - rewrite !Cmod_mult, Cmod_R, Rabs_pos_eq by lra. replace (Cmod h * Cmod h) with 1 by lra. lra.
Qed.
