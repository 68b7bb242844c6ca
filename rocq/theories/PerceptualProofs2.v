(* Perceptual weighting filters: the analog responses and the digital filters. *)
From Verif Require Import Common ListLemmas RealUtil BiquadModel DesignModel DesignSpec DesignProofs CascadeModel CascadeSpec CascadeProofs CascadeProofs2 PoleZeroModel PoleZeroSpec PoleZeroProofs PoleZeroProofs2 PoleZeroProofs3 PoleZeroProofs4
  PerceptualModel PerceptualSpec PerceptualProofs.
From Coquelicot Require Import Complex.
Local Open Scope R_scope.
Notation po := product_over.

Lemma table_zeros w : zeros (weighting_table w) = standard_zeros w.
Proof. destruct w; cbn; repeat (f_equal; try (apply injective_projections; cbn; lra)). Qed.
Lemma table_poles w : poles (weighting_table w) = standard_poles w.
Proof. destruct w; cbn; repeat (f_equal; try (apply injective_projections; cbn; lra)). Qed.
Lemma loses_above fs l : filter (loses fs) l = above_nyquist fs l.
Proof.
  unfold above_nyquist. apply filter_ext. intros r. unfold loses, keeps. destruct (Rle_dec (PI * fs) (Cmod r)) as [H|H].
  - rewrite Rltb_false; [reflexivity|]. lra.
  - rewrite Rltb_true; [reflexivity|]. lra.
Qed.
Lemma table_numerator w s : Cmult (RtoC (pz_gain (weighting_table w))) (po (fun z => Cminus s z) (zeros (weighting_table w))) = standard_numerator w s.
Proof. rewrite table_zeros. destruct w; cbn [standard_zeros product_over weighting_table pz_gain standard_numerator]; apply injective_projections; destruct s as [a b]; cbn; first [lra | field]. Qed.
Lemma table_denominator w s : po (fun z => Cminus s z) (poles (weighting_table w)) = standard_denominator w s.
Proof. rewrite table_poles. destruct w; cbn [standard_poles product_over standard_denominator]; apply injective_projections; destruct s as [a b]; cbn; first [lra | field]. Qed.
Lemma magnitudes_neq fs l : 0 < fs -> magnitudes (filter (loses fs) l) <> RtoC 0.
Proof.
  intros Hf. apply po_neq. intros r Hr. apply filter_In in Hr as [_ Hr]. apply (loses_nonzero fs) in Hr; [|exact Hf]. apply RtoC_neq. intros E. apply Cmod_eq_0 in E. auto.
Qed.
Lemma perceptual_analog w fs s : 0 < fs -> standard_denominator w s <> RtoC 0 ->
  exists h, analog_value (perceptual_pz w fs) s h /\
    Cmult (Cmult h (factors (above_nyquist fs (standard_zeros w)) s)) (standard_denominator w s) = Cmult (standard_numerator w s) (factors (above_nyquist fs (standard_poles w)) s).
Proof.
  intros Hf HD. rewrite <- table_denominator in HD. rewrite <- table_numerator, <- table_denominator, <- table_zeros, <- table_poles, <- !loses_above.
  pose proof (perceptual_gain w fs Hf) as EG. destruct (table_shape w) as (TZ & TP & _ & _).
  pose proof (dropped_roots fs (lone_zeros (weighting_table w)) (paired_zeros (weighting_table w)) s Hf ltac:(intros x Hx; rewrite (TZ x Hx); lra)) as DZ.
  pose proof (dropped_roots fs (lone_poles (weighting_table w)) (paired_poles (weighting_table w)) s Hf ltac:(intros x Hx; left; exact (TP x Hx))) as DP. cbv zeta in DZ, DP.
  fold (zeros (weighting_table w)) in DZ. fold (poles (weighting_table w)) in DP.
  pose proof (po_filter (fun r => Cminus s r) (keeps fs) (zeros (weighting_table w))) as SZ. pose proof (po_filter (fun r => Cminus s r) (keeps fs) (poles (weighting_table w))) as SP.
  change (fun r => negb (keeps fs r)) with (loses fs) in SZ, SP. rewrite <- DZ in SZ. rewrite <- DP in SP.
  pose proof (magnitudes_neq fs (zeros (weighting_table w)) Hf) as NZ. pose proof (magnitudes_neq fs (poles (weighting_table w)) Hf) as NP.
  eexists. split; [split; [|reflexivity]|].
  - rewrite perceptual_poles. intros E. apply HD. rewrite SP, E. ring.
  - rewrite SZ. rewrite SP in HD |- *. rewrite perceptual_zeros, perceptual_poles.
    set (KP := po (fun r => Cminus s r) (filter (keeps fs) (poles (weighting_table w)))) in *. set (KZ := po (fun r => Cminus s r) (filter (keeps fs) (zeros (weighting_table w)))) in *.
    set (MP := magnitudes (filter (loses fs) (poles (weighting_table w)))) in *. set (MZ := magnitudes (filter (loses fs) (zeros (weighting_table w)))) in *.
    set (FP := factors (filter (loses fs) (poles (weighting_table w))) s) in *. set (FZ := factors (filter (loses fs) (zeros (weighting_table w))) s) in *.
    set (g := RtoC (pz_gain (perceptual_pz w fs))) in *. set (g0 := RtoC (pz_gain (weighting_table w))) in *. clearbody KP KZ MP MZ FP FZ g g0.
    assert (NK : KP <> RtoC 0) by (intros ->; apply HD; ring).
    transitivity (Cmult (Cmult g MP) (Cmult FP (Cmult KZ FZ))); [field; exact NK|]. rewrite EG. ring.
Qed.
Lemma perceptual_standard w fs s h : 0 < fs -> above_nyquist fs (standard_poles w) = nil -> above_nyquist fs (standard_zeros w) = nil -> standard_denominator w s <> RtoC 0 ->
  analog_value (perceptual_pz w fs) s h <-> h = Cdiv (standard_numerator w s) (standard_denominator w s).
Proof.
  intros Hf EP EZ HD. destruct (perceptual_analog w fs s Hf HD) as (h' & V & E). rewrite EP, EZ in E. cbn [factors] in E.
  assert (h' = Cdiv (standard_numerator w s) (standard_denominator w s)) as ->.
  { transitivity (Cdiv (Cmult (Cmult h' (RtoC 1)) (standard_denominator w s)) (standard_denominator w s)); [field; exact HD|]. rewrite E. field. exact HD. }
  split; [|intros ->; exact V]. intros [_ ->]. destruct V as [_ ->]. reflexivity.
Qed.

Lemma discretized_value_improper K f g z : (forall r, In r (zeros f ++ poles f) -> r <> RtoC K) -> analog_value f (RtoC K) (RtoC g) -> (length (poles f) <= length (zeros f))%nat ->
  z <> RtoC 0 -> z <> RtoC (-1) -> forall h, analog_value f (Cdiv (Cmult (RtoC K) (Cminus z (RtoC 1))) (Cplus z (RtoC 1))) h ->
  digital_value (discretized K f g) z (Cmult h (power (Cplus (RtoC 1) (Cinv z)) (length (zeros f) - length (poles f)))).
Proof.
  intros HK HV HD Z1 Z2 h. unfold digital_value, analog_value.
  rewrite discretized_poles, discretized_zeros_po, !bilinear_po; try assumption; try (intros p Hp; apply HK, in_app_iff; auto).
  set (PD := po _ (map _ (poles f))). set (ZD := po _ (map _ (zeros f))). destruct HV as [PK EG].
  set (P := po _ (poles f)) in *. set (Z := po _ (zeros f)) in *. rewrite relative_degree_is. cbn [discretized pz_gain].
  replace (Z.to_nat _) with O by lia. set (d := (length (zeros f) - length (poles f))%nat). set (np := length (poles f)) in *.
  replace (length (zeros f)) with (np + d)%nat by (unfold d, np; lia). rewrite cpow_add. clearbody d np. cbn [cpow].
  assert (Z3 : Cplus z (RtoC 1) <> RtoC 0) by now apply plus_one_neq.
  assert (Q : cpow (Cdiv z (Cplus z (RtoC 1))) np <> RtoC 0) by (apply cpow_neq, Cdiv_neq; assumption).
  assert (Q3 : Cmult (power (Cplus (RtoC 1) (Cinv z)) d) (cpow (Cdiv z (Cplus z (RtoC 1))) d) = RtoC 1).
  { replace (power (Cplus (RtoC 1) (Cinv z)) d) with (cpow (Cplus (RtoC 1) (Cinv z)) d) by (induction d as [|d IH]; cbn [cpow power]; congruence). rewrite <- cpow_mult. replace (Cmult _ _) with (RtoC 1); [apply cpow_1|]. field. now split. }
  set (a := cpow (Cdiv z (Cplus z (RtoC 1))) np) in *. set (b := cpow (Cdiv z (Cplus z (RtoC 1))) d) in *. set (c := power (Cplus (RtoC 1) (Cinv z)) d) in *. clearbody a b c.
  rewrite Rmult_1_l, EG. intros [A ->]. assert (N : PD <> RtoC 0) by (intros E; apply A; rewrite E; ring). split; [exact N|].
  transitivity (Cmult (Cdiv (Cmult (RtoC (pz_gain f)) (Cmult Z ZD)) (Cmult P PD)) (Cmult c b)); [field; auto|rewrite Q3; field; auto].
Qed.
Lemma get_coefficients_shape f cs : clear_roots f -> get_coefficients f = Ok cs -> cs <> nil /\ List.Forall (fun c => a0 c <> 0) cs.
Proof.
  intros H. unfold get_coefficients. destruct (total_roots f =? 0)%nat eqn:E; [intros X; assert (cs = identity_coeffs :: nil) by congruence; subst cs; split; [discriminate|constructor; [cbn; lra|constructor]]|].
  assert (K : forall r, In r (zeros f ++ poles f) -> clear r) by exact H.
  destruct (appends_of tolerance well_scaled) with (l := stages_of f) (cs := identity_coeffs :: nil) as (cs' & A & B & S & L).
  - intros c1 N1 F1. destruct (simplify_scaled c1 N1 F1) as (c2 & X1 & X2 & X3 & X4 & _). exists c2. auto.
  - discriminate.
  - constructor; [exact identity_well_scaled|constructor].
  - apply pz_stages_nice; apply Forall_forall; intros r Hr; apply K, in_app_iff; unfold zeros, poles; rewrite !in_roots; eauto 6.
  - unfold stages_of in A. rewrite A. cbn [obind]. intros X. assert (cs = adjust_gain (pz_gain f) cs') by congruence. subst cs. clear X A S.
    destruct cs' as [|c cs']; [cbn in L; lia|]. cbn [adjust_gain]. split; [discriminate|]. inversion B as [|? ? W1 W2]. subst. constructor.
    + destruct W1 as (_ & _ & W & _). unfold set_b, vec_b. cbn. exact W.
    + eapply Forall_impl; [|exact W2]. intros d (_ & _ & W & _). exact W.
Qed.
Lemma discretize_any m fs : 0 < fs -> (forall p, In p (poles m) -> fst p < 0) -> (forall z, In z (zeros m) -> fst z <= 0) ->
  (0 < length (zeros m))%nat -> 0 < pz_gain m -> (forall r, In r (zeros m ++ poles m) -> clear (bilinear_root (2 * fs) r)) ->
  exists cs, obind (bilinear_pz m fs 0) get_coefficients = Ok cs /\ (cs <> nil /\ List.Forall (fun c => a0 c <> 0) cs) /\ stable_cascade cs /\
    (forall z h, z <> RtoC 0 -> z <> RtoC (-1) -> analog_value m (Cdiv (Cmult (RtoC (2 * fs)) (Cminus z (RtoC 1))) (Cplus z (RtoC 1))) h ->
      cascade_value cs z (Cmult h (power (Cplus (RtoC 1) (Cinv z)) (length (zeros m) - length (poles m))))).
Proof.
  intros Hfs HP HZ H1 HG HT. pose proof (compute_K_0 fs Hfs) as EK. set (K := 2 * fs) in *. assert (HK0 : 0 < K) by (unfold K; lra).
  assert (HR : forall r, In r (zeros m ++ poles m) -> fst r <= 0).
  { intros r Hr. apply in_app_iff in Hr. destruct Hr as [Hr|Hr]; [now apply HZ|left; now apply HP]. }
  assert (HK : forall r, In r (zeros m ++ poles m) -> r <> RtoC K).
  { intros r Hr E. specialize (HR r Hr). subst r. cbn in HR. lra. }
  destruct (positive_value m K) as (g & G & V); [auto|lra|exact HG|].
  pose proof (bilinear_pz_ok m fs 0 (RtoC g)) as B. rewrite EK in B. rewrite (B HK V). cbn [obind]. rewrite Cmod_R, Rabs_pos_eq by lra.
  assert (CL : clear_roots (discretized K m g)).
  { intros r Hr. apply in_app_iff in Hr. destruct Hr as [Hr|Hr].
    + apply in_zeros_discretized in Hr; [|exact HK]. destruct Hr as [Hr| ->]; [|right; rewrite Cmod_R, Rabs_left by lra; lra]. apply in_map_iff in Hr. destruct Hr as (x & <- & Hx). apply HT, in_app_iff. now left.
    + rewrite discretized_poles in Hr by exact HK. apply in_map_iff in Hr. destruct Hr as (x & <- & Hx). apply HT, in_app_iff. now right. }
  assert (R : realised (discretized K m g)).
  { apply realised_of; [|now left]. unfold total_roots, discretized. cbn [lone_poles paired_poles lone_zeros paired_zeros]. rewrite app_length, !map_length. unfold zeros in H1. rewrite roots_length in H1. lia. }
  destruct R as (cs & E & VAL). exists cs. split; [exact E|]. split; [exact (get_coefficients_shape _ _ CL E)|].
  assert (IN : forall p, In p (poles (discretized K m g)) -> Cmod p < 1).
  { rewrite discretized_poles by exact HK. intros p Hp. apply in_map_iff in Hp. destruct Hp as (x & <- & Hx). apply bilinear_inside; auto. }
  split.
  - intros z Hz. destruct (digital_exists (discretized K m g) z IN Hz) as (h & Hh). exists h. apply VAL; [intros ->; rewrite Cmod_0 in Hz; lra|exact Hh].
  - intros z h Z1 Z2 AV. apply (VAL _ _ Z1). destruct (le_ge_dec (length (zeros m)) (length (poles m))) as [L|L].
    + replace (length (zeros m) - length (poles m))%nat with O by lia. cbn [power]. replace (Cmult h (RtoC 1)) with h by ring. now apply discretized_value.
    + apply discretized_value_improper; auto.
Qed.
(* the perceptual filters qualify *)
Lemma magnitudes_pos fs l : 0 < fs -> exists m, 0 < m /\ magnitudes (filter (loses fs) l) = RtoC m.
Proof.
  intros Hf. unfold magnitudes. induction l as [|r l (m & M & E)]; cbn [filter product_over]; [exists 1; split; [lra|reflexivity]|].
  destruct (loses fs r) eqn:L; [|now exists m]. cbn [product_over]. exists (Cmod r * m). split; [|rewrite E, RtoC_mult; reflexivity].
  apply Rmult_lt_0_compat; [|exact M]. apply Cmod_gt_0. now apply (loses_nonzero fs).
Qed.
Lemma perceptual_gain_pos w fs : 0 < fs -> 0 < pz_gain (perceptual_pz w fs).
Proof.
  intros Hf. pose proof (perceptual_gain w fs Hf) as E. destruct (magnitudes_pos fs (poles (weighting_table w)) Hf) as (m & M & Em). destruct (magnitudes_pos fs (zeros (weighting_table w)) Hf) as (n & N & En).
  destruct (table_shape w) as (_ & _ & _ & G). rewrite Em, En, <- !RtoC_mult in E. apply (f_equal fst) in E. cbn [fst RtoC] in E.
  assert (0 < pz_gain (weighting_table w) * n) by now apply Rmult_lt_0_compat. rewrite <- E in H.
  destruct (Rle_or_lt (pz_gain (perceptual_pz w fs)) 0) as [L|L]; [|exact L]. nra.
Qed.
Lemma root_cases w r : In r (standard_zeros w ++ standard_poles w) ->
  r = RtoC 0 \/ (exists p, r = RtoC p /\ p < 0 /\ In (RtoC p) (standard_poles w)) \/ (fst r < 0 /\ fst r * fst r <= 2 * (snd r * snd r)).
Proof.
  destruct w; cbn [standard_zeros standard_poles app In]; intros H; repeat match type of H with _ \/ _ => destruct H as [H|H] | False => destruct H end; subst r;
    try (now left); try (right; right; cbn [fst snd RtoC]; split; lra); right; left; match goal with |- exists p, RtoC ?q = _ /\ _ => exists q end; (split; [reflexivity|]); (split; [lra|]); auto 8.
Qed.
Lemma pole_cases w r : In r (standard_poles w) -> fst r < 0.
Proof. destruct w; cbn; intros H; repeat match type of H with _ \/ _ => destruct H as [H|H] | False => destruct H end; subst r; cbn [fst RtoC]; lra. Qed.
Lemma pair_clear K r : 0 < K -> fst r < 0 -> fst r * fst r <= 2 * (snd r * snd r) -> clear (bilinear_root K r).
Proof.
  intros HK HR H. right. unfold bilinear_root.
  assert (N : Cminus (RtoC K) r <> RtoC 0) by (apply Cminus_neq; intros E; apply (f_equal fst) in E; cbn in E; lra).
  rewrite Cmod_div by exact N. apply Cmod_gt_0 in N. apply (Rmult_lt_reg_r (Cmod (Cminus (RtoC K) r))); [exact N|].
  replace (Cmod (Cplus (RtoC K) r) / Cmod (Cminus (RtoC K) r) * Cmod (Cminus (RtoC K) r)) with (Cmod (Cplus (RtoC K) r)) by (field; lra).
  apply Rle_lt_trans with (/ 10 * Cmod (Cminus (RtoC K) r)); [|]. 2: { assert (T : / 10 * Cmod (Cminus (RtoC K) r) < Cmod (Cplus (RtoC K) r)); [|exact T].
    apply Rsqr_incrst_0; [|nra|apply Cmod_ge_0]. unfold Rsqr. replace (/ 10 * Cmod (Cminus (RtoC K) r) * (/ 10 * Cmod (Cminus (RtoC K) r))) with (/ 100 * (Cmod (Cminus (RtoC K) r) * Cmod (Cminus (RtoC K) r))) by field.
    rewrite !Cmod2. destruct r as [x y]. cbn [fst snd Cplus Cminus Copp RtoC] in *. pose proof (Rle_0_sqr (99 * K + 101 * x)) as SQ. unfold Rsqr in SQ. assert (0 < x * x) by nra. nra. }
  nra.
Qed.
Lemma real_clear K p : 0 < K -> p < 0 -> (K + p = 0 \/ / 100000 * (K - p) < Rabs (K + p)) -> clear (bilinear_root K (RtoC p)).
Proof.
  intros HK HP H. rewrite <- bilinear_real by lra. destruct H as [H|H].
  - left. rewrite H. f_equal. field. lra.
  - right. rewrite Cmod_R. unfold Rdiv. rewrite Rabs_mult, Rabs_inv, (Rabs_pos_eq (K - p)) by lra. apply (Rmult_lt_reg_r (K - p)); [lra|]. rewrite Rmult_assoc, Rinv_l by lra. lra.
Qed.
Lemma in_perceptual_zeros w fs r : In r (zeros (perceptual_pz w fs)) -> In r (standard_zeros w).
Proof. rewrite perceptual_zeros, table_zeros. intros H. now apply filter_In in H. Qed.
Lemma in_perceptual_poles w fs r : In r (poles (perceptual_pz w fs)) -> In r (standard_poles w).
Proof. rewrite perceptual_poles, table_poles. intros H. now apply filter_In in H. Qed.
Lemma perceptual_clear w fs r : 0 < fs -> clear_rate w fs -> In r (zeros (perceptual_pz w fs) ++ poles (perceptual_pz w fs)) -> clear (bilinear_root (2 * fs) r).
Proof.
  intros Hf HC Hr. assert (Hs : In r (standard_zeros w ++ standard_poles w)).
  { apply in_app_iff in Hr. apply in_app_iff. destruct Hr as [Hr|Hr]; [left; now apply in_perceptual_zeros in Hr|right; now apply in_perceptual_poles in Hr]. }
  destruct (root_cases w r Hs) as [->|[(p & -> & HP & HI)|[H1 H2]]].
  - right. rewrite <- bilinear_real by lra. rewrite Cmod_R. replace ((2 * fs + 0) / (2 * fs - 0)) with 1 by (field; lra). rewrite Rabs_R1. lra.
  - apply real_clear; [lra|exact HP|]. exact (HC p HI).
  - apply pair_clear; [lra|exact H1|exact H2].
Qed.
Lemma zero_kept w fs : 0 < fs -> In (RtoC 0) (zeros (perceptual_pz w fs)).
Proof.
  intros Hf. rewrite perceptual_zeros, table_zeros. apply filter_In. split; [destruct w; cbn; auto|]. unfold keeps. rewrite Cmod_R, Rabs_R0. apply Rltb_true. pose proof PI_RGT_0. nra.
Qed.
Lemma below_filter fs l : filter (keeps fs) l = below_nyquist fs l.
Proof.
  unfold below_nyquist. apply filter_ext. intros r. unfold keeps. destruct (Rle_dec (PI * fs) (Cmod r)) as [H|H].
  - rewrite Rltb_false; [reflexivity|]. lra.
  - rewrite Rltb_true; [reflexivity|]. lra.
Qed.
Lemma excess_is w fs : (length (zeros (perceptual_pz w fs)) - length (poles (perceptual_pz w fs)))%nat = excess_zeros w fs.
Proof. unfold excess_zeros. now rewrite perceptual_zeros, perceptual_poles, table_zeros, table_poles, !below_filter. Qed.
(* on the imaginary axis nothing vanishes *)
Lemma denominator_axis w y : standard_denominator w (0, y) <> RtoC 0.
Proof.
  rewrite <- table_denominator. apply po_neq. intros p Hp E. rewrite table_poles in Hp. apply pole_cases in Hp. apply (f_equal fst) in E. destruct p as [a b]. cbn in E, Hp. lra.
Qed.
Lemma factors_axis fs l y : 0 < fs -> (forall r, In r l -> r = RtoC 0 \/ fst r < 0) -> factors (above_nyquist fs l) (0, y) <> RtoC 0.
Proof.
  intros Hf H. rewrite <- loses_above. assert (X : forall r, In r (filter (loses fs) l) -> fst r < 0).
  { intros r Hr. apply filter_In in Hr as [H1 H2]. destruct (H r H1) as [->|]; [|assumption]. exfalso. exact (loses_nonzero fs _ Hf H2 eq_refl). }
  clear H. induction (filter (loses fs) l) as [|r l' IH]; cbn [factors]; [apply RtoC_neq; lra|]. apply Cmult_neq; [|apply IH; intros; apply X; now right].
  assert (HR : fst r < 0) by (apply X; now left). assert (N : r <> RtoC 0) by (intros ->; cbn in HR; lra). intros E.
  assert (E' : Cminus r (0, y) = RtoC 0) by (transitivity (Cmult r (Cminus (RtoC 1) (Cdiv (0, y) r))); [field; exact N|rewrite E; ring]).
  apply (f_equal fst) in E'. destruct r as [a b]. cbn in E', HR. lra.
Qed.
Lemma zero_factors w fs y : 0 < fs -> factors (above_nyquist fs (standard_zeros w)) (0, y) <> RtoC 0.
Proof.
  intros Hf. apply factors_axis; [exact Hf|]. intros r Hr. destruct (root_cases w r) as [->|[(p & -> & HP & _)|[H1 _]]]; [apply in_app_iff; now left|now left|right; exact HP|now right].
Qed.
Lemma perceptual_axis w fs y : 0 < fs ->
  analog_value (perceptual_pz w fs) (0, y) (Cdiv (Cmult (standard_numerator w (0, y)) (factors (above_nyquist fs (standard_poles w)) (0, y))) (Cmult (standard_denominator w (0, y)) (factors (above_nyquist fs (standard_zeros w)) (0, y)))).
Proof.
  intros Hf. destruct (perceptual_analog w fs (0, y) Hf (denominator_axis w y)) as (h & V & E). rewrite <- E.
  replace (Cdiv _ _) with h; [exact V|]. pose proof (denominator_axis w y). pose proof (zero_factors w fs y Hf). field. auto.
Qed.
