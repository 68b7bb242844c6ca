From Verif Require Import Common ListLemmas RealUtil BiquadModel DesignModel DesignSpec DesignProofs CascadeModel CascadeSpec CascadeProofs CascadeProofs2 PoleZeroModel PoleZeroSpec PoleZeroProofs PoleZeroProofs2 PoleZeroProofs3.
From Coquelicot Require Import Complex.
Local Open Scope R_scope.

(* ---------- positivity on the positive real axis ---------- *)
Lemma po_pos F l : (forall r, In r l -> exists g, 0 < g /\ F r = RtoC g) -> exists g, 0 < g /\ po F l = RtoC g.
Proof.
  induction l as [|r l IH]; intros H; cbn [product_over]; [exists 1; split; [lra|reflexivity]|].
  destruct (H r) as (g & G & ->); [now left|]. destruct IH as (g' & G' & ->); [intros x Hx; apply H; now right|].
  exists (g * g'). split; [now apply Rmult_lt_0_compat|]. now rewrite RtoC_mult.
Qed.
Lemma roots_pos x lone paired : (forall r, In r (roots lone paired) -> fst r <= 0 /\ r <> RtoC x) -> 0 <= x ->
  exists g, 0 < g /\ po (fun r => Cminus (RtoC x) r) (roots lone paired) = RtoC g.
Proof.
  intros H Hx. rewrite po_roots.
  destruct (po_pos (fun r => Cminus (RtoC x) r) (map RtoC lone)) as (g & G & ->).
  { intros r Hr. apply in_map_iff in Hr. destruct Hr as (y & <- & Hy). destruct (H (RtoC y)) as [A B]; [apply in_roots; eauto|]. cbn in A.
    exists (x - y). split; [|now rewrite RtoC_minus]. destruct (Req_dec x y) as [->|]; [exfalso; now apply B|lra]. }
  destruct (po_pos (fun r => Cmult (Cminus (RtoC x) r) (Cminus (RtoC x) (Cconj r))) paired) as (g' & G' & ->).
  { intros r Hr. destruct (H r) as [A B]; [apply in_roots; auto|]. exists (Cmod (Cminus (RtoC x) r) * Cmod (Cminus (RtoC x) r)). split.
    - assert (0 < Cmod (Cminus (RtoC x) r)) by (apply Cmod_gt_0, Cminus_neq; congruence). nra.
    - rewrite <- Cconj_mul, Cconj_minus, Cconj_RtoC. reflexivity. }
  exists (g * g'). split; [now apply Rmult_lt_0_compat|]. now rewrite RtoC_mult.
Qed.
Lemma positive_value f x : (forall r, In r (zeros f ++ poles f) -> fst r <= 0 /\ r <> RtoC x) -> 0 <= x -> 0 < pz_gain f -> exists g, 0 < g /\ analog_value f (RtoC x) (RtoC g).
Proof.
  intros H Hx HG. destruct (roots_pos x (lone_zeros f) (paired_zeros f)) as (a & A & EA); [intros r Hr; apply H, in_app_iff; now left|exact Hx|].
  destruct (roots_pos x (lone_poles f) (paired_poles f)) as (b & B & EB); [intros r Hr; apply H, in_app_iff; now right|exact Hx|].
  exists (pz_gain f * a / b). split; [apply Rdiv_lt_0_compat; [now apply Rmult_lt_0_compat|exact B]|].
  unfold analog_value, zeros, poles. rewrite EA, EB. split; [apply RtoC_neq; lra|]. rewrite RtoC_div by lra. rewrite RtoC_mult. reflexivity.
Qed.

(* ---------- a discretised filter and its coefficients ---------- *)
Lemma compute_K_0 fs : 0 < fs -> compute_K 0 fs = 2 * fs.
Proof. intros H. unfold compute_K. destruct (Rltb_spec 0 (fs * / 10000000)) as [_|N]; [reflexivity|]. exfalso. apply N. apply Rmult_lt_0_compat; lra. Qed.
Lemma bilinear_inside K r : 0 < K -> fst r < 0 -> Cmod (bilinear_root K r) < 1.
Proof.
  intros HK HR. unfold bilinear_root.
  assert (N : Cminus (RtoC K) r <> RtoC 0) by (apply Cminus_neq; intros E; apply (f_equal fst) in E; cbn in E; lra).
  rewrite Cmod_div by exact N. apply Cmod_gt_0 in N. apply (Rmult_lt_reg_r (Cmod (Cminus (RtoC K) r))); [exact N|].
  replace (Cmod (Cplus (RtoC K) r) / Cmod (Cminus (RtoC K) r) * Cmod (Cminus (RtoC K) r)) with (Cmod (Cplus (RtoC K) r)) by (field; lra). rewrite Rmult_1_l.
  apply Rsqr_incrst_0; [|apply Cmod_ge_0|apply Cmod_ge_0]. unfold Rsqr. rewrite !Cmod2. destruct r as [x y]. cbn [fst snd Cplus Cminus Copp RtoC] in *. nra.
Qed.
Lemma digital_exists f z : (forall p, In p (poles f) -> Cmod p < 1) -> 1 <= Cmod z -> exists h, digital_value f z h.
Proof.
  intros H Hz. eexists. split; [|reflexivity]. apply po_neq. intros p Hp E. specialize (H p Hp).
  assert (z <> RtoC 0) by (intros ->; rewrite Cmod_0 in Hz; lra).
  assert (p = z) by (transitivity (Cmult z (Cminus (RtoC 1) (Cminus (RtoC 1) (Cdiv p z)))); [field; assumption|rewrite E; ring]). subst p. lra.
Qed.
Definition tame_digital (K : R) (m : pole_zero) : Prop :=
  (forall r, In r (zeros m ++ poles m) -> clear (bilinear_root K r)) \/
  ((length (lone_poles m) <= 1)%nat /\ (forall x, In x (lone_zeros m) -> / 100000 < Rabs ((K + x) / (K - x))) /\
   forall r, In r (paired_zeros m ++ paired_poles m) -> / 100000 < Cmod (bilinear_root K r)).
Lemma in_zeros_discretized K f g r : (forall r, In r (zeros f ++ poles f) -> r <> RtoC K) ->
  In r (zeros (discretized K f g)) -> In r (map (bilinear_root K) (zeros f)) \/ r = RtoC (-1).
Proof.
  intros HK Hr. unfold zeros, discretized in Hr. cbn [lone_zeros paired_zeros] in Hr. rewrite <- (app_nil_r (map (bilinear_root K) (paired_zeros f))) in Hr. apply roots_app in Hr. destruct Hr as [Hr|Hr].
  - left. unfold zeros. rewrite <- roots_map with (gl := fun z => (K + z) / (K - z)); [exact Hr| |intros; apply bilinear_conj].
    intros x Hx. apply bilinear_real. intros ->. apply (HK (RtoC x)); [|reflexivity]. apply in_app_iff. left. unfold zeros. apply in_roots. eauto.
  - right. apply in_roots in Hr. destruct Hr as [(x & Hx & ->)|[[]|(p & [] & _)]]. now rewrite (repeat_spec _ _ _ Hx).
Qed.
Lemma discretize m fs : 0 < fs -> (forall p, In p (poles m) -> fst p < 0) -> (forall z, In z (zeros m) -> fst z <= 0) ->
  (0 < length (poles m))%nat -> (length (zeros m) <= length (poles m))%nat -> 0 < pz_gain m -> tame_digital (2 * fs) m ->
  exists cs, obind (bilinear_pz m fs 0) get_coefficients = Ok cs /\ stable_cascade cs /\
    (forall z h, z <> RtoC 0 -> z <> RtoC (-1) -> cascade_value cs z h <-> analog_value m (Cdiv (Cmult (RtoC (2 * fs)) (Cminus z (RtoC 1))) (Cplus z (RtoC 1))) h) /\
    ((length (zeros m) < length (poles m))%nat -> cascade_value cs (RtoC (-1)) (RtoC 0)) /\
    (length (zeros m) = length (poles m) -> cascade_value cs (RtoC (-1)) (RtoC (pz_gain m))).
Proof.
  intros Hfs HP HZ H1 HD HG HT. pose proof (compute_K_0 fs Hfs) as EK. set (K := 2 * fs) in *. assert (HK0 : 0 < K) by (unfold K; lra).
  assert (HR : forall r, In r (zeros m ++ poles m) -> fst r <= 0).
  { intros r Hr. apply in_app_iff in Hr. destruct Hr as [Hr|Hr]; [now apply HZ|left; now apply HP]. }
  assert (HK : forall r, In r (zeros m ++ poles m) -> r <> RtoC K).
  { intros r Hr E. specialize (HR r Hr). subst r. cbn in HR. lra. }
  destruct (positive_value m K) as (g & G & V); [auto|lra|exact HG|].
  pose proof (bilinear_pz_ok m fs 0 (RtoC g)) as B. rewrite EK in B. rewrite (B HK V). cbn [obind]. rewrite Cmod_R, Rabs_pos_eq by lra.
  assert (R : realised (discretized K m g)).
  { apply realised_of.
    - unfold total_roots, discretized. cbn [lone_poles paired_poles]. rewrite !map_length. unfold poles in H1. rewrite roots_length in H1. lia.
    - destruct HT as [HT|(T1 & T2 & T3)].
      + left. intros r Hr. apply in_app_iff in Hr. destruct Hr as [Hr|Hr].
        * apply in_zeros_discretized in Hr; [|exact HK]. destruct Hr as [Hr| ->]; [|right; rewrite Cmod_R, Rabs_left by lra; lra]. apply in_map_iff in Hr. destruct Hr as (x & <- & Hx). apply HT, in_app_iff. now left.
        * rewrite discretized_poles in Hr by exact HK. apply in_map_iff in Hr. destruct Hr as (x & <- & Hx). apply HT, in_app_iff. now right.
      + right. split; [rewrite discretized_zeros_length, discretized_poles, map_length, relative_degree_is by exact HK; lia|].
        split; [unfold discretized; cbn [lone_poles]; now rewrite map_length|]. unfold discretized. cbn [lone_zeros paired_zeros paired_poles]. split; intros r Hr; apply in_app_iff in Hr; destruct Hr as [Hr|Hr].
        * apply in_map_iff in Hr. destruct Hr as (x & <- & Hx). auto.
        * rewrite (repeat_spec _ _ _ Hr), Rabs_left; lra.
        * apply in_map_iff in Hr. destruct Hr as (x & <- & Hx). apply T3, in_app_iff. now left.
        * apply in_map_iff in Hr. destruct Hr as (x & <- & Hx). apply T3, in_app_iff. now right. }
  destruct R as (cs & E & VAL). exists cs. split; [exact E|].
  assert (IN : forall p, In p (poles (discretized K m g)) -> Cmod p < 1).
  { rewrite discretized_poles by exact HK. intros p Hp. apply in_map_iff in Hp. destruct Hp as (x & <- & Hx). apply bilinear_inside; auto. }
  split; [|split; [|split]].
  - intros z Hz. destruct (digital_exists (discretized K m g) z IN Hz) as (h & Hh). exists h. apply VAL; [intros ->; rewrite Cmod_0 in Hz; lra|exact Hh].
  - intros z h Z1 Z2. rewrite (VAL z h Z1). now apply discretized_value.
  - intros HL. apply VAL; [apply RtoC_neq; lra|]. destruct (digital_exists (discretized K m g) (RtoC (-1)) IN) as (h & [Hh _]); [rewrite Cmod_R, Rabs_left; lra|].
    apply discretized_nyquist; auto.
  - intros HL. apply VAL; [apply RtoC_neq; lra|]. apply discretized_nyquist_eq; auto. lra.
Qed.

(* ---------- lowpass ---------- *)
Definition mapped (g : C -> C) (p : pole_zero) : pole_zero :=
  {| lone_zeros := map (fun z => fst (g (RtoC z))) (lone_zeros p); lone_poles := map (fun x => fst (g (RtoC x))) (lone_poles p);
     paired_zeros := map g (paired_zeros p); paired_poles := map g (paired_poles p); pz_gain := pz_gain p |}.
Lemma map_frequency_is g p : map_frequency g p = mapped g p.
Proof. unfold map_frequency. rewrite add_poles, add_pole_pairs, add_zeros, add_zero_pairs. reflexivity. Qed.
Section Mapped.
Variables (g : C -> C) (p : pole_zero).
Hypothesis (G1 : forall x, RtoC (fst (g (RtoC x))) = g (RtoC x)).
Hypothesis (G2 : forall r, g (Cconj r) = Cconj (g r)).
Lemma mapped_zeros : zeros (mapped g p) = map g (zeros p).
Proof. unfold zeros, mapped. cbn [lone_zeros paired_zeros]. apply roots_map; auto. Qed.
Lemma mapped_poles : poles (mapped g p) = map g (poles p).
Proof. unfold poles, mapped. cbn [lone_poles paired_poles]. apply roots_map; auto. Qed.
End Mapped.
Lemma scale_real w x : RtoC (fst (Cmult (RtoC w) (RtoC x))) = Cmult (RtoC w) (RtoC x).
Proof. apply injective_projections; cbn; ring. Qed.
Lemma scale_conj w r : Cmult (RtoC w) (Cconj r) = Cconj (Cmult (RtoC w) r).
Proof. apply injective_projections; cbn; ring. Qed.
Lemma po_scale w s l : RtoC w <> RtoC 0 -> po (fun r => Cminus s r) (map (fun r => Cmult (RtoC w) r) l) = Cmult (cpow (RtoC w) (length l)) (po (fun r => Cminus (Cdiv s (RtoC w)) r) l).
Proof. intros H. rewrite po_map, <- po_const, <- po_mul. apply po_ext. intros r _. field. exact H. Qed.
Lemma set_gain_zeros g f : zeros (set_gain g f) = zeros f.
Proof. reflexivity. Qed.
Lemma set_gain_poles g f : poles (set_gain g f) = poles f.
Proof. reflexivity. Qed.

Lemma mobius_ratio K w r : K <> 0 -> Cminus (RtoC 1) (Cmult (RtoC (w / K)) r) <> RtoC 0 ->
  bilinear_root K (Cmult (RtoC w) r) = Cdiv (Cplus (RtoC 1) (Cmult (RtoC (w / K)) r)) (Cminus (RtoC 1) (Cmult (RtoC (w / K)) r)).
Proof.
  intros HK HN. assert (E : RtoC w = Cmult (RtoC K) (RtoC (w / K))) by (rewrite <- RtoC_mult; f_equal; field; exact HK).
  unfold bilinear_root. rewrite E. set (t := RtoC (w / K)) in *. field. split; [exact HN|]. 
  replace (Cminus (RtoC K) (Cmult (Cmult (RtoC K) t) r)) with (Cmult (RtoC K) (Cminus (RtoC 1) (Cmult t r))) by ring. apply Cmult_neq; [now apply RtoC_neq|exact HN].
Qed.
Lemma left_half t r : 0 < t -> fst r <= 0 -> Cminus (RtoC 1) (Cmult (RtoC t) r) <> RtoC 0.
Proof. intros H H1 E. apply (f_equal fst) in E. cbn in E. nra. Qed.
Lemma clear_ratio a b : b <> RtoC 0 -> a = RtoC 0 \/ / 100000 * Cmod b < Cmod a -> clear (Cdiv a b).
Proof.
  intros HB [->|H]; [left; unfold Cdiv; ring|right]. rewrite Cmod_div by exact HB. apply Cmod_gt_0 in HB. apply (Rmult_lt_reg_r (Cmod b)); [exact HB|].
  replace (Cmod a / Cmod b * Cmod b) with (Cmod a) by (field; lra). exact H.
Qed.
Lemma away_ratio a b : b <> RtoC 0 -> / 100000 * Cmod b < Cmod a -> / 100000 < Cmod (Cdiv a b).
Proof.
  intros HB H. rewrite Cmod_div by exact HB. apply Cmod_gt_0 in HB. apply (Rmult_lt_reg_r (Cmod b)); [exact HB|].
  replace (Cmod a / Cmod b * Cmod b) with (Cmod a) by (field; lra). exact H.
Qed.
Lemma tan_pos fc fs : 0 < fc -> fc < fs / 2 -> 0 < tan (PI * fc / fs).
Proof. intros H1 H2. destruct (half_angle fc fs H1 H2) as (_ & _ & _ & _ & T). exact T. Qed.

Lemma lowpass_ok p fs fc : lowpass_prototype p -> 0 < fc -> fc < fs / 2 -> tame (tan (PI * fc / fs)) p ->
  exists cs, lowpass_filter (Ok p) fs fc = Ok cs /\ stable_cascade cs /\
    (forall z h, z <> RtoC 0 -> z <> RtoC (-1) -> cascade_value cs z h <-> analog_value p (Cdiv (Cminus z (RtoC 1)) (Cmult (RtoC (tan (PI * fc / fs))) (Cplus z (RtoC 1)))) h) /\
    ((length (zeros p) < length (poles p))%nat -> cascade_value cs (RtoC (-1)) (RtoC 0)) /\
    (length (zeros p) = length (poles p) -> cascade_value cs (RtoC (-1)) (RtoC (pz_gain p))).
Proof.
  intros (P1 & P2 & P3 & P4 & P5) H1 H2 HT. assert (Hfs : 0 < fs) by lra. pose proof (tan_pos fc fs H1 H2) as T. set (t := tan (PI * fc / fs)) in *.
  unfold lowpass_filter. rewrite (Rltb_true 0 fs), (Rltb_true fc (fs / 2)) by lra. destruct (Rleb_spec 0 fc) as [_|N]; [|lra]. cbn [ocheck obind].
  assert (EW : bilinear_prewarp fc fs = 2 * fs * t) by reflexivity. set (w := bilinear_prewarp fc fs) in *. assert (W : 0 < w) by (rewrite EW; apply Rmult_lt_0_compat; lra).
  assert (W0 : RtoC w <> RtoC 0) by (apply RtoC_neq; lra). assert (ET : w / (2 * fs) = t) by (rewrite EW; field; lra).
  rewrite map_frequency_is. set (m := set_gain _ _).
  assert (MZ : zeros m = map (fun s => Cmult (RtoC w) s) (zeros p)) by (unfold m; rewrite set_gain_zeros; apply mapped_zeros; [apply scale_real|apply scale_conj]).
  assert (MP : poles m = map (fun s => Cmult (RtoC w) s) (poles p)) by (unfold m; rewrite set_gain_poles; apply mapped_poles; [apply scale_real|apply scale_conj]).
  assert (ML : length (zeros m) = length (zeros p) /\ length (poles m) = length (poles p)) by (rewrite MZ, MP, !map_length; split; reflexivity).
  assert (RD : powerRZ w (relative_degree p) = w ^ (length (poles p) - length (zeros p))) by (rewrite relative_degree_is, <- Nat2Z.inj_sub by exact P4; symmetry; apply pow_powerRZ).
  assert (MG : pz_gain m = pz_gain p * w ^ (length (poles p) - length (zeros p))) by (unfold m; cbn [set_gain pz_gain mapped]; now rewrite RD).
  assert (HRE : forall r, fst (Cmult (RtoC w) r) = w * fst r) by (intros r; cbn; ring).
  destruct (discretize m fs) as (cs & E & ST & V & NY & NE); try assumption.
  - rewrite MP. intros x Hx. apply in_map_iff in Hx. destruct Hx as (r & <- & Hr). rewrite HRE. specialize (P1 r Hr). nra.
  - rewrite MZ. intros x Hx. apply in_map_iff in Hx. destruct Hx as (r & <- & Hr). rewrite HRE. destruct (P2 r Hr). nra.
  - lia.
  - lia.
  - rewrite MG. apply Rmult_lt_0_compat; [exact P5|now apply pow_lt].
  - assert (HREP : forall r, In r (zeros p ++ poles p) -> fst r <= 0) by (intros r Hr; apply in_app_iff in Hr; destruct Hr as [Hr|Hr]; [apply (P2 r Hr)|left; now apply P1]).
    destruct HT as [HT|(T1 & T2 & T3)]; [left|right].
    + rewrite MZ, MP. intros r Hr. rewrite <- map_app in Hr. apply in_map_iff in Hr. destruct Hr as (x & <- & Hx).
      assert (X : Cminus (RtoC 1) (Cmult (RtoC t) x) <> RtoC 0) by (apply left_half; auto).
      rewrite mobius_ratio; rewrite ?ET; [|lra|exact X]. apply clear_ratio; [exact X|]. exact (HT x Hx).
    + unfold m, mapped. cbn [set_gain lone_poles lone_zeros paired_zeros paired_poles]. rewrite T1, map_length. split; [exact T2|]. split; [intros x []|].
      intros r Hr. rewrite <- map_app in Hr. apply in_map_iff in Hr. destruct Hr as (x & <- & Hx).
      assert (X : Cminus (RtoC 1) (Cmult (RtoC t) x) <> RtoC 0).
      { apply left_half; [exact T|]. apply HREP. apply in_app_iff. unfold zeros, poles. rewrite !in_roots. apply in_app_iff in Hx. destruct Hx; auto. }
      rewrite mobius_ratio; rewrite ?ET; [|lra|exact X]. apply away_ratio; [exact X|]. exact (T3 x Hx).
  - exists cs. split; [exact E|]. split; [exact ST|]. split; [|split; [intros HL; apply NY; lia|intros HL; rewrite MG, HL, Nat.sub_diag, pow_O, Rmult_1_r in NE; apply NE; lia]]. intros z h Z1 Z2. rewrite (V z h Z1 Z2).
    pose proof (plus_one_neq z Z2) as Z3. assert (T0 : RtoC t <> RtoC 0) by (apply RtoC_neq; lra).
    assert (ES : Cdiv (Cdiv (Cmult (RtoC (2 * fs)) (Cminus z (RtoC 1))) (Cplus z (RtoC 1))) (RtoC w) = Cdiv (Cminus z (RtoC 1)) (Cmult (RtoC t) (Cplus z (RtoC 1)))).
    { rewrite EW, (RtoC_mult (2 * fs) t). field. repeat split; try assumption. apply RtoC_neq. lra. }
    unfold analog_value. rewrite MZ, MP, !po_scale, ES, MG by exact W0. set (PP := po _ (poles p)). set (ZZ := po _ (zeros p)). rewrite RtoC_mult, <- cpow_RtoC.
    replace (length (poles p)) with (length (zeros p) + (length (poles p) - length (zeros p)))%nat at 1 3 by lia. rewrite cpow_add.
    pose proof (cpow_neq _ (length (zeros p)) W0). pose proof (cpow_neq _ (length (poles p) - length (zeros p)) W0).
    set (a := cpow _ (length (zeros p))) in *. set (b := cpow _ (length (poles p) - length (zeros p))) in *. split; intros [A ->].
    + assert (PP <> RtoC 0) by (intros X; apply A; rewrite X; ring). split; [assumption|]. field. auto.
    + split; [repeat apply Cmult_neq; assumption|]. field. auto.
Qed.
