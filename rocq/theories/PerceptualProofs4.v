(* Perceptual weighting filters: sufficient sample rates, the reference gain, sample rates that are too low. *)
From Verif Require Import Common ListLemmas RealUtil BiquadModel DesignModel DesignSpec DesignProofs CascadeModel CascadeSpec CascadeProofs CascadeProofs2 PoleZeroModel PoleZeroSpec PoleZeroProofs PoleZeroProofs2 PoleZeroProofs3 PoleZeroProofs4
  PoleZeroProofs6 PoleZeroProofs7 PoleZeroProofs22 PerceptualModel PerceptualSpec PerceptualProofs PerceptualProofs2 PerceptualProofs3.
From Coquelicot Require Import Complex.
From Coq Require Import Psatz.
Local Open Scope R_scope.

Lemma above_nil fs l : (forall r, In r l -> Cmod r < PI * fs) -> above_nyquist fs l = nil.
Proof.
  intros H. unfold above_nyquist. induction l as [|r l IH]; [reflexivity|]. cbn [filter]. rewrite IH by (intros; apply H; now right).
  destruct (Rle_dec (PI * fs) (Cmod r)) as [L|L]; [|reflexivity]. specialize (H r (or_introl eq_refl)). lra.
Qed.
Lemma below_all fs l : (forall r, In r l -> Cmod r < PI * fs) -> below_nyquist fs l = l.
Proof.
  intros H. unfold below_nyquist. induction l as [|r l IH]; [reflexivity|]. cbn [filter]. rewrite IH by (intros; apply H; now right).
  destruct (Rle_dec (PI * fs) (Cmod r)) as [L|L]; [|reflexivity]. specialize (H r (or_introl eq_refl)). lra.
Qed.
Lemma above_app fs l l' : above_nyquist fs (l ++ l') = above_nyquist fs l ++ above_nyquist fs l'.
Proof. apply filter_app. Qed.
Lemma below_length fs l : (length (below_nyquist fs l) <= length l)%nat.
Proof. unfold below_nyquist. induction l as [|r l IH]; cbn [filter length]; [lia|]. destruct (Rle_dec _ _); cbn [length]; lia. Qed.
Lemma below_prefix fs l l' : (forall r, In r l -> Cmod r < PI * fs) -> (length l <= length (below_nyquist fs (l ++ l')))%nat.
Proof. intros H. unfold below_nyquist. rewrite filter_app, app_length. change (filter _ l) with (below_nyquist fs l). rewrite below_all by exact H. lia. Qed.
Lemma cmod_real x b : - x < b -> x < 0 -> Cmod (RtoC x) < b.
Proof. intros. rewrite Cmod_R, Rabs_left; lra. Qed.
Lemma cmod_zero b : 0 < b -> Cmod (RtoC 0) < b.
Proof. intros. rewrite Cmod_R, Rabs_R0. lra. Qed.
Lemma cmod_pair x y c b : 0 < c -> x * x + y * y < c * c -> c < b -> Cmod (x, y) < b.
Proof.
  intros H1 H2 H3. apply Rlt_trans with (2 := H3). apply Rsqr_incrst_0; [|apply Cmod_ge_0|lra]. unfold Rsqr. rewrite Cmod2. cbn [fst snd]. exact H2.
Qed.
Ltac small_root c :=
  match goal with
  | |- Cmod (RtoC 0) < _ => apply cmod_zero; lra
  | |- Cmod (RtoC _) < _ => apply cmod_real; lra
  | |- _ => apply (cmod_pair _ _ c); lra
  end.
Ltac small_roots c := let H := fresh in cbn [In]; intros ? H; repeat match type of H with _ \/ _ => destruct H as [H|H] | False => destruct H end; subst; small_root c.
Definition low_poles (w : weighting) : list C :=
  match w with
  | A_weighting => RtoC (-129.4) :: RtoC (-129.4) :: RtoC (-676.4) :: RtoC (-4636) :: nil
  | B_weighting => RtoC (-129.4) :: RtoC (-129.4) :: RtoC (-996.9) :: nil
  | C_weighting => RtoC (-129.4) :: RtoC (-129.4) :: nil
  | _ => standard_poles w
  end.
Definition high_poles (w : weighting) : list C :=
  match w with A_weighting | B_weighting | C_weighting => RtoC (-76655) :: RtoC (-76655) :: nil | _ => nil end.
Lemma split_poles w : standard_poles w = low_poles w ++ high_poles w.
Proof. destruct w; reflexivity. Qed.
Lemma sufficient_low w fs : sufficient_rate w fs -> forall r, In r (low_poles w) -> Cmod r < PI * fs.
Proof.
  unfold sufficient_rate. destruct w; cbn [low_poles standard_poles]; intros HS; [small_roots 1|small_roots 1|small_roots 1|small_roots 19708|small_roots 1|small_roots 10612].
Qed.
Lemma sufficient_zeros w fs : sufficient_rate w fs -> forall r, In r (standard_zeros w) -> Cmod r < PI * fs.
Proof.
  unfold sufficient_rate. destruct w; cbn [standard_zeros]; intros HS; [small_roots 1|small_roots 1|small_roots 1|small_roots 19000|small_roots 1|small_roots 10000].
Qed.
Lemma sufficient_excess w fs : sufficient_rate w fs -> excess_zeros w fs = O.
Proof.
  intros HS. unfold excess_zeros. pose proof (below_length fs (standard_zeros w)) as A. pose proof (below_prefix fs (low_poles w) (high_poles w) (sufficient_low w fs HS)) as B. rewrite <- split_poles in B.
  assert (C : (length (standard_zeros w) <= length (low_poles w))%nat) by (destruct w; cbn; lia). lia.
Qed.
Lemma sufficient_above w fs : sufficient_rate w fs -> above_nyquist fs (standard_zeros w) = nil /\ above_nyquist fs (standard_poles w) = above_nyquist fs (high_poles w).
Proof.
  intros HS. split; [apply above_nil, sufficient_zeros, HS|]. rewrite split_poles, above_app, above_nil by (apply sufficient_low, HS). reflexivity.
Qed.
Lemma perceptual_sufficient w fs : 0 < fs -> clear_rate w fs -> sufficient_rate w fs ->
  exists cs, perceptual_coefficients w fs = Ok cs /\ stable_cascade cs /\
    forall x, - (fs / 2) < x < fs / 2 ->
      let s := (0, 2 * fs * tan (PI * x / fs)) in
      cascade_value cs (on_circle x fs) (Cdiv (Cmult (standard_numerator w s) (factors (above_nyquist fs (standard_poles w)) s)) (standard_denominator w s)).
Proof.
  intros Hf HC HS. destruct (perceptual_digital w fs Hf HC) as (cs & E & _ & SC & V). exists cs. split; [exact E|]. split; [exact SC|]. intros x Hx s. specialize (V x Hx). cbv zeta in V. fold s in V.
  rewrite (sufficient_excess w fs HS) in V. rewrite (proj1 (sufficient_above w fs HS)) in V. cbn [power factors] in V.
  replace (Cdiv (Cmult (standard_numerator w s) (factors (above_nyquist fs (standard_poles w)) s)) (standard_denominator w s)) with
    (Cmult (Cdiv (Cmult (standard_numerator w s) (factors (above_nyquist fs (standard_poles w)) s)) (Cmult (standard_denominator w s) (RtoC 1))) (RtoC 1)); [exact V|].
  pose proof (denominator_axis w (2 * fs * tan (PI * x / fs))) as N. fold s in N. field. exact N.
Qed.
Lemma common_sufficient w fs : 8000 <= fs -> sufficient_rate w fs.
Proof. intros H. destruct pi_range as [P _]. unfold sufficient_rate. assert (25120 <= PI * fs) by nra. destruct w; lra. Qed.
Lemma common_clear w fs : 8000 <= fs -> fs = 38327.5 \/ 0.8 <= Rabs (fs - 38327.5) -> clear_rate w fs.
Proof.
  intros H HX p HP. 
  assert (K : p = -76655 \/ -7289 <= p < 0).
  { destruct w; cbn [standard_poles In] in HP; repeat match type of HP with _ \/ _ => destruct HP as [HP|HP] | False => destruct HP end; apply (f_equal fst) in HP as HQ; apply (f_equal snd) in HP; cbn [fst snd RtoC] in HP, HQ; subst; lra. }
  destruct K as [->|K].
  - destruct HX as [->|HX]; [left; lra|right]. replace (2 * fs + -76655) with (2 * (fs - 38327.5)) by lra. rewrite Rabs_mult, (Rabs_pos_eq 2) by lra. destruct (Rle_dec fs 38327.5) as [L|L]; [rewrite Rabs_left1 in * by lra; lra|rewrite Rabs_pos_eq in * by lra; lra].
  - right. rewrite Rabs_pos_eq by lra. lra.
Qed.
Lemma high_factors w fs y : exists n, (n = 0 \/ n = 2)%nat /\ sq (factors (above_nyquist fs (high_poles w)) (0, y)) = (1 + y * y / (76655 * 76655)) ^ n /\ (w = D_weighting \/ w = RLB_weighting \/ w = K_weighting -> n = O).
Proof.
  assert (N : forall P, (0 = 0 \/ 0 = 2)%nat /\ sq (factors (above_nyquist fs nil) (0, y)) = (1 + y * y / (76655 * 76655)) ^ 0 /\ (P -> 0%nat = 0%nat)) by (intros P; cbn; rewrite sq_R; repeat split; auto; lra).
  assert (F : forall P : Prop, ~ P -> exists n, (n = 0 \/ n = 2)%nat /\ sq (factors (above_nyquist fs (RtoC (-76655) :: RtoC (-76655) :: nil)) (0, y)) = (1 + y * y / (76655 * 76655)) ^ n /\ (P -> n = O)).
  { intros P NP. unfold above_nyquist. cbn [filter]. destruct (Rle_dec (PI * fs) (Cmod (RtoC (-76655)))).
    - exists 2%nat. repeat split; auto; [|contradiction]. cbn [factors pow]. rewrite !sq_mult, !sq_factor, sq_R by lra. field.
    - exists 0%nat. repeat split; auto. cbn [factors pow]. rewrite sq_R. lra. }
  destruct w; cbn [high_poles]; try (apply F; intros [X|[X|X]]; discriminate); exists O; apply N.
Qed.
Lemma reference_sq w fs y : sufficient_rate w fs -> exists n, (n = 0 \/ n = 2)%nat /\ (w = D_weighting \/ w = RLB_weighting \/ w = K_weighting -> n = O) /\
  sq (Cdiv (Cmult (standard_numerator w (0, y)) (factors (above_nyquist fs (standard_poles w)) (0, y))) (standard_denominator w (0, y))) = flat w n y.
Proof.
  intros HS. rewrite (proj2 (sufficient_above w fs HS)). destruct (high_factors w fs y) as (n & Hn & E & HD). exists n. split; [exact Hn|]. split; [exact HD|]. rewrite sq_div by apply denominator_axis. rewrite sq_mult, E. reflexivity.
Qed.
Lemma reference_gain w fs cs : 8000 <= fs -> clear_rate w fs -> perceptual_coefficients w fs = Ok cs ->
  (w <> K_weighting -> exists h, cascade_value cs (on_circle 1000 fs) h /\ 0.95 <= Cmod h <= 1.05) /\
  (w = K_weighting -> exists h, cascade_value cs (on_circle 500 fs) h /\ 0.99 <= Cmod h <= 1.01).
Proof.
  intros Hf HC E. pose proof (common_sufficient w fs Hf) as HS. destruct (perceptual_sufficient w fs ltac:(lra) HC HS) as (cs' & E' & _ & V). rewrite E in E'. injection E' as <-. split; intros HW.
  - specialize (V 1000 ltac:(lra)). cbv zeta in V. destruct (reference_sq w fs (2 * fs * tan (PI * 1000 / fs)) HS) as (n & Hn & HD & Q). eexists. split; [exact V|]. apply sq_range; [lra|lra|]. rewrite Q.
    pose proof (warp_1000 fs Hf) as R. unfold warped in R.
    destruct w; [now apply A_range|now apply B_range|now apply C_range|rewrite HD by auto; now apply D_range|rewrite HD by auto; now apply RLB_range|contradiction].
  - specialize (V 500 ltac:(lra)). cbv zeta in V. destruct (reference_sq w fs (2 * fs * tan (PI * 500 / fs)) HS) as (n & Hn & HD & Q). eexists. split; [exact V|]. apply sq_range; [lra|lra|]. rewrite Q.
    pose proof (warp_500 fs Hf) as R. unfold warped in R. subst w. rewrite HD by auto. now apply K_range.
Qed.
(* ---------- sample rates that are too low ---------- *)
Lemma above_all fs l : (forall r, In r l -> PI * fs <= Cmod r) -> above_nyquist fs l = l /\ below_nyquist fs l = nil.
Proof.
  intros H. unfold above_nyquist, below_nyquist. induction l as [|r l IH]; [now split|]. cbn [filter]. destruct IH as [E1 E2]; [intros; apply H; now right|].
  destruct (Rle_dec (PI * fs) (Cmod r)) as [L|L]; [now rewrite E1, E2|]. specialize (H r (or_introl eq_refl)). lra.
Qed.
Lemma cmod_big x y c b : 0 <= c -> c * c <= x * x + y * y -> b <= c -> b <= Cmod (x, y).
Proof.
  intros H1 H2 H3. apply Rle_trans with (1 := H3). apply Rsqr_incr_0; [|lra|apply Cmod_ge_0]. unfold Rsqr. rewrite Cmod2. cbn [fst snd]. exact H2.
Qed.
Lemma below_app fs l l' : below_nyquist fs (l ++ l') = below_nyquist fs l ++ below_nyquist fs l'.
Proof. apply filter_app. Qed.
Lemma D_excess fs : 7289 < PI * fs <= 19706 -> excess_zeros D_weighting fs = 1%nat.
Proof.
  intros H. unfold excess_zeros. cbn [standard_zeros standard_poles]. rewrite below_all by small_roots 7000.
  match goal with |- context [below_nyquist fs ?l] => change l with ((RtoC (-1776.3) :: RtoC (-7288.5) :: nil) ++ ((-10757, 16512.02) :: (-10757, -16512.02) :: nil)) end.
  rewrite below_app, below_all by small_roots 1. rewrite (proj2 (above_all fs ((-10757, 16512.02) :: (-10757, -16512.02) :: nil) ltac:(cbn [In]; intros r [<-|[<-|[]]]; apply (cmod_big _ _ 19706); lra))). reflexivity.
Qed.
Lemma K_excess fs : 8429 < PI * fs <= 10610 -> excess_zeros K_weighting fs = 2%nat.
Proof.
  intros H. unfold excess_zeros. cbn [standard_zeros standard_poles]. rewrite below_all by small_roots 8429.
  match goal with |- context [below_nyquist fs ?l] => change l with ((RtoC (-240) :: RtoC (-240) :: nil) ++ ((-7471.63, 7534.19) :: (-7471.63, -7534.19) :: nil)) end.
  rewrite below_app, below_all by small_roots 1. rewrite (proj2 (above_all fs ((-7471.63, 7534.19) :: (-7471.63, -7534.19) :: nil) ltac:(cbn [In]; intros r [<-|[<-|[]]]; apply (cmod_big _ _ 10610); lra))). reflexivity.
Qed.
Lemma plus_inverse_mod x fs : fs <> 0 -> - (fs / 2) < x < fs / 2 -> Cmod (Cplus (RtoC 1) (Cinv (on_circle x fs))) = 2 * cos (PI * x / fs).
Proof.
  intros Hf Hx. destruct (half_range x fs Hx) as [F [A1 A2]]. assert (CP : 0 < cos (PI * x / fs)) by (now apply cos_gt_0).
  pose proof (circle_plus x fs ltac:(lra)) as P. pose proof (circle_neq_0 x fs) as N.
  replace (Cplus (RtoC 1) (Cinv (on_circle x fs))) with (Cdiv (Cplus (on_circle x fs) (RtoC 1)) (on_circle x fs)) by (field; exact N). rewrite Cmod_div by exact N.
  replace (Cmod (on_circle x fs)) with 1.
  2: { symmetry. apply Rsqr_inj; [apply Cmod_ge_0|lra|]. unfold Rsqr. rewrite Cmod2. unfold on_circle. cbn [fst snd]. pose proof (sin2_cos2 (2 * PI * x / fs)) as Q. unfold Rsqr in Q. lra. }
  rewrite P, Cmod_mult, Cmod_cis, Cmod_R, Rabs_pos_eq by lra. field.
Qed.
Lemma low_rate w fs n cs x : 0 < fs -> clear_rate w fs -> excess_zeros w fs = n -> perceptual_coefficients w fs = Ok cs -> 0 < x -> PI * x / fs <= 1 / 4 ->
  let s := (0, 2 * fs * tan (PI * x / fs)) in
  exists h h', cascade_value cs (on_circle x fs) h /\ analog_value (perceptual_pz w fs) s h' /\ Cmod h = Cmod h' * (2 * cos (PI * x / fs)) ^ n /\ Cmod h' * 1.9 ^ n <= Cmod h.
Proof.
  intros Hf HC HN E Hx HX s. destruct (perceptual_digital w fs Hf HC) as (cs' & E' & _ & _ & V). assert (cs' = cs) by congruence. subst cs'.
  assert (HR : - (fs / 2) < x < fs / 2).
  { destruct pi_range as [P _]. assert (PI * x <= fs / 4); [|split; nra]. apply (Rmult_le_reg_r (/ fs)); [now apply Rinv_0_lt_compat|]. replace (fs / 4 * / fs) with (1 / 4) by (field; lra). exact HX. }
  specialize (V x HR). cbv zeta in V. fold s in V. rewrite HN in V.
  eexists. eexists. split; [exact V|]. split; [unfold s; now apply perceptual_axis|]. fold s.
  assert (M : forall z k, Cmod (power z k) = Cmod z ^ k) by (intros z; induction k as [|k IH]; cbn [power pow]; [apply Cmod_1|rewrite Cmod_mult, IH; reflexivity]).
  rewrite Cmod_mult, M, plus_inverse_mod by (lra || exact HR). split; [reflexivity|]. apply Rmult_le_compat_l; [apply Cmod_ge_0|]. apply pow_incr. split; [lra|].
  assert (X0 : 0 < PI * x / fs) by (apply Rdiv_lt_0_compat; [|exact Hf]; pose proof PI_RGT_0; nra). pose proof (cos_lower' (PI * x / fs) ltac:(lra)). nra.
Qed.
Lemma low_clear fs w : (w = D_weighting /\ 6000 = fs) \/ (w = K_weighting /\ 3000 = fs) -> clear_rate w fs.
Proof.
  intros H p HP.
  assert (K : -7289 <= p < 0 /\ (w = K_weighting -> -240 <= p)).
  { destruct H as [[-> <-]|[-> <-]]; cbn [standard_poles In] in HP; repeat match type of HP with _ \/ _ => destruct HP as [HP|HP] | False => destruct HP end; apply (f_equal fst) in HP as HQ; apply (f_equal snd) in HP; cbn [fst snd RtoC] in HP, HQ; subst; split; try intros Q; try discriminate; lra. }
  right. rewrite Rabs_pos_eq; destruct H as [[-> <-]|[-> <-]]; try lra; destruct K as [K1 K2]; try specialize (K2 eq_refl); lra.
Qed.
