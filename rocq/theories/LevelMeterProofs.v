From Verif Require Import Common CInt ListLemmas Mealy NthLemmas RealUtil BiquadModel BiquadSpec BiquadProofs DesignModel DesignSpec DesignProofs CascadeModel CascadeSpec CascadeProofs LoudnessSpec LoudnessProofs LoudnessProofs2
  ResamplerModel ResamplerSpec ResamplerProofs ResamplerPropsProofs EnvDetectModel EnvDetectProofs EnvDetectProofs2 LadderModel LadderSpec LadderProofs LadderProofs2 MultiCrossModel MultiCrossSpec MultiCrossProofs MultiCrossProofs4 MultiCrossProofs5 MultiCrossProofs7
  DecibelsModel PerceptualModel BackgroundModel BackgroundSpec BackgroundProofs LevelMeterModel LevelMeterSpec.
From Coq Require Import Lra Lia Reals.
Local Open Scope R_scope.

Lemma obind_ok {A B} (m : outcome A) (f : A -> outcome B) a : m = Ok a -> obind m f = f a.
Proof. intros ->. reflexivity. Qed.
(* ---------- decibels ---------- *)
Lemma frame_db fr : Forall (fun v => 0 <= v) fr -> amplitude_to_db_array (map (fun v => v + 1 / 10 ^ 12) fr) = Ok (map dbfs fr).
Proof.
  unfold amplitude_to_db_array. induction 1 as [|v fr H _ IH]; [reflexivity|]. cbn [map DecibelsModel.map_outcome]. unfold on_positive at 1.
  assert (P : 0 < 1 / 10 ^ 12) by (apply Rdiv_lt_0_compat; [lra|apply pow_lt; lra]). rewrite Rltb_true by lra. cbn [oguard obind]. rewrite IH. cbn [obind]. f_equal. f_equal. unfold dbfs, Rdiv. ring.
Qed.
Lemma frames_db frs : Forall (Forall (fun v => 0 <= v)) frs -> frames_to_db frs = Ok (map (map dbfs) frs).
Proof. induction 1 as [|fr frs H _ IH]; [reflexivity|]. cbn [frames_to_db map]. rewrite (frame_db fr H). cbn [obind]. rewrite IH. reflexivity. Qed.

(* ---------- the slow smoother ---------- *)
Lemma smoother_strict fs f : 0 < f -> f < fs / 4 -> exists p, lowpass fs f (1 / 2) = Ok (twice p) /\ 0 < p < 1.
Proof.
  intros Hf H4. destruct (smoother_shape fs f Hf ltac:(lra)) as (p & E & P1 & P2). specialize (P2 ltac:(lra)). exists p. split; [exact E|]. split; [|lra].
  destruct P2 as [P2|P2]; [exact P2|exfalso]. rewrite <- P2 in E. clear P1 P2 p.
  unfold smoother_design, lowpass in E. rewrite check_arguments_ok in E by lra. cbv zeta in E. unfold bilinear_transform in E.
  rewrite !Rltb_true in E by lra. destruct (Rleb_spec 0 f); [|lra]. cbn [ocheck] in E.
  set (w := 2 * PI * f) in *. assert (Hw : 0 < w) by (apply w_pos, Hf). set (K := compute_K f fs) in *.
  assert (PP := PI_RGT_0). assert (A : 0 < PI * f / fs < PI / 4).
  { split; [apply Rdiv_lt_0_compat; [apply Rmult_lt_0_compat|]; lra|]. apply Rmult_lt_reg_r with fs; [lra|].
    replace (PI * f / fs * fs) with (PI * f) by (field; lra). nra. }
  assert (T : 0 < tan (PI * f / fs)) by (apply tan_gt_0; lra).
  assert (HQ : w < K).
  { unfold K, compute_K. destruct (Rltb_spec f (fs * / 10000000)) as [L|L].
    - unfold w. pose proof PI_4. nra.
    - fold w. assert (T1 : tan (PI * f / fs) < 1) by (rewrite <- tan_PI4; apply tan_increasing; lra).
      apply Rmult_lt_reg_r with (tan (PI * f / fs)); [exact T|]. set (t := tan (PI * f / fs)) in *. clearbody t w.
      replace (w / t * t) with w by (field; lra). nra. }
  clearbody K w. unfold twice, normalize, make_coeffs, bilinear_map in E. cbn in E. injection E. intros E2 E1 _ _ _.
  assert (N : (K + w) * (K + w) <> 0) by nra. apply (f_equal (fun x => x * ((K + w) * (K + w)))) in E2. rewrite Rmult_0_l in E2. 
  field_simplify in E2; [|nra]. nra.
Qed.
Lemma past_app x u : forall pre, past (pre ++ u :: x) (length pre) 0 = u.
Proof. intros pre. unfold past. cbn [Nat.leb]. rewrite Nat.sub_0_r, app_nth2, Nat.sub_diag by lia. reflexivity. Qed.
Lemma past_shift (l : list R) n j : past l (S n) (S j) = past l n j.
Proof. unfold past. cbn [Nat.leb]. replace (S n - S j)%nat with (n - j)%nat by lia. reflexivity. Qed.
Lemma implements_eq c x y : implements (vec_b c) (vec_a c) x y -> rfilters c x y.
Proof.
  intros [L H]. assert (K : forall x' y' px py, length px = length py -> length y' = length x' ->
    (forall n, (n < length (px ++ x'))%nat -> weighted (vec_a c) (py ++ y') n 0 = weighted (vec_b c) (px ++ x') n 0) ->
    difference_equation Rplus Rminus Rmult c (past (px ++ x') (length px) 1) (past (px ++ x') (length px) 2) (past (py ++ y') (length px) 1) (past (py ++ y') (length px) 2) x' y').
  { clear. induction x' as [|u x' IH]; intros [|v y'] px py LP LY H; cbn [length] in LY; try lia; [exact I|]. cbn [difference_equation]. split.
    - specialize (H (length px) ltac:(rewrite app_length; cbn; lia)). unfold weighted, vec_a, vec_b in H. rewrite past_app in H. rewrite LP, past_app in H. rewrite LP. lra.
    - specialize (IH y' (px ++ [u]) (py ++ [v])). rewrite <- !app_assoc in IH. cbn [app] in IH. rewrite !app_length in IH. cbn [length] in IH.
      replace (length px + 1)%nat with (S (length px)) in IH by lia. rewrite !(past_shift _ (length px)) in IH. rewrite past_app in IH. rewrite LP, past_app in IH. rewrite LP. apply IH; [lia|lia|].
      intros n Hn. apply H. rewrite app_length in *. cbn [length] in *. lia. }
  apply (K x y [] [] eq_refl L). cbn [app]. intros n Hn. apply H. exact Hn.
Qed.
Lemma slow_smoother eps sm n fs f c sl frames : 0 < f -> f < fs / 4 -> lowpass fs f (1 / 2) = Ok c -> ladder_init_tf eps sm n (vec_b c) (vec_a c) = Ok sl -> Forall (fun fr => length fr = n) frames ->
  exists sl' slow, run (ladder_sample eps) sl frames = Ok (sl', slow) /\ frames_filtered n [c] frames slow.
Proof.
  intros Hf H4 E HI HF. destruct (smoother_strict fs f Hf H4) as (p & E' & P). rewrite E in E'. injection E' as ->.
  assert (RF : reflective (twice p)).
  { unfold reflective, twice. cbn [a0 a1 a2]. assert (p * p < 1) by nra. assert (0 < p * p) by nra. split; [lra|]. split.
    - replace (p * p / 1) with (p * p) by field. rewrite Rabs_pos_eq; lra.
    - replace (- (2 * p) / (1 + p * p)) with (- (2 * p / (1 + p * p))) by (field; lra). rewrite Rabs_Ropp, Rabs_pos_eq by (apply Rmult_le_pos; [lra|left; apply Rinv_0_lt_compat; lra]).
      split; [apply Rdiv_lt_0_compat; lra|]. apply Rmult_lt_reg_r with (1 + p * p); [lra|]. replace (2 * p / (1 + p * p) * (1 + p * p)) with (2 * p) by (field; lra). nra. }
  destruct (reflective_ladder (twice p) RF) as (k & v & M & K).
  destruct (ladder_realises eps sm n _ _ k v sl frames HI M K HF) as (sl' & slow & R & W & I). exists sl', slow. split; [exact R|]. split; [|split; [exact W|]].
  - clear - R. revert sl sl' slow R. induction frames as [|a x IH]; intros f u f2 E; cbn [run] in E; [injection E as _ <-; reflexivity|]. apply obind_inv in E as (q & _ & E). apply obind_inv in E as ([q1 q2] & E & E'). injection E' as _ <-. cbn [length snd]. f_equal. eapply IH. exact E.
  - intros i Hi. specialize (I i Hi). apply implements_eq in I. cbn [cascade_filters]. exists (BiquadSpec.channel 0 i slow). split; [exact I|reflexivity].
Qed.
Lemma filtered_range n p B x y : 0 <= p < 1 -> 0 <= B -> Forall (Forall (fun u => 0 <= u <= B)) x -> Forall (fun fr => length fr = n) x -> frames_filtered n [twice p] x y -> Forall (Forall (fun u => 0 <= u <= B)) y.
Proof.
  intros HP HB HX HW (L & W & F). apply Forall_forall. intros fr Hfr. apply Forall_forall. intros u Hu. destruct (In_nth _ _ 0 Hu) as (i & Hi & <-).
  rewrite Forall_forall in W. rewrite (W fr Hfr) in Hi. specialize (F i Hi). cbn [cascade_filters] in F. destruct F as (z & F & E). try rewrite <- E in F. try rewrite E in F.
  assert (R : Forall (fun u => 0 <= u <= B) (BiquadSpec.channel 0 i y)).
  { apply (twice_range p B (BiquadSpec.channel 0 i x)); [exact HP|exact HB| |exact F]. apply Forall_forall. intros v Hv. apply in_map_iff in Hv as (g & <- & Hg). rewrite Forall_forall in HX, HW. specialize (HX g Hg). rewrite Forall_forall in HX. apply HX, nth_In. rewrite (HW g Hg). exact Hi. }
  rewrite Forall_forall in R. apply R. unfold BiquadSpec.channel. apply in_map_iff. exists fr. auto.
Qed.
Lemma frames_bound (x : list (list R)) : Forall (Forall (fun u => 0 <= u)) x -> exists B, 0 <= B /\ Forall (Forall (fun u => 0 <= u <= B)) x.
Proof.
  assert (M : forall (l : list R), Forall (fun u => 0 <= u) l -> exists B, 0 <= B /\ Forall (fun u => 0 <= u <= B) l).
  { induction 1 as [|u l H _ (B & HB & IH)]; [exists 0; split; [lra|constructor]|]. exists (Rmax u B). pose proof (Rmax_l u B). pose proof (Rmax_r u B). split; [lra|]. constructor; [lra|]. revert IH. apply Forall_impl. intros a Ha. lra. }
  induction 1 as [|fr x H _ (B & HB & IH)]; [exists 0; split; [lra|constructor]|]. destruct (M fr H) as (B1 & HB1 & H1). exists (Rmax B1 B). pose proof (Rmax_l B1 B). pose proof (Rmax_r B1 B). split; [lra|]. constructor.
  - revert H1. apply Forall_impl. intros a Ha. lra.
  - revert IH. apply Forall_impl. intros l. apply Forall_impl. intros a Ha. lra.
Qed.
