From Verif Require Import Common CInt ListLemmas Mealy RealUtil NthLemmas BiquadModel BiquadSpec BiquadProofs DesignModel DesignSpec DesignProofs CascadeSpec SteadySpec SteadyProofs
  LoudnessSpec LoudnessProofs LoudnessProofs2 ResamplerModel ResamplerSpec ResamplerProofs ResamplerPropsProofs EnvDetectModel EnvDetectProofs.
From Coq Require Import Lra Lia Reals.
From Coquelicot Require Import Coquelicot.
Local Open Scope R_scope.
Notation rps := (pure_sample Rplus Rminus Rmult).
Notation rfilters := (BiquadSpec.filters 0 Rplus Rminus Rmult).
Notation rcfilters := (cascade_filters 0 Rplus Rminus Rmult).
Notation dinit := (detector_init 0 1 Rmult Rdiv (fun v => Reqb v 0) Rleb Rltb Reqb (fun x => x / 2) smoother_design).
Notation dblock n := (detector_block Rplus Rminus Rmult rms_root (frame_dot n) (frame_plus n)).
Notation square := (map (fun x : R => x * x)).

(* the smoothing filter is the same one-pole filter twice *)
Definition twice (p : R) : coeffs R :=
  let g := (1 - p) / 2 in {| b0 := g * g; b1 := 2 * (g * g); b2 := g * g; a0 := 1; a1 := - (2 * p); a2 := p * p |}.
Definition once (p : R) : coeffs R :=
  let g := (1 - p) / 2 in {| b0 := g; b1 := g; b2 := 0; a0 := 1; a1 := - p; a2 := 0 |}.
Lemma smoother_shape fs f : 0 < f -> f < fs / 2 -> exists p, smoother_design fs f = Ok (twice p) /\ -1 < p < 1 /\ (f <= fs / 4 -> 0 <= p).
Proof.
  intros Hf Hfs. unfold smoother_design, lowpass. rewrite check_arguments_ok by lra. cbv zeta. unfold bilinear_transform.
  rewrite !Rltb_true by lra. destruct (Rleb_spec 0 f); [|lra]. cbn [ocheck].
  set (w := 2 * PI * f). assert (Hw : 0 < w) by (apply w_pos, Hf). set (K := compute_K f fs).
  assert (PP := PI_RGT_0). assert (A : 0 < PI * f / fs < PI / 2).
  { split; [apply Rdiv_lt_0_compat; [apply Rmult_lt_0_compat|]; lra|]. apply Rmult_lt_reg_r with fs; [lra|].
    replace (PI * f / fs * fs) with (PI * f) by (field; lra). nra. }
  assert (T : 0 < tan (PI * f / fs)) by (apply tan_gt_0; lra).
  assert (HK : 0 < K). { unfold K, compute_K. destruct (Rltb_spec f (fs * / 10000000)); [lra|]. apply Rdiv_lt_0_compat; [exact Hw|exact T]. }
  assert (HQ : f <= fs / 4 -> w <= K).
  { intros H4. unfold K, compute_K. destruct (Rltb_spec f (fs * / 10000000)) as [L|L].
    - unfold w. pose proof PI_4. nra.
    - fold w. assert (T1 : tan (PI * f / fs) <= 1).
      { rewrite <- tan_PI4. destruct (Req_dec f (fs / 4)) as [->|N]; [right; f_equal; field; lra|]. left. apply tan_increasing; try lra.
        apply Rmult_lt_reg_r with fs; [lra|]. replace (PI * f / fs * fs) with (PI * f) by (field; lra). nra. }
      apply Rmult_le_reg_r with (tan (PI * f / fs)); [exact T|]. set (t := tan (PI * f / fs)) in *. clearbody t w.
      replace (w / t * t) with w by (field; lra). nra. }
  clearbody K w. exists ((K - w) / (K + w)). split; [|split].
  - unfold twice, normalize, make_coeffs, bilinear_map. cbn. f_equal. f_equal; field; repeat split; nra.
  - split; (apply Rmult_lt_reg_r with (K + w); [lra|]); replace ((K - w) / (K + w) * (K + w)) with (K - w) by (field; lra); lra.
  - intros H. apply Rmult_le_pos; [specialize (HQ H); lra|]. left. apply Rinv_0_lt_compat. lra.
Qed.
Lemma twice_compose p x : forall x1 x2 w1 w2 y1 y2 w y,
  w1 = p * w2 + (1 - p) / 2 * (x1 + x2) -> y1 = p * y2 + (1 - p) / 2 * (w1 + w2) ->
  difference_equation Rplus Rminus Rmult (once p) x1 x2 w1 w2 x w ->
  difference_equation Rplus Rminus Rmult (once p) w1 w2 y1 y2 w y ->
  difference_equation Rplus Rminus Rmult (twice p) x1 x2 y1 y2 x y.
Proof.
  induction x as [|u x IH]; intros x1 x2 w1 w2 y1 y2 [|a w] [|b y] E1 E2 H1 H2; cbn [difference_equation] in *; try contradiction; auto.
  unfold once, twice in *. cbn [b0 b1 b2 a0 a1 a2] in *. destruct H1 as [H1 K1], H2 as [H2 K2]. split.
  - clear IH K1 K2. set (g := (1 - p) / 2) in *. clearbody g.
    assert (H : a = p * w1 + g * (u + x1)) by lra. assert (H' : b = p * y1 + g * (a + w1)) by lra.
    assert (Q1 : p * p * y2 = p * (y1 - g * (w1 + w2))) by (rewrite E2; ring).
    assert (Q2 : g * (p * w2) = g * (w1 - g * (x1 + x2))) by (rewrite E1; ring).
    transitivity (p * y1 + g * a + g * w1); [rewrite H'; ring|].
    transitivity (p * y1 + g * (p * w1 + g * (u + x1)) + g * w1); [now rewrite H|].
    transitivity (g * g * u + 2 * (g * g) * x1 + g * g * x2 + 2 * p * y1 - p * p * y2); [|ring]. rewrite Q1.
    transitivity (g * g * u + 2 * (g * g) * x1 + g * g * x2 + p * y1 + p * g * w1 + g * (p * w2)); [|ring]. rewrite Q2. ring.
  - apply (IH _ _ a w1 _ _ w y); auto; lra.
Qed.

Fixpoint one_pole (p x1 w1 : R) (x : list R) : list R :=
  match x with [] => [] | u :: x' => let a := p * w1 + (1 - p) / 2 * (u + x1) in a :: one_pole p u a x' end.
Lemma one_pole_ok p x : forall x1 x2 w1 w2, difference_equation Rplus Rminus Rmult (once p) x1 x2 w1 w2 x (one_pole p x1 w1 x).
Proof. induction x as [|u x IH]; intros; cbn [one_pole difference_equation]; [exact I|]. split; [cbn [once b0 b1 b2 a0 a1 a2]; ring|apply IH]. Qed.
Lemma one_pole_range p B x : 0 <= p < 1 -> List.Forall (fun u => 0 <= u <= B) x -> forall x1 w1, 0 <= x1 <= B -> 0 <= w1 <= B ->
  List.Forall (fun u => 0 <= u <= B) (one_pole p x1 w1 x).
Proof.
  intros Hp H. induction H as [|u x Hu H IH]; intros x1 w1 Hx Hw; cbn [one_pole]; constructor.
  - split; nra.
  - apply IH; [exact Hu|]. split; nra.
Qed.
Lemma twice_range p B x y : 0 <= p < 1 -> 0 <= B -> List.Forall (fun u => 0 <= u <= B) x -> rfilters (twice p) x y -> List.Forall (fun u => 0 <= u <= B) y.
Proof.
  intros Hp HB HX H. assert (E : y = one_pole p 0 0 (one_pole p 0 0 x)).
  { refine (difference_unique 0 1 Rplus Rmult Rminus Ropp Rdiv Rinv Rfield (twice p) _ x 0 0 0 0 _ _ H _); [cbn; lra|].
    apply (twice_compose p x 0 0 0 0 0 0 (one_pole p 0 0 x)); try lra; apply one_pole_ok. }
  rewrite E. apply one_pole_range; try lra. apply one_pole_range; try lra. exact HX.
Qed.
Lemma frame_law n f1 f2 (s u : list (list R)) : length f1 = length s -> length f2 = length u ->
  frame_plus n (frame_dot n f1 s) (frame_dot n f2 u) = frame_dot n (f1 ++ f2) (s ++ u).
Proof.
  intros H1 H2. unfold frame_plus, frame_dot. apply map_ext_in. intros i Hi. apply in_seq in Hi.
  assert (K : forall g : nat -> R, nth i (map g (seq 0 n)) 0 = g i).
  { intros g. rewrite (nth_map_lt g _ i 0%nat) by (rewrite seq_length; lia). rewrite seq_nth by lia. reflexivity. }
  rewrite !K. clear K Hi. revert s H1. induction f1 as [|a f1 IH]; intros [|v s] H1; cbn in H1; try lia; cbn [combine app map fold_right].
  - ring.
  - rewrite <- (IH s) by lia. cbn [fst snd]. ring.
Qed.

(* the two filters, over the real numbers *)
Lemma squared_channel n i y : (i < n)%nat -> List.Forall (fun fr => length fr = n) y -> channel 0 i (map square y) = map (fun v => v * v) (channel 0 i y).
Proof.
  intros Hi H. unfold channel. rewrite !map_map. apply map_ext_in. intros fr Hfr. rewrite Forall_forall in H. specialize (H fr Hfr).
  exact (nth_map_lt (fun x => x * x) fr i 0 0 ltac:(lia)).
Qed.
Lemma detector_filtered n (d : detector R) cs c frames :
  Forall2 (fun c f => biquad_init 0 1 Rmult Rdiv (fun v => Reqb v 0) n c = Ok f) cs (prefilter d) ->
  biquad_init 0 1 Rmult Rdiv (fun v => Reqb v 0) n c = Ok (smoother d) -> List.Forall (fun fr => length fr = n) frames ->
  exists y, frames_filtered n cs frames y /\ frames_filtered n (c :: nil) (map square y) (snd (scan (cstep Rplus Rminus Rmult) (filters_of d) frames)).
Proof.
  intros H2 HI HF. exists (snd (chain_scan rps (prefilter d) frames)). pose proof (chain_filtered n cs _ H2 frames HF) as A. split; [exact A|].
  rewrite cscan. cbn [snd fst filters_of]. destruct A as (_ & W & _).
  pose proof (chain_filtered n (c :: nil) (smoother d :: nil) ltac:(repeat constructor; exact HI) (map square (snd (chain_scan rps (prefilter d) frames))) (sq_widths Rmult n _ W)) as B.
  cbn [chain_scan snd] in B. exact B.
Qed.

(* ---- long-term behaviour ---- *)
Lemma sqrt_holder a b : 0 <= a -> 0 <= b -> Rabs (sqrt a - sqrt b) <= sqrt (Rabs (a - b)).
Proof.
  assert (K : forall a b, 0 <= a -> 0 <= b -> sqrt a <= sqrt b + sqrt (Rabs (a - b))).
  { intros u v Hu Hv. apply Rsqr_incr_0_var; [|pose proof (sqrt_pos v); pose proof (sqrt_pos (Rabs (u - v))); lra]. unfold Rsqr.
    assert (P := sqrt_pos v). assert (Q := sqrt_pos (Rabs (u - v))). assert (E1 := sqrt_sqrt u Hu). assert (E2 := sqrt_sqrt v Hv). assert (E3 := sqrt_sqrt _ (Rabs_pos (u - v))).
    assert (u - v <= Rabs (u - v)) by apply Rle_abs. nra. }
  intros Ha Hb. apply Rabs_le. pose proof (K a b Ha Hb). pose proof (K b a Hb Ha) as H2. rewrite (Rabs_minus_sym b a) in H2. lra.
Qed.
Lemma settles_root u v : settles u v -> settles (fun k => rms_root (u k)) (fun k => rms_root (v k)).
Proof.
  unfold settles, rms_root. intros H. apply is_lim_seq_spec. intros eps. apply is_lim_seq_spec in H.
  assert (E : 0 < eps * eps) by (pose proof (cond_pos eps); nra). destruct (H (mkposreal _ E)) as [N HN]. exists N. intros k Hk. specialize (HN k Hk). cbn in HN.
  rewrite Rminus_0_r in *. eapply Rle_lt_trans; [apply sqrt_holder; apply Rabs_pos|].
  rewrite <- (sqrt_square eps) by (left; apply cond_pos). apply sqrt_lt_1; [apply Rabs_pos|lra|]. eapply Rle_lt_trans; [apply Rabs_triang_inv2|exact HN].
Qed.
Lemma detector_streams n (d : detector R) cs c (x : nat -> list R) :
  Forall2 (fun c f => biquad_init 0 1 Rmult Rdiv (fun v => Reqb v 0) n c = Ok f) cs (prefilter d) ->
  biquad_init 0 1 Rmult Rdiv (fun v => Reqb v 0) n c = Ok (smoother d) -> (forall k, length (x k) = n) ->
  exists y e : nat -> list R, (forall k, length (y k) = n) /\ (forall k, length (e k) = n) /\
    (forall i, (i < n)%nat -> cascade_solves cs (channel_of i x) (channel_of i y) /\
       solves c (fun k => channel_of i y k * channel_of i y k) (channel_of i e)) /\
    forall k, snd (scan (cstep Rplus Rminus Rmult) (filters_of d) (first_frames x k)) = first_frames e k.
Proof.
  intros H2 HI HL. set (y := output_at (chain rps) (prefilter d) x). set (e := output_at rps (smoother d) (fun k => square (y k))).
  assert (Ly : forall k, length (y k) = n).
  { unfold y. clear -H2 HL. revert x HL. induction H2 as [|c f cs fs HI HR IH]; intros x HL k; [rewrite chain_nil_output; apply HL|]. rewrite chain_outputs. apply IH. exact (stage_length n c f x HI HL). }
  assert (Ls : forall k, length (square (y k)) = n) by (intros k; rewrite map_length; apply Ly).
  exists y, e. split; [exact Ly|]. split; [exact (stage_length n c _ _ HI Ls)|]. split.
  - intros i Hi. split; [exact (chain_solves n cs _ x H2 HL i Hi)|]. pose proof (stage_solves n c _ _ HI Ls i Hi) as S0.
    intros k. specialize (S0 k). cbv beta in *. unfold channel_of. fold e in S0. rewrite !(nth_map_lt (fun v : R => v * v) _ i 0 0) in S0 by (rewrite Ly; exact Hi). exact S0.
  - intros k. rewrite cscan. cbn [snd fst filters_of]. unfold first_frames. rewrite chain_stream. cbn [snd]. rewrite map_map. rewrite scan_stream. reflexivity.
Qed.
Lemma channel_settles n cs c (x y e : nat -> list R) i A z h h2 : (i < n)%nat -> List.Forall stable cs -> stable c -> Cmod z = 1 ->
  cascade_value cs z h -> has_value c (RtoC 1) (RtoC 1) -> has_value c (Cmult z z) h2 ->
  cascade_solves cs (channel_of i x) (channel_of i y) -> solves c (fun k => channel_of i y k * channel_of i y k) (channel_of i e) ->
  settles (channel_of i x) (sinusoid A z) ->
  settles (channel_of i e) (fun k => Cmod (Cmult h A) * Cmod (Cmult h A) / 2 + sinusoid (Cmult h2 (Cmult (RtoC (1 / 2)) (Cmult (Cmult h A) (Cmult h A)))) (Cmult z z) k).
Proof.
  intros Hi HS Hc Hz V V1 V2 S1 S2 HX. assert (Nz : z <> RtoC 0) by (intros X; rewrite X, Cmod_0 in Hz; lra).
  pose proof (cascade_settles cs _ _ A z h HS Nz S1 V HX) as Y. set (B := Cmult h A) in *.
  apply (settles_square _ _ (Cmod B)) in Y; [|intros k; apply sinusoid_bounded, Hz].
  refine (solves_settles c _ _ _ _ Hc S2 _ Y).
  assert (E1 : solves c (fun _ => Cmod B * Cmod B / 2) (fun _ => Cmod B * Cmod B / 2)).
  { pose proof (sinusoid_solves c (RtoC (Cmod B * Cmod B / 2)) (RtoC 1) (RtoC 1) ltac:(intros X; apply RtoC_inj in X; lra) V1) as Q.
    assert (K : forall k, sinusoid (RtoC (Cmod B * Cmod B / 2)) (RtoC 1) k = Cmod B * Cmod B / 2).
    { intros k. unfold sinusoid. assert (P : powC (RtoC 1) k = RtoC 1) by (induction k as [|k IH]; cbn [powC]; [reflexivity|rewrite IH; ring]). rewrite P, Cmult_1_r. reflexivity. }
    intros k. specialize (Q k). rewrite Cmult_1_l, !K in Q. exact Q. }
  pose proof (sinusoid_solves c (Cmult (RtoC (1 / 2)) (Cmult B B)) (Cmult z z) h2) as E2.
  assert (Nzz : Cmult z z <> RtoC 0) by (intros X; assert (Y2 : Cmod (Cmult z z) = 0) by (rewrite X; apply Cmod_0); rewrite Cmod_mult, Hz in Y2; lra).
  specialize (E2 Nzz V2). pose proof (solves_plus c _ _ _ _ E1 E2) as E3. intros k. specialize (E3 k). cbv beta in *.
  rewrite !(sinusoid_square B z _ Hz). exact E3.
Qed.
