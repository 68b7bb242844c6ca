(* Proofs about signal_vector_util.h: phasor vectors, circular averages and FIR designs. *)
From Verif Require Import Common ListLemmas NthLemmas RealUtil ComplexModel VectorUtilModel VectorUtilSpec VectorUtilProofs.
From Verif Require ComplexProofs FftProofs.
From Coq Require Import Lra Psatz.
Local Open Scope R_scope.

(* ---- phasors ---- *)
Lemma phasors_length rot : forall n p, length (phasors rot p n) = n.
Proof. induction n; intros; cbn; congruence. Qed.
Lemma phasors_nth s : forall n t i d, (i < n)%nat -> nth i (phasors (cos s, sin s) (cos t, sin t) n) d = (cos (INR i * s + t), sin (INR i * s + t)).
Proof.
  induction n as [|n IH]; intros t i d Hi; [lia|]. cbn [phasors]. destruct i as [|i].
  - cbn [nth INR]. f_equal; f_equal; ring.
  - cbn [nth]. unfold cplx_mul. cbn [fst snd]. rewrite <- cos_plus. rewrite (Rplus_comm (cos t * sin s)), <- sin_plus. rewrite IH by lia. rewrite S_INR. f_equal; f_equal; ring.
Qed.
Lemma phasor_vector_ok step n : length (phasor_vector step n) = n /\
  forall i, (i < n)%nat -> nth i (phasor_vector step n) (0, 0) = (cos (INR i * step), sin (INR i * step)).
Proof.
  split; [apply phasors_length|]. intros i Hi. unfold phasor_vector. pose proof (phasors_nth step n 0 i (0, 0) Hi) as E. rewrite cos_0, sin_0, Rplus_0_r in E. exact E.
Qed.
Lemma sine_wave_ok f fs ph n : fs <> 0 -> exists out, sine_wave f fs ph n = Ok out /\ length out = n /\
  forall i, (i < n)%nat -> nth i out 0 = sin (2 * PI * f * (INR i / fs) + ph).
Proof.
  intros F. unfold sine_wave. destruct (Reqb_spec fs 0) as [E|_]; [congruence|]. cbn [negb oguard]. eexists. split; [reflexivity|].
  split; [rewrite map_length; apply phasors_length|]. intros i Hi. change 0 with (snd (0, 0)) at 1. rewrite map_nth, phasors_nth by exact Hi. cbn [snd]. f_equal. field. exact F.
Qed.

(* ---- circular averages ---- *)
Lemma polar_acc k l : forall a, fold_left (fun s p => (fst s + snd p * cos (k * fst p), snd s + snd p * sin (k * fst p))) l a =
  (fst a + rsum (map (fun p => snd p * cos (k * fst p)) l), snd a + rsum (map (fun p => snd p * sin (k * fst p)) l)).
Proof.
  induction l as [|p r IH]; intros [a b]; [cbn; unfold rsum; cbn; f_equal; ring|]. cbn [fold_left map]. rewrite IH, !rsum_cons. cbn [fst snd]. f_equal; ring.
Qed.
Lemma rsum_combine (g : R -> R -> R) : forall vs ws, length vs = length ws -> rsum (map (fun p => g (fst p) (snd p)) (combine vs ws)) = sumf (length vs) (fun i => g (nth i vs 0) (nth i ws 0)).
Proof.
  induction vs as [|v vs IH]; intros [|w ws] L; try discriminate; [unfold rsum; reflexivity|]. cbn [combine map length]. rewrite rsum_cons, sumf_shift. cbn [nth fst snd].
  rewrite IH by (cbn in L; lia). reflexivity.
Qed.
Lemma polar_sum_eq p vs ws : length vs = length ws -> polar_sum (2 * PI / p) (combine vs ws) = (csum p vs ws cos, csum p vs ws sin).
Proof.
  intros L. unfold polar_sum. rewrite polar_acc. cbn [fst snd]. unfold csum.
  rewrite (rsum_combine (fun v w => w * cos (2 * PI / p * v)) vs ws L), (rsum_combine (fun v w => w * sin (2 * PI / p * v)) vs ws L). f_equal; ring.
Qed.
Lemma combine_ones (vs : list R) : map (fun v => (v, 1)) vs = combine vs (repeat 1 (length vs)).
Proof. induction vs; cbn; congruence. Qed.
Lemma direction C S : exists r, 0 <= r /\ C = r * cos (atan2 S C) /\ S = r * sin (atan2 S C) /\ (r = 0 <-> C = 0 /\ S = 0) /\ - PI < atan2 S C <= PI /\ (r = 0 -> atan2 S C = 0).
Proof.
  pose proof PI_RGT_0. set (r := sqrt (C * C + S * S)). assert (Q : r * r = C * C + S * S) by (apply sqrt_sqrt; nra). assert (R0 : 0 <= r) by apply sqrt_pos. clearbody r.
  exists r. split; [exact R0|]. destruct (Req_dec r 0) as [E|N].
  - assert (C = 0) by nra. assert (S = 0) by nra. subst. unfold atan2. rewrite !Rltb_false by lra. rewrite cos_0, sin_0. repeat split; try lra; auto.
  - destruct (ComplexProofs.atan2_spec C S r Q ltac:(lra)) as [A [B D]]. repeat split; try lra. intros [-> ->]. nra.
Qed.
Lemma unit_range_ok p C S : 0 < p -> let a := unit_range (atan2 S C / (2 * PI)) p in 0 <= a < p /\ points_at p a C S /\ (C = 0 -> S = 0 -> a = 0).
Proof.
  intros P. cbv zeta. pose proof PI_RGT_0 as PP. destruct (direction C S) as [r [R0 [A [B [Z [T TZ]]]]]]. set (t := atan2 S C) in *. clearbody t.
  unfold unit_range. set (u := t / (2 * PI)). assert (U : t = 2 * PI * u) by (unfold u; field; lra). clearbody u. subst t.
  assert (U2 : - (1 / 2) < u <= 1 / 2) by nra. destruct (Rltb_spec u 0) as [N|N].
  - split; [nra|]. split.
    + exists r. split; [exact R0|]. replace (2 * PI / p * ((u + 1) * p)) with (2 * PI * u + 2 * PI) by (field; lra). rewrite cos_plus, sin_plus, cos_2PI, sin_2PI. split; lra.
    + intros C0 S0. assert (r = 0) by tauto. specialize (TZ H). nra.
  - split; [nra|]. split.
    + exists r. split; [exact R0|]. replace (2 * PI / p * (u * p)) with (2 * PI * u) by (field; lra). split; lra.
    + intros C0 S0. assert (r = 0) by tauto. specialize (TZ H). assert (u = 0) by nra. nra.
Qed.
Lemma weighted_ok vs ws p : vs <> [] -> length vs = length ws -> 0 < p -> (forall w, In w ws -> 0 <= w) ->
  exists a, weighted_circular_average vs ws p = Ok a /\ 0 <= a < p /\ points_at p a (csum p vs ws cos) (csum p vs ws sin) /\
   (csum p vs ws cos = 0 -> csum p vs ws sin = 0 -> a = 0).
Proof.
  intros N L P W. unfold weighted_circular_average. replace (length vs =? 0)%nat with false by (destruct vs; [congruence|reflexivity]). rewrite (proj2 (Nat.eqb_eq _ _) L). rewrite Rltb_true by exact P. cbn [negb ocheck].
  replace (forallb (fun w => Rleb 0 w) ws) with true by (symmetry; apply forallb_forall; intros w Hw; apply Rleb_true; apply W; exact Hw). cbn [oguard].
  rewrite polar_sum_eq by exact L. cbn [fst snd]. eexists. split; [reflexivity|]. apply unit_range_ok. exact P.
Qed.
Lemma average_weighted vs p : circular_average vs p = weighted_circular_average vs (repeat 1 (length vs)) p.
Proof.
  unfold circular_average, weighted_circular_average. rewrite repeat_length, Nat.eqb_refl. cbn [ocheck]. rewrite combine_ones.
  replace (forallb (fun w => Rleb 0 w) (repeat 1 (length vs))) with true; [reflexivity|]. symmetry. apply forallb_forall. intros w Hw. apply repeat_spec in Hw. subst w. apply Rleb_true. lra.
Qed.
Lemma cos_one t : - (2 * PI) < t < 2 * PI -> cos t = 1 -> t = 0.
Proof.
  intros T E. pose proof PI_RGT_0. replace t with (2 * (t / 2)) in E by field. rewrite cos_2a_sin in E. assert (Z : sin (t / 2) = 0) by nra.
  destruct (Rtotal_order t 0) as [N|[N|N]]; [|exact N|].
  - assert (0 < sin (- (t / 2))) by (apply sin_gt_0; lra). rewrite sin_neg in H0. lra.
  - assert (0 < sin (t / 2)) by (apply sin_gt_0; lra). lra.
Qed.
Lemma points_unique p a b C S : 0 < p -> 0 <= a < p -> 0 <= b < p -> C <> 0 \/ S <> 0 -> points_at p a C S -> points_at p b C S -> a = b.
Proof.
  intros P A B N [r [R0 [E1 E2]]] [q [Q0 [F1 F2]]]. pose proof PI_RGT_0 as PP.
  set (x := 2 * PI / p * a) in *. set (y := 2 * PI / p * b) in *.
  assert (X : r * r = C * C + S * S). { rewrite E1, E2. pose proof (sin2_cos2 x) as K. unfold Rsqr in K. replace (r * cos x * (r * cos x) + r * sin x * (r * sin x)) with (r * r * (sin x * sin x + cos x * cos x)) by ring. rewrite K. ring. }
  assert (Y : q * q = C * C + S * S). { rewrite F1, F2. pose proof (sin2_cos2 y) as K. unfold Rsqr in K. replace (q * cos y * (q * cos y) + q * sin y * (q * sin y)) with (q * q * (sin y * sin y + cos y * cos y)) by ring. rewrite K. ring. }
  assert (RP : 0 < r) by (destruct N; nra). assert (q = r) by nra. subst q.
  assert (C1 : cos x = cos y) by nra. assert (S1 : sin x = sin y) by nra.
  assert (D : cos (x - y) = 1). { rewrite cos_minus, C1, S1. pose proof (sin2_cos2 y) as K. unfold Rsqr in K. lra. }
  assert (I : 0 < / p) by (apply Rinv_0_lt_compat; exact P).
  assert (XY : x - y = 2 * PI * ((a - b) * / p)) by (unfold x, y; field; lra).
  assert (AB : -1 < (a - b) * / p < 1). { split; apply (Rmult_lt_reg_r p); try exact P; rewrite Rmult_assoc, Rinv_l by lra; lra. }
  assert (Z : x - y = 0) by (apply cos_one; [rewrite XY; nra|exact D]). rewrite XY in Z. assert ((a - b) * / p = 0) by nra. nra.
Qed.
Lemma turn p a (k : Z) : 0 < p -> cos (2 * PI / p * (a + IZR k * p)) = cos (2 * PI / p * a) /\ sin (2 * PI / p * (a + IZR k * p)) = sin (2 * PI / p * a).
Proof.
  intros P. replace (2 * PI / p * (a + IZR k * p)) with (2 * PI / p * a + 2 * IZR k * PI) by (field; lra). split; [apply FftProofs.cos_period_Z|apply FftProofs.sin_period_Z].
Qed.
Lemma reduce p x : 0 < p -> exists k : Z, 0 <= x + IZR k * p < p.
Proof.
  intros P. exists (- Int_part (x / p))%Z. rewrite opp_IZR. destruct (base_Int_part (x / p)) as [A B]. assert (x = x / p * p) by (field; lra). set (q := x / p) in *. clearbody q. nra.
Qed.
Lemma nth_shift d vs i : (i < length vs)%nat -> nth i (map (fun v => v + d) vs) 0 = nth i vs 0 + d.
Proof. intros H. rewrite (nth_indep _ 0 (0 + d)) by (rewrite map_length; exact H). apply (map_nth (fun v => v + d)). Qed.
Lemma sumf_lin n a b f g : sumf n (fun k => a * f k + b * g k) = a * sumf n f + b * sumf n g.
Proof. induction n as [|n IH]; cbn [sumf]; [ring|]. rewrite IH. ring. Qed.
Lemma csum_shift p vs ws d : csum p (map (fun v => v + d) vs) ws cos = cos (2 * PI / p * d) * csum p vs ws cos + - sin (2 * PI / p * d) * csum p vs ws sin /\
  csum p (map (fun v => v + d) vs) ws sin = sin (2 * PI / p * d) * csum p vs ws cos + cos (2 * PI / p * d) * csum p vs ws sin.
Proof.
  unfold csum. rewrite map_length, <- !sumf_lin. split; apply sumf_ext; intros k Hk; rewrite nth_shift, Rmult_plus_distr_l by exact Hk.
  - rewrite cos_plus. ring.
  - rewrite sin_plus. ring.
Qed.
Lemma weighted_rotation vs ws p d a b : 0 < p -> csum p vs ws cos <> 0 \/ csum p vs ws sin <> 0 -> (forall w, In w ws -> 0 <= w) ->
  weighted_circular_average vs ws p = Ok a -> weighted_circular_average (map (fun v => v + d) vs) ws p = Ok b -> exists k : Z, b = a + d + IZR k * p.
Proof.
  intros P N W A B. assert (NE : vs <> []) by (intros ->; discriminate). assert (L : length vs = length ws).
  { unfold weighted_circular_average in A. apply ocheck_ok in A. destruct A as [_ A]. apply ocheck_ok in A. destruct A as [A _]. apply Nat.eqb_eq. exact A. }
  destruct (weighted_ok vs ws p NE L P W) as [a' [A1 [A2 [A3 _]]]]. rewrite A in A1. injection A1 as <-.
  destruct (weighted_ok (map (fun v => v + d) vs) ws p) as [b' [B1 [B2 [B3 _]]]]; [destruct vs; [congruence|discriminate]|rewrite map_length; exact L|exact P|exact W|].
  rewrite B in B1. injection B1 as <-. destruct (reduce p (a + d) P) as [k K]. exists k.
  destruct (csum_shift p vs ws d) as [C1 C2]. rewrite C1, C2 in B3. set (x := csum p vs ws cos) in *. set (y := csum p vs ws sin) in *. set (t := 2 * PI / p * d) in *.
  pose proof (sin2_cos2 t) as SC. unfold Rsqr in SC.
  apply (points_unique p b (a + d + IZR k * p) (cos t * x + - sin t * y) (sin t * x + cos t * y) P B2 K).
  - destruct (Req_dec (cos t * x + - sin t * y) 0) as [E1|]; [|left; assumption]. destruct (Req_dec (sin t * x + cos t * y) 0) as [E2|]; [|right; assumption].
    exfalso. assert (x = cos t * (cos t * x + - sin t * y) + sin t * (sin t * x + cos t * y)) by nra. assert (y = cos t * (sin t * x + cos t * y) - sin t * (cos t * x + - sin t * y)) by nra.
    rewrite E1, E2 in *. destruct N; lra.
  - exact B3.
  - destruct A3 as [r [R0 [E1 E2]]]. exists r. split; [exact R0|]. destruct (turn p (a + d) k P) as [T1 T2]. rewrite T1, T2. rewrite Rmult_plus_distr_l, cos_plus, sin_plus. fold t. rewrite E1, E2. split; ring.
Qed.
Lemma average_single v p : 0 < p -> exists a k, circular_average (v :: nil) p = Ok a /\ 0 <= a < p /\ a = v + IZR k * p.
Proof.
  intros P. rewrite average_weighted. destruct (weighted_ok (v :: nil) (repeat 1 1) p) as [a [A [B [C _]]]]; [discriminate|reflexivity|exact P| |].
  - intros w [<-|[]]. lra.
  - destruct (reduce p v P) as [k K]. exists a, k. split; [exact A|]. split; [exact B|]. unfold csum in C. cbn [length sumf nth repeat] in C.
    apply (points_unique p a (v + IZR k * p) _ _ P B K) in C; [exact C| |].
    + pose proof (sin2_cos2 (2 * PI / p * v)) as SC. unfold Rsqr in SC. destruct (Req_dec (cos (2 * PI / p * v)) 0) as [E|E]; [right; intros F; assert (sin (2 * PI / p * v) = 0) by lra; nra|left; lra].
    + exists 1. destruct (turn p v k P) as [T1 T2]. rewrite T1, T2. split; [lra|]. split; ring.
Qed.
Lemma average_periodic vs ws p (ks : list Z) : 0 < p -> length ks = length vs -> length vs = length ws ->
  weighted_circular_average (map (fun q => fst q + IZR (snd q) * p) (combine vs ks)) ws p = weighted_circular_average vs ws p.
Proof.
  intros P L LW. assert (LL : length (map (fun q => fst q + IZR (snd q) * p) (combine vs ks)) = length vs) by (rewrite map_length, combine_length; lia).
  assert (G : forall i, (i < length vs)%nat -> nth i (map (fun q => fst q + IZR (snd q) * p) (combine vs ks)) 0 = nth i vs 0 + IZR (nth i ks 0%Z) * p).
  { intros i Hi. rewrite (nth_indep _ 0 ((fun q => fst q + IZR (snd q) * p) (0, 0%Z))) by (rewrite LL; exact Hi). rewrite (map_nth (fun q => fst q + IZR (snd q) * p)), combine_nth by lia. reflexivity. }
  unfold weighted_circular_average. rewrite LL. rewrite !polar_sum_eq by congruence.
  assert (E : forall f, (forall a k, f (2 * PI / p * (a + IZR k * p)) = f (2 * PI / p * a)) -> csum p (map (fun q => fst q + IZR (snd q) * p) (combine vs ks)) ws f = csum p vs ws f).
  { intros f F. unfold csum. rewrite LL. apply sumf_ext. intros i Hi. rewrite G by exact Hi. rewrite F. reflexivity. }
  rewrite !E by (intros; apply turn; exact P). reflexivity.
Qed.

(* ---- FIR designs ---- *)
Lemma ideal_sinc f k : ideal_lowpass f k = f * sinc (PI * f * IZR k).
Proof.
  pose proof PI_RGT_0. unfold ideal_lowpass, sinc. destruct (Z.eqb_spec k 0) as [->|N].
  - replace (PI * f * 0) with 0 by ring. destruct (Reqb_spec 0 0); [ring|congruence].
  - assert (K : IZR k <> 0) by (apply not_0_IZR; exact N). destruct (Reqb_spec (PI * f * IZR k) 0) as [E|E].
    + assert (f = 0). { apply Rmult_integral in E. destruct E as [E|E]; [|congruence]. apply Rmult_integral in E. destruct E; [lra|assumption]. }
      subst f. replace (PI * 0 * IZR (Z.abs k)) with 0 by ring. rewrite sin_0. unfold Rdiv. ring.
    + assert (F : f <> 0) by (intros ->; apply E; ring). destruct (Z.abs_spec k) as [[_ ->]|[_ ->]].
      * field. repeat split; try lra; assumption.
      * rewrite opp_IZR. replace (PI * f * - IZR k) with (- (PI * f * IZR k)) by ring. rewrite sin_neg. field. repeat split; try lra; assumption.
Qed.
Lemma lowpass_ok edge fs w : 0 < fs -> 0 <= edge <= fs / 2 -> Nat.odd (length w) = true -> exists f, fir_lowpass edge fs w = Ok f /\ length f = length w /\
  forall i, (i < length w)%nat -> nth i f 0 = nth i w 0 * (2 * edge / fs * sinc (PI * (2 * edge / fs) * (INR i - INR ((length w - 1) / 2)))).
Proof.
  intros F E O. unfold fir_lowpass. rewrite !Rleb_true by lra. apply Nat.odd_spec in O. destruct O as [m M].
  replace (length w mod 2 =? 1)%nat with true by (rewrite M, Nat.add_comm, Nat.mul_comm, Nat.mod_add by lia; reflexivity). destruct (Reqb_spec fs 0); [lra|]. cbn [ocheck oguard negb]. cbv zeta.
  eexists. split; [reflexivity|]. split; [rewrite map_length, combine_length, seq_length; lia|]. intros i Hi.
  set (g := fun p : nat * R => _). assert (LC : (i < length (combine (seq 0 (length w)) w))%nat) by (rewrite combine_length, seq_length; lia).
  rewrite (nth_indep _ 0 (g (0%nat, 0))) by (rewrite map_length; exact LC). rewrite map_nth, combine_nth by apply seq_length.
  rewrite seq_nth by exact Hi. unfold g. cbn [fst snd]. rewrite ideal_sinc, minus_IZR, <- !INR_IZR_INZ, Nat.add_0_l. ring.
Qed.
Lemma lowpass_reject edge fs w : ~ (0 <= edge <= fs / 2) \/ Nat.odd (length w) = false -> fir_lowpass edge fs w = CheckFail.
Proof.
  intros H. unfold fir_lowpass. destruct (Rleb_spec 0 edge); [|reflexivity]. destruct (Rleb_spec edge (fs / 2)); [|reflexivity]. cbn [ocheck]. destruct H as [H|H]; [exfalso; apply H; lra|].
  assert (Ev : Nat.even (length w) = true) by (rewrite <- Nat.negb_odd, H; reflexivity). apply Nat.even_spec in Ev. destruct Ev as [m M].
  replace (length w mod 2 =? 1)%nat with false by (rewrite M, Nat.mul_comm, Nat.mod_mul by lia; reflexivity). reflexivity.
Qed.
Lemma highpass_ok edge fs w : 0 < fs -> 0 <= edge <= fs / 2 -> Nat.odd (length w) = true -> exists f g, fir_lowpass edge fs w = Ok f /\ fir_highpass edge fs w = Ok g /\ length g = length w /\
  forall i, (i < length w)%nat -> nth i f 0 + nth i g 0 = if (i =? (length w - 1) / 2)%nat then nth i w 0 else 0.
Proof.
  intros F E O. destruct (lowpass_ok edge fs w F E O) as [f [A [B _]]]. exists f. unfold fir_highpass. rewrite A. cbn [obind]. cbv zeta.
  set (rad := ((length w - 1) / 2)%nat). assert (Rd : (rad < length w)%nat).
  { apply Nat.odd_spec in O. destruct O as [m M]. unfold rad. pose proof (Nat.div_le_upper_bound (length w - 1) 2 (length w - 1) ltac:(lia) ltac:(lia)). lia. }
  eexists. split; [reflexivity|]. split; [reflexivity|]. split; [rewrite length_splice; cbn [length]; rewrite map_length; lia|]. intros i Hi.
  assert (M : forall j, (j < length w)%nat -> nth j (map (fun x => x * -1) f) 0 = - nth j f 0).
  { intros j Hj. rewrite (nth_indep _ 0 (0 * -1)) by (rewrite map_length; lia). rewrite (map_nth (fun x => x * -1)). ring. }
  destruct (Nat.eqb_spec i rad) as [->|N].
  - rewrite nth_splice_same by (rewrite map_length; lia). rewrite M by exact Rd. ring.
  - rewrite nth_splice_other by (rewrite ?map_length; lia). rewrite M by exact Hi. ring.
Qed.
Lemma bandpass_ok lo hi fs w : 0 < fs -> 0 <= lo -> lo <= hi <= fs / 2 -> Nat.odd (length w) = true -> exists f1 f2 g, fir_lowpass lo fs w = Ok f1 /\ fir_lowpass hi fs w = Ok f2 /\
  fir_bandpass lo hi fs w = Ok g /\ length g = length w /\ forall i, (i < length w)%nat -> nth i g 0 = nth i f2 0 - nth i f1 0.
Proof.
  intros F L H O. destruct (lowpass_ok lo fs w F ltac:(lra) O) as [f1 [A1 [B1 _]]]. destruct (lowpass_ok hi fs w F ltac:(lra) O) as [f2 [A2 [B2 _]]].
  exists f1, f2. unfold fir_bandpass. rewrite Rleb_true by lra. cbn [ocheck]. rewrite A1, A2. cbn [obind]. eexists. split; [reflexivity|]. split; [reflexivity|]. split; [reflexivity|].
  split; [rewrite map_length, combine_length; lia|]. intros i Hi. rewrite (nth_indep _ 0 ((fun p => snd p - fst p) (0, 0))) by (rewrite map_length, combine_length; lia).
  rewrite (map_nth (fun p => snd p - fst p)), combine_nth by lia. reflexivity.
Qed.
Lemma sinc_even x : sinc (- x) = sinc x.
Proof. unfold sinc. destruct (Reqb_spec x 0) as [E|N]; destruct (Reqb_spec (- x) 0); try lra. rewrite sin_neg. field. exact N. Qed.
Lemma lowpass_symmetric edge fs w f : 0 < fs -> rev w = w -> fir_lowpass edge fs w = Ok f -> rev f = f.
Proof.
  intros F W A. assert (H : 0 <= edge <= fs / 2 /\ Nat.odd (length w) = true).
  { destruct (Nat.odd (length w)) eqn:O; [|rewrite lowpass_reject in A by (right; exact O); discriminate]. split; [|reflexivity].
    destruct (Rle_dec 0 edge); [destruct (Rle_dec edge (fs / 2)); [split; assumption|]|]; rewrite lowpass_reject in A by (left; lra); discriminate. }
  destruct H as [E O]. destruct (lowpass_ok edge fs w F E O) as [f' [A' [B C]]]. rewrite A in A'. injection A' as <-.
  apply (nth_ext _ _ 0 0); [apply rev_length|]. intros i Hi. rewrite rev_length in Hi. rewrite rev_nth by exact Hi. rewrite !C by lia.
  assert (WS : nth (length f - S i) w 0 = nth i w 0). { rewrite <- W at 2. rewrite rev_nth by lia. f_equal. lia. }
  rewrite WS. do 2 f_equal. apply Nat.odd_spec in O. destruct O as [m M]. rewrite <- sinc_even. f_equal.
  replace ((length w - 1) / 2)%nat with m by (rewrite M, Nat.add_sub, Nat.mul_comm, Nat.div_mul by lia; reflexivity).
  assert (LE : INR (length w) = 2 * INR m + 1) by (rewrite M, plus_INR, mult_INR; cbn [INR]; ring).
  rewrite B, minus_INR, LE, S_INR by lia. ring.
Qed.
Lemma sumf_S n f : sumf (S n) f = sumf n f + f n.
Proof. reflexivity. Qed.
Lemma sumf_rev n : forall f, sumf n f = sumf n (fun k => f (n - 1 - k)%nat).
Proof.
  induction n as [|n IH]; intros f; [reflexivity|]. rewrite sumf_shift, sumf_S. replace (S n - 1 - n)%nat with 0%nat by lia. rewrite (IH (fun k => f (S k))).
  rewrite (sumf_ext n (fun k => f (S (n - 1 - k))) (fun k => f (S n - 1 - k)%nat)) by (intros k Hk; f_equal; lia). ring.
Qed.
Lemma odd_antisym f m omega : length f = (2 * m + 1)%nat -> rev f = f -> sumf (length f) (fun i => nth i f 0 * sin (omega * (INR i - INR m))) = 0.
Proof.
  intros M W. set (T := sumf _ _). assert (E : T = -1 * T + 0 * T); [|lra].
  unfold T at 1. rewrite sumf_rev. unfold T. rewrite <- sumf_lin. apply sumf_ext. intros k Hk.
  replace (nth (length f - 1 - k) f 0) with (nth k f 0). 2: { rewrite <- W at 1. rewrite rev_nth by exact Hk. f_equal. lia. }
  replace (INR (length f - 1 - k) - INR m) with (- (INR k - INR m)). 2: { rewrite !minus_INR by lia. rewrite M, plus_INR, mult_INR. cbn [INR]. ring. }
  replace (omega * - (INR k - INR m)) with (- (omega * (INR k - INR m))) by ring. rewrite sin_neg. ring.
Qed.
Lemma lowpass_zero_phase edge fs w f omega : 0 < fs -> rev w = w -> fir_lowpass edge fs w = Ok f ->
  sumf (length f) (fun i => nth i f 0 * sin (omega * (INR i - INR ((length w - 1) / 2)))) = 0.
Proof.
  intros F W A. pose proof (lowpass_symmetric edge fs w f F W A) as Y.
  assert (O : Nat.odd (length w) = true) by (destruct (Nat.odd (length w)) eqn:O; [reflexivity|rewrite lowpass_reject in A by (right; exact O); discriminate]).
  assert (B : length f = length w).
  { unfold fir_lowpass in A. apply ocheck_ok in A. destruct A as [_ A]. apply ocheck_ok in A. destruct A as [_ A]. apply ocheck_ok in A. destruct A as [_ A]. 
    destruct (negb (Reqb fs 0)); [|discriminate]. cbn [oguard] in A. injection A as <-. rewrite map_length, combine_length, seq_length. lia. }
  apply Nat.odd_spec in O. destruct O as [m M]. replace ((length w - 1) / 2)%nat with m by (rewrite M, Nat.add_sub, Nat.mul_comm, Nat.div_mul by lia; reflexivity).
  apply odd_antisym; [lia|exact Y].
Qed.
Lemma lowpass_nyquist fs w f : 0 < fs -> fir_lowpass (fs / 2) fs w = Ok f -> forall i, (i < length w)%nat -> nth i f 0 = if (i =? (length w - 1) / 2)%nat then nth i w 0 else 0.
Proof.
  intros F A i Hi. pose proof PI_RGT_0.
  assert (O : Nat.odd (length w) = true) by (destruct (Nat.odd (length w)) eqn:O; [reflexivity|rewrite lowpass_reject in A by (right; exact O); discriminate]).
  destruct (lowpass_ok (fs / 2) fs w F ltac:(lra) O) as [f' [A' [_ C]]]. rewrite A in A'. injection A' as <-. rewrite C by exact Hi. set (r := ((length w - 1) / 2)%nat).
  replace (2 * (fs / 2) / fs) with 1 by (field; lra). unfold sinc. destruct (Nat.eqb_spec i r) as [->|N].
  - destruct (Reqb_spec (PI * 1 * (INR r - INR r)) 0) as [_|K]; [ring|exfalso; apply K; ring].
  - destruct (Reqb_spec (PI * 1 * (INR i - INR r)) 0) as [K|K].
    + exfalso. assert (INR i = INR r) by nra. apply INR_eq in H0. congruence.
    + assert (Z : sin (PI * 1 * (INR i - INR r)) = 0). { apply sin_eq_0_1. exists (Z.of_nat i - Z.of_nat r)%Z. rewrite minus_IZR, <- !INR_IZR_INZ. ring. } rewrite Z. unfold Rdiv. ring.
Qed.
Lemma lowpass_zero fs w f : 0 < fs -> fir_lowpass 0 fs w = Ok f -> forall i, (i < length w)%nat -> nth i f 0 = 0.
Proof.
  intros F A i Hi.
  assert (O : Nat.odd (length w) = true) by (destruct (Nat.odd (length w)) eqn:O; [reflexivity|rewrite lowpass_reject in A by (right; exact O); discriminate]).
  destruct (lowpass_ok 0 fs w F ltac:(lra) O) as [f' [A' [_ C]]]. rewrite A in A'. injection A' as <-. rewrite C by exact Hi. field. lra.
Qed.
Lemma bandpass_ends lo fs w : 0 < fs -> 0 <= lo <= fs / 2 -> Nat.odd (length w) = true ->
  fir_bandpass 0 lo fs w = fir_lowpass lo fs w /\ fir_bandpass lo (fs / 2) fs w = fir_highpass lo fs w.
Proof.
  intros F L O. split.
  - destruct (bandpass_ok 0 lo fs w F ltac:(lra) ltac:(lra) O) as [f1 [f2 [g [A1 [A2 [A3 [B C]]]]]]]. rewrite A2, A3. f_equal. destruct (lowpass_ok lo fs w F L O) as [f2' [A2' [B2 _]]]. rewrite A2 in A2'. injection A2' as <-.
    apply (nth_ext _ _ 0 0); [congruence|]. intros i Hi. rewrite B in Hi. rewrite C by exact Hi. rewrite (lowpass_zero fs w f1 F A1 i Hi). ring.
  - destruct (bandpass_ok lo (fs / 2) fs w F ltac:(lra) ltac:(lra) O) as [f1 [f2 [g [A1 [A2 [A3 [B C]]]]]]]. destruct (highpass_ok lo fs w F L O) as [f [h [D1 [D2 [D3 D4]]]]].
    rewrite A3, D2. f_equal. rewrite A1 in D1. injection D1 as <-. apply (nth_ext _ _ 0 0); [congruence|]. intros i Hi. rewrite B in Hi. rewrite C by exact Hi.
    rewrite (lowpass_nyquist fs w f2 F A2 i Hi). specialize (D4 i Hi). lra.
Qed.
