From Verif Require Import Common ListLemmas RealUtil BiquadModel DesignModel DesignSpec DesignProofs DesignProofs2 DesignProofs3 CascadeModel CascadeSpec CascadeProofs CascadeProofs2 PoleZeroModel PoleZeroSpec PoleZeroProofs PoleZeroProofs2 PoleZeroProofs3 PoleZeroProofs4 PoleZeroProofs5 PolyRoots PoleZeroProofs6 PoleZeroProofs7 PoleZeroProofs8 PoleZeroProofs9 PoleZeroProofs10.
From Coquelicot Require Import Complex.
Local Open Scope R_scope.

Lemma zero_ratio n l W : W <> 0 -> (forall i, In i l -> sigma n i <> 0) ->
  rprod (fun i => (W * W - 1 / (sigma n i * sigma n i)) ^ 2) l =
  rprod (fun i => (0 * 0 - 1 / (sigma n i * sigma n i)) ^ 2) l * W ^ (4 * length l) * rprod (fun i => / W * / W - sigma n i * sigma n i) l ^ 2.
Proof.
  intros HW. induction l as [|i l IH]; intros H; cbn [rprod fold_right length]; [change (4 * 0)%nat with 0%nat; cbn [pow]; ring|].
  fold (rprod (fun i => (W * W - 1 / (sigma n i * sigma n i)) ^ 2) l). fold (rprod (fun i => (0 * 0 - 1 / (sigma n i * sigma n i)) ^ 2) l). fold (rprod (fun i => / W * / W - sigma n i * sigma n i) l).
  rewrite IH by (intros j Hj; apply H; now right). specialize (H i (or_introl eq_refl)). replace (4 * S (length l))%nat with (4 + 4 * length l)%nat by lia. rewrite pow_add.
  set (a := rprod _ l). set (b := rprod _ l). set (c := W ^ (4 * length l)). set (s := sigma n i) in *. field. split; assumption.
Qed.
Section Cheb2.
  Variables (n : nat) (eps : R).
  Hypotheses (HN : (1 <= n)%nat) (HE : 0 < eps).
  Let mu := arcsinh (1 / eps) / INR n.
  Lemma cheb2_left g r : In r (poles (cheb2 n mu g)) -> fst r < 0.
  Proof.
    pose proof (mu_pos n eps HN HE) as M. fold mu in M.
    assert (I : forall i, (0 <= i < Z.of_nat n)%Z -> fst (pole2 mu n i) < 0).
    { intros i Hi. rewrite pole2_is by assumption. pose proof (pole1_left n mu i M Hi) as L. destruct (pole1 mu n i) as [x y]. cbn in *. assert (0 < x * (x * 1) + - y * (- y * 1)) by nra.
      replace (x / (x * (x * 1) + - y * (- y * 1))) with (- (- x / (x * (x * 1) + - y * (- y * 1)))) by (field; lra). assert (0 < - x / (x * (x * 1) + - y * (- y * 1))) by (apply Rdiv_lt_0_compat; lra). lra. }
    unfold poles. rewrite in_roots. cbn [cheb2 lone_poles paired_poles]. intros [(x & Hx & ->)|[Hr|(q & Hr & ->)]].
    - destruct (Nat.odd n) eqn:O; [|destruct Hx]. destruct Hx as [<-|[]]. cbn [RtoC fst]. apply I. lia.
    - apply in_map_iff in Hr. destruct Hr as (i & <- & Hi). apply inds_spec in Hi. apply I. lia.
    - apply in_map_iff in Hr. destruct Hr as (i & <- & Hi). apply inds_spec in Hi. cbn [Cconj fst]. apply I. lia.
  Qed.
  Lemma cheb2_length g : length (poles (cheb2 n mu g)) = n.
  Proof. unfold poles. rewrite roots_length. cbn [cheb2 lone_poles paired_poles]. rewrite map_length, inds_length. pose proof (half_eq n) as X. destruct (Nat.odd n); cbn [length]; lia. Qed.
  Lemma cheb2_zeros_length g : length (zeros (cheb2 n mu g)) = (2 * Nat.div2 n)%nat.
  Proof. unfold zeros. rewrite roots_length. cbn [cheb2 lone_zeros paired_zeros]. rewrite map_length, inds_length. cbn [length]. lia. Qed.
  Lemma cheb2_zero g r : In r (zeros (cheb2 n mu g)) -> fst r = 0 /\ snd r <> 0.
  Proof.
    assert (I : forall i, In i (inds n) -> 1 / sin (theta n i) <> 0) by (intros i Hi; apply sigma_pos in Hi; unfold sigma in Hi; assert (0 < 1 / sin (theta n i)) by (apply Rdiv_lt_0_compat; lra); lra).
    unfold zeros. rewrite in_roots. cbn [cheb2 lone_zeros paired_zeros]. intros [(x & [] & _)|[Hr|(q & Hr & ->)]].
    - apply in_map_iff in Hr. destruct Hr as (i & <- & Hi). cbn [zero2 fst snd]. auto.
    - apply in_map_iff in Hr. destruct Hr as (i & <- & Hi). cbn [zero2 Cconj fst snd]. specialize (I i Hi). split; [reflexivity|]. lra.
  Qed.
  Lemma cheb2_positive g W : 0 < pole_modulus (0, W) (cheb2 n mu g).
  Proof. apply modulus_pos. intros r Hr E. apply cheb2_left in Hr. rewrite E in Hr. cbn in Hr. lra. Qed.
  Lemma cheb2_zero_positive g : 0 < zero_modulus (0, 0) (cheb2 n mu g).
  Proof. apply modulus_pos. intros r Hr E. apply cheb2_zero in Hr. rewrite E in Hr. cbn in Hr. lra. Qed.
  (* the reciprocals of the poles of the type 1 filter *)
  Lemma cheb2_poles_ratio g W : W <> 0 -> lead n eps * (pole_modulus (0, W) (cheb2 n mu g) * pole_modulus (0, W) (cheb2 n mu g)) =
    pole_modulus (0, 0) (cheb2 n mu g) * pole_modulus (0, 0) (cheb2 n mu g) * W ^ (2 * n) * (1 + eps * eps * (T n (/ W) * T n (/ W))).
  Proof.
    intros HW. pose proof (mu_pos n eps HN HE) as M. fold mu in M.
    assert (X : forall V, RtoC (pole_modulus (0, V) (cheb2 n mu g) * pole_modulus (0, V) (cheb2 n mu g)) = po (fun r => Cplus (RtoC (V * V)) (Cmult (Cinv r) (Cinv r))) (poles (cheb1 n mu g))).
    { intros V. unfold pole_modulus, poles. rewrite axis_modulus. fold (poles (cheb2 n mu g)). rewrite (cheb2_po _ n mu g g M). reflexivity. }
    assert (NZ : forall r, In r (poles (cheb1 n mu g)) -> r <> RtoC 0) by (intros r Hr E; apply (cheb1_left n mu g r M) in Hr; rewrite E in Hr; cbn in Hr; lra).
    assert (Y : Cmult (RtoC (lead n eps)) (RtoC (pole_modulus (0, W) (cheb2 n mu g) * pole_modulus (0, W) (cheb2 n mu g))) =
      Cmult (Cmult (RtoC (pole_modulus (0, 0) (cheb2 n mu g) * pole_modulus (0, 0) (cheb2 n mu g))) (RtoC (W ^ (2 * n)))) (RtoC (1 + eps * eps * (T n (/ W) * T n (/ W))))).
    { rewrite !X, <- G_real, <- (cheb1_product n eps HN HE g). fold mu. rewrite Rmult_0_l.
      replace (RtoC (W ^ (2 * n))) with (cpow (RtoC (W * W)) n) by (rewrite cpow_RtoC, pow_mult; f_equal; f_equal; ring).
      assert (E : RtoC (/ W * / W) = Cinv (RtoC (W * W))) by (rewrite <- RtoC_inv by nra; f_equal; field; exact HW). rewrite E. assert (NW : RtoC (W * W) <> RtoC 0) by (apply RtoC_neq; nra).
      set (w := RtoC (W * W)) in *. set (L := RtoC (lead n eps)).
      assert (GEN : forall l, (forall r, In r l -> r <> RtoC 0) -> Cmult L (po (fun r => Cplus w (Cmult (Cinv r) (Cinv r))) l) = Cmult (Cmult (po (fun r => Cplus (RtoC 0) (Cmult (Cinv r) (Cinv r))) l) (cpow w (length l))) (Cmult L (po (fun r => Cplus (Cinv w) (Cmult r r)) l))).
      { clearbody w L. clear - NW. induction l as [|r l IH]; intros NZ; cbn [product_over length cpow]; [ring|]. assert (NR := NZ r (or_introl eq_refl)). specialize (IH (fun x Hx => NZ x (or_intror Hx))).
        set (A := po _ l) in *. set (B := po _ l) in *. set (D := po _ l) in *. transitivity (Cmult (Cplus w (Cmult (Cinv r) (Cinv r))) (Cmult L A)); [ring|]. rewrite IH. field. split; assumption. }
      rewrite (GEN _ NZ), cheb1_length. reflexivity. }
    rewrite <- !RtoC_mult in Y. now apply (f_equal fst) in Y.
  Qed.
  Lemma cheb2_zeros_ratio g W : W <> 0 -> 4 ^ (n - 1) * (zero_modulus (0, W) (cheb2 n mu g) * zero_modulus (0, W) (cheb2 n mu g)) =
    zero_modulus (0, 0) (cheb2 n mu g) * zero_modulus (0, 0) (cheb2 n mu g) * W ^ (2 * n) * (T n (/ W) * T n (/ W)).
  Proof.
    intros HW. rewrite !zeros_square. rewrite (zero_ratio n (inds n) W HW) by (intros i Hi; apply sigma_pos in Hi; lra). rewrite (T_product n (/ W) HN), inds_length.
    set (a := rprod _ _). set (b := rprod _ _). replace (4 ^ (n - 1)) with (2 ^ (n - 1) * 2 ^ (n - 1)) by (rewrite <- Rpow_mult_distr; f_equal; ring). set (k := 2 ^ (n - 1)).
    pose proof (half_eq n) as X. destruct (Nat.odd n).
    - replace (W ^ (2 * n)) with (W ^ (4 * Nat.div2 n) * (W * W)) by (rewrite <- X at 2; replace (2 * (2 * Nat.div2 n + 1))%nat with (4 * Nat.div2 n + 2)%nat by lia; rewrite pow_add; cbn [pow]; ring). field. exact HW.
    - replace (W ^ (2 * n)) with (W ^ (4 * Nat.div2 n)) by (f_equal; lia). ring.
  Qed.
  Definition gain2 : R := pole_modulus (RtoC 0) (cheb2 n mu 1) / zero_modulus (RtoC 0) (cheb2 n mu 1).
  Lemma gain2_pos : 0 < gain2.
  Proof. unfold gain2. change (RtoC 0) with ((0, 0) : C). apply Rdiv_lt_0_compat; [apply cheb2_positive|apply cheb2_zero_positive]. Qed.
  Lemma cheb2_axis W : W <> 0 -> exists h, analog_value (cheb2 n mu gain2) (0, W) h /\ Cmod h = eps * Rabs (T n (/ W)) / sqrt (1 + eps * eps * (T n (/ W) * T n (/ W))).
  Proof.
    intros HW. pose proof gain2_pos as GP. destruct (modulus_value (cheb2 n mu gain2) (0, W) (cheb2_positive gain2 W)) as (h & V & M); [cbn [cheb2 pz_gain]; lra|]. exists h. split; [exact V|]. rewrite M. cbn [cheb2 pz_gain].
    pose proof (cheb2_poles_ratio gain2 W HW) as QP. pose proof (cheb2_zeros_ratio gain2 W HW) as QZ. pose proof (cheb2_positive gain2 W) as P. pose proof (cheb2_positive gain2 0) as P0. pose proof (cheb2_zero_positive gain2) as Z0.
    assert (EG : gain2 = pole_modulus (0, 0) (cheb2 n mu gain2) / zero_modulus (0, 0) (cheb2 n mu gain2)) by reflexivity.
    set (p := pole_modulus (0, W) (cheb2 n mu gain2)) in *. set (p0 := pole_modulus (0, 0) (cheb2 n mu gain2)) in *. set (z := zero_modulus (0, W) (cheb2 n mu gain2)) in *. set (z0 := zero_modulus (0, 0) (cheb2 n mu gain2)) in *.
    assert (ZP : 0 <= z) by (unfold z, zero_modulus; apply Cmod_ge_0). set (t := T n (/ W)) in *. set (q := 1 + eps * eps * (t * t)) in *. assert (Q0 : 0 < q) by (unfold q; assert (0 <= t * t) by nra; nra).
    assert (WP : W ^ (2 * n) <> 0) by (now apply pow_nonzero). set (w := W ^ (2 * n)) in *. pose proof (lead_pos n eps HE) as LP. unfold lead in *. assert (K : 0 < 4 ^ (n - 1)) by (apply pow_lt; lra). set (k := 4 ^ (n - 1)) in *.
    apply Rsqr_inj.
    - apply Rmult_le_pos; [apply Rmult_le_pos; lra|left; apply Rinv_0_lt_compat; lra].
    - apply Rmult_le_pos; [apply Rmult_le_pos; [lra|apply Rabs_pos]|left; apply Rinv_0_lt_compat, sqrt_lt_R0; lra].
    - unfold Rsqr. rewrite EG. pose proof (sqrt_lt_R0 q Q0) as SQ. pose proof (sqrt_sqrt q ltac:(lra)) as SS. assert (RT : Rabs t * Rabs t = t * t) by (rewrite <- Rabs_mult; apply Rabs_pos_eq; nra).
      replace (eps * Rabs t / sqrt q * (eps * Rabs t / sqrt q)) with (eps * eps * (Rabs t * Rabs t) / (sqrt q * sqrt q)) by (field; lra). rewrite SS, RT.
      replace (p0 / z0 * z / p * (p0 / z0 * z / p)) with (p0 * p0 * (z * z) / (z0 * z0 * (p * p))) by (field; split; lra).
      assert (EZ : z * z = z0 * z0 * w * (t * t) / k) by (rewrite <- QZ; field; lra). assert (EP : p * p = p0 * p0 * w * q / (eps * eps * k)) by (rewrite <- QP; field; lra). rewrite EZ, EP. field. repeat split; lra || assumption.
  Qed.
  Lemma cheb2_dc : analog_value (cheb2 n mu gain2) (RtoC 0) (RtoC 1).
  Proof.
    pose proof gain2_pos as GP. destruct (modulus_value (cheb2 n mu gain2) (0, 0) (cheb2_positive gain2 0)) as (h & V & M); [cbn [cheb2 pz_gain]; lra|].
    destruct (positive_value (cheb2 n mu gain2) 0) as (g & GG & VG).
    - intros r Hr. apply in_app_iff in Hr. destruct Hr as [Hr|Hr]; [apply cheb2_zero in Hr|apply cheb2_left in Hr]; split; try lra; intros E; rewrite E in Hr; cbn in Hr; lra.
    - lra.
    - exact gain2_pos.
    - assert (EH : h = RtoC g) by (destruct V as [_ ->]; destruct VG as [_ ->]; reflexivity). rewrite EH, Cmod_R, Rabs_pos_eq in M by lra.
      assert (E1 : g = 1). { rewrite M. cbn [cheb2 pz_gain]. unfold gain2. change (RtoC 0) with ((0, 0) : C). change (pole_modulus (0, 0) (cheb2 n mu (pole_modulus (0, 0) (cheb2 n mu 1) / zero_modulus (0, 0) (cheb2 n mu 1)))) with (pole_modulus (0, 0) (cheb2 n mu 1)). change (zero_modulus (0, 0) (cheb2 n mu (pole_modulus (0, 0) (cheb2 n mu 1) / zero_modulus (0, 0) (cheb2 n mu 1)))) with (zero_modulus (0, 0) (cheb2 n mu 1)).
        pose proof (cheb2_positive 1 0). pose proof (cheb2_zero_positive 1). field. split; lra. }
      now rewrite E1 in VG.
  Qed.
  Lemma cheb2_prototype_ok : lowpass_prototype (cheb2 n mu gain2).
  Proof.
    unfold lowpass_prototype. rewrite cheb2_length, cheb2_zeros_length. pose proof (half_eq n) as X. split; [intros p; apply cheb2_left|]. split; [|split; [lia|split; [lia|exact gain2_pos]]].
    intros z Hz. apply cheb2_zero in Hz. split; [lra|]. intros E. rewrite E in Hz. cbn in Hz. lra.
  Qed.
  Lemma cheb2_tame_paired g t : (Z.of_nat n <= 25000)%Z -> 0 < t -> lone_zeros (cheb2 n mu g) = [] /\ (length (lone_poles (cheb2 n mu g)) <= 1)%nat /\ forall r, In r (paired_zeros (cheb2 n mu g) ++ paired_poles (cheb2 n mu g)) -> / 100000 * Cmod (Cminus (RtoC 1) (Cmult (RtoC t) r)) < Cmod (Cplus (RtoC 1) (Cmult (RtoC t) r)).
  Proof.
    intros H HT. pose proof (mu_pos n eps HN HE) as M. fold mu in M. split; [reflexivity|]. split; [cbn [cheb2 lone_poles]; destruct (Nat.odd n); cbn; lia|].
    intros r Hr. cbn [cheb2 paired_zeros paired_poles] in Hr. apply in_app_iff in Hr. destruct Hr as [Hr|Hr]; apply in_map_iff in Hr; destruct Hr as (i & <- & Hi).
    - unfold zero2. set (q := 1 / sin (theta n i)).
      replace (Cmod (Cminus (RtoC 1) (Cmult (RtoC t) (0, q)))) with (Cmod (Cplus (RtoC 1) (Cmult (RtoC t) (0, q)))).
      + set (y := Cplus _ _). assert (0 < Cmod y); [|lra]. apply Cmod_gt_0. intros E. apply (f_equal fst) in E. unfold y in E. cbn in E. lra.
      + rewrite <- Cmod_Cconj. f_equal. apply injective_projections; cbn; ring.
    - apply inds_spec in Hi. destruct Hi as [Hi _]. apply tame_ray with (s := sin (theta n i)); [exact HT| |now apply theta_sin|].
      + rewrite pole2_is by (try exact M; lia). pose proof (pole1_left n mu i M ltac:(lia)) as L. destruct (pole1 mu n i) as [x y]. cbn in *. assert (0 < x * (x * 1) + - y * (- y * 1)) by nra.
        replace (x / (x * (x * 1) + - y * (- y * 1))) with (- (- x / (x * (x * 1) + - y * (- y * 1)))) by (field; lra). assert (0 < - x / (x * (x * 1) + - y * (- y * 1))) by (apply Rdiv_lt_0_compat; lra). lra.
      + rewrite pole2_is by (try exact M; lia). pose proof (pole1_ray n mu i) as Q. pose proof (pole1_left n mu i M ltac:(lia)) as L. destruct (pole1 mu n i) as [x y]. set (s := sin (theta n i)) in *. cbn in *. set (R2 := x * (x * 1) + - y * (- y * 1)). assert (HR : 0 < R2) by (unfold R2; nra).
        assert (ER : x * x + y * y = R2) by (unfold R2; ring). rewrite ER in Q.
        replace (x / R2 * (x / R2) + - - y / R2 * (- - y / R2)) with (R2 * / (R2 * R2)) by (rewrite <- ER at 1; field; lra). replace (- - y / R2 * (- - y / R2)) with (y * y * / (R2 * R2)) by (field; lra).
        rewrite <- Rmult_assoc. apply Rmult_le_compat_r; [left; apply Rinv_0_lt_compat; nra|exact Q].
  Qed.
  Lemma cheb2_tame g t : (Z.of_nat n <= 25000)%Z -> 0 < t -> tame t (cheb2 n mu g).
  Proof. intros. right. now apply cheb2_tame_paired. Qed.
End Cheb2.
Lemma chebyshev2_is n db : (1 <= n)%nat -> 0 < db -> chebyshev2_prototype (Z.of_nat n) db = Ok (cheb2 n (arcsinh (1 / (1 / ripple db)) / INR n) (gain2 n (1 / ripple db))).
Proof.
  intros H HD. destruct (ripple_pos db HD) as [RP RS]. assert (EP : 0 < 1 / ripple db) by (apply Rdiv_lt_0_compat; lra). unfold chebyshev2_prototype. replace (1 <=? Z.of_nat n)%Z with true by lia. cbn [ocheck]. destruct (Rltb_spec 0 db) as [_|X]; [|lra]. cbn [ocheck]. fold (ripple db). cbv zeta.
  rewrite <- INR_IZR_INZ. pose proof (loop2_is n (arcsinh (1 / (1 / ripple db)) / INR n)) as L. cbv zeta in L. rewrite L. clear L.
  rewrite unit_dc_is; [reflexivity|reflexivity|exact (cheb2_positive n (1 / ripple db) H EP 1 0)|exact (cheb2_zero_positive n (1 / ripple db) 1)].
Qed.

(* ---------- digital filters ---------- *)
Lemma tan_neq g fs : - (fs / 2) < g < fs / 2 -> g <> 0 -> tan (PI * g / fs) <> 0.
Proof.
  intros H G0. destruct (half_range g fs H) as [F _]. destruct (Rlt_le_dec 0 g) as [P|P].
  - assert (0 < tan (PI * g / fs)) by (apply tan_pos; lra). lra.
  - assert (0 < tan (PI * (- g) / fs)) by (apply tan_pos; lra). replace (PI * - g / fs) with (- (PI * g / fs)) in H0 by (field; lra). rewrite tan_neg in H0. lra.
Qed.
Lemma cheb1_dc n eps : (1 <= n)%nat -> 0 < eps -> exists h, analog_value (cheb1 n (arcsinh (1 / eps) / INR n) (gain1 n eps)) (RtoC 0) h /\ Cmod h = / sqrt (1 + eps * eps * (T n 0 * T n 0)).
Proof. intros H HE. exact (cheb1_axis n eps H HE 0). Qed.
Lemma chebyshev1_lowpass_ok n db fs fc : (1 <= n)%nat -> (Z.of_nat n <= 25000)%Z -> 0 < db -> 0 < fc -> fc < fs / 2 ->
  exists cs, lowpass_filter (chebyshev1_prototype (Z.of_nat n) db) fs fc = Ok cs /\ stable_cascade cs /\
    (forall g, - (fs / 2) < g < fs / 2 -> exists h, cascade_value cs (on_circle g fs) h /\ Cmod h = / sqrt (1 + (Rpower 10 (db / 10) - 1) * (T n (tan (PI * g / fs) / tan (PI * fc / fs))) ^ 2)) /\
    cascade_value cs (RtoC (-1)) (RtoC 0).
Proof.
  intros H HN HD H1 H2. destruct (ripple_pos db HD) as [RP RS]. pose proof (cheb1_prototype_ok n _ H RP) as L. rewrite chebyshev1_is by assumption. pose proof (mu_pos n _ H RP) as M.
  destruct (lowpass_response _ fs fc L H1 H2 (cheb1_tame n _ _ _ H HN M (tan_pos fc fs H1 H2))) as (cs & E & S1 & V & N & _). exists cs. split; [exact E|]. split; [exact S1|]. split.
  - intros g G. destruct (cheb1_axis n _ H RP (tan (PI * g / fs) / tan (PI * fc / fs))) as (h & VH & MH). exists h. split; [now apply V|]. rewrite MH, RS. f_equal. f_equal. ring.
  - apply N. rewrite cheb1_length. cbn. lia.
Qed.
Lemma chebyshev1_highpass_ok n db fs fc : (1 <= n)%nat -> (Z.of_nat n <= 25000)%Z -> 0 < db -> 0 < fc -> fc < fs / 2 ->
  exists cs, highpass_filter (chebyshev1_prototype (Z.of_nat n) db) fs fc = Ok cs /\ stable_cascade cs /\
    (forall g, - (fs / 2) < g < fs / 2 -> g <> 0 -> exists h, cascade_value cs (on_circle g fs) h /\ Cmod h = / sqrt (1 + (Rpower 10 (db / 10) - 1) * (T n (tan (PI * fc / fs) / tan (PI * g / fs))) ^ 2)) /\
    cascade_value cs (RtoC 1) (RtoC 0) /\
    (exists h, cascade_value cs (RtoC (-1)) h /\ Cmod h = / sqrt (1 + (Rpower 10 (db / 10) - 1) * (T n 0) ^ 2)).
Proof.
  intros H HN HD H1 H2. destruct (ripple_pos db HD) as [RP RS]. pose proof (cheb1_prototype_ok n _ H RP) as L. rewrite chebyshev1_is by assumption. pose proof (mu_pos n _ H RP) as M.
  destruct (highpass_response _ fs fc L H1 H2 (cheb1_tame n _ _ _ H HN M (Rinv_0_lt_compat _ (tan_pos fc fs H1 H2)))) as (cs & E & S1 & V & N & NY). exists cs. split; [exact E|]. split; [exact S1|]. split; [|split].
  - intros g G G0. destruct (cheb1_axis n _ H RP (- (tan (PI * fc / fs) / tan (PI * g / fs)))) as (h & VH & MH). exists h. split; [now apply V|]. rewrite MH, RS, T_sq_opp. f_equal. f_equal. ring.
  - apply N. rewrite cheb1_length. cbn. lia.
  - destruct (cheb1_dc n _ H RP) as (h & VH & MH). exists h. split; [now apply NY|]. rewrite MH, RS. f_equal. f_equal. ring.
Qed.
(* eps = 1 / ripple *)
Lemma stop_gain db t : 0 < db -> 1 / ripple db * Rabs t / sqrt (1 + 1 / ripple db * (1 / ripple db) * (t * t)) = Rabs t / sqrt (Rpower 10 (db / 10) - 1 + t ^ 2).
Proof.
  intros HD. destruct (ripple_pos db HD) as [RP RS]. set (r := ripple db) in *. assert (0 <= t * t) by nra.
  assert (Q : sqrt (1 + 1 / r * (1 / r) * (t * t)) = sqrt (Rpower 10 (db / 10) - 1 + t ^ 2) / r).
  { rewrite <- RS. replace (1 + 1 / r * (1 / r) * (t * t)) with ((r * r + t ^ 2) / (r * r)) by (field; lra). rewrite sqrt_div_alt by nra. rewrite sqrt_square by lra. reflexivity. }
  rewrite Q. assert (0 < sqrt (Rpower 10 (db / 10) - 1 + t ^ 2)) by (apply sqrt_lt_R0; rewrite <- RS; nra). field. lra.
Qed.
Lemma chebyshev2_lowpass_ok n db fs fc : (1 <= n)%nat -> (Z.of_nat n <= 25000)%Z -> 0 < db -> 0 < fc -> fc < fs / 2 ->
  exists cs, lowpass_filter (chebyshev2_prototype (Z.of_nat n) db) fs fc = Ok cs /\ stable_cascade cs /\
    cascade_value cs (RtoC 1) (RtoC 1) /\
    (forall g, - (fs / 2) < g < fs / 2 -> g <> 0 -> exists h, cascade_value cs (on_circle g fs) h /\
       let t := T n (tan (PI * fc / fs) / tan (PI * g / fs)) in Cmod h = Rabs t / sqrt (Rpower 10 (db / 10) - 1 + t ^ 2)) /\
    (Nat.odd n = true -> cascade_value cs (RtoC (-1)) (RtoC 0)).
Proof.
  intros H HN HD H1 H2. destruct (ripple_pos db HD) as [RP RS]. assert (EP : 0 < 1 / ripple db) by (apply Rdiv_lt_0_compat; lra). pose proof (cheb2_prototype_ok n _ H EP) as L. rewrite chebyshev2_is by assumption. pose proof (tan_pos fc fs H1 H2) as TP.
  destruct (lowpass_response _ fs fc L H1 H2 (cheb2_tame n _ H EP _ _ HN TP)) as (cs & E & S1 & V & N & _). exists cs. split; [exact E|]. split; [exact S1|]. split; [|split].
  - assert (Z : on_circle 0 fs = RtoC 1) by (unfold on_circle; replace (2 * PI * 0 / fs) with 0 by (field; lra); rewrite cos_0, sin_0; reflexivity). rewrite <- Z at 1. apply V; [lra|]. replace (PI * 0 / fs) with 0 by (field; lra). rewrite tan_0. replace (0 / tan (PI * fc / fs)) with 0 by (field; lra). exact (cheb2_dc n _ H EP).
  - intros g G G0. assert (TG : tan (PI * g / fs) <> 0).
    { now apply tan_neq. }
    destruct (cheb2_axis n _ H EP (tan (PI * g / fs) / tan (PI * fc / fs))) as (h & VH & MH); [intros X; apply TG; apply (f_equal (fun x => x * tan (PI * fc / fs))) in X; unfold Rdiv in X; rewrite Rmult_assoc, Rinv_l, Rmult_0_l in X by lra; lra|].
    exists h. split; [now apply V|]. cbv zeta. rewrite MH, stop_gain by exact HD. replace (/ (tan (PI * g / fs) / tan (PI * fc / fs))) with (tan (PI * fc / fs) / tan (PI * g / fs)) by (field; split; lra || assumption). reflexivity.
  - intros O. apply N. rewrite cheb2_length, cheb2_zeros_length by assumption. pose proof (half_eq n) as X. rewrite O in X. lia.
Qed.
Lemma chebyshev2_highpass_ok n db fs fc : (1 <= n)%nat -> (Z.of_nat n <= 25000)%Z -> 0 < db -> 0 < fc -> fc < fs / 2 ->
  exists cs, highpass_filter (chebyshev2_prototype (Z.of_nat n) db) fs fc = Ok cs /\ stable_cascade cs /\
    cascade_value cs (RtoC (-1)) (RtoC 1) /\
    (forall g, - (fs / 2) < g < fs / 2 -> g <> 0 -> exists h, cascade_value cs (on_circle g fs) h /\
       let t := T n (tan (PI * g / fs) / tan (PI * fc / fs)) in Cmod h = Rabs t / sqrt (Rpower 10 (db / 10) - 1 + t ^ 2)) /\
    (Nat.odd n = true -> cascade_value cs (RtoC 1) (RtoC 0)).
Proof.
  intros H HN HD H1 H2. destruct (ripple_pos db HD) as [RP RS]. assert (EP : 0 < 1 / ripple db) by (apply Rdiv_lt_0_compat; lra). pose proof (cheb2_prototype_ok n _ H EP) as L. rewrite chebyshev2_is by assumption. pose proof (tan_pos fc fs H1 H2) as TP.
  destruct (highpass_response _ fs fc L H1 H2 (cheb2_tame n _ H EP _ _ HN (Rinv_0_lt_compat _ TP))) as (cs & E & S1 & V & N & NY). exists cs. split; [exact E|]. split; [exact S1|]. split; [|split].
  - apply NY. exact (cheb2_dc n _ H EP).
  - intros g G G0. set (a := tan (PI * fc / fs)) in *. destruct (Req_dec (tan (PI * g / fs)) 0) as [Z|NZ].
    + exfalso. revert Z. now apply tan_neq.
    + destruct (cheb2_axis n _ H EP (- (a / tan (PI * g / fs)))) as (h & VH & MH).
      { intros X. assert (X1 : a / tan (PI * g / fs) = 0) by lra. apply (f_equal (fun x => x * tan (PI * g / fs))) in X1. unfold Rdiv in X1. rewrite Rmult_assoc, Rinv_l, Rmult_0_l in X1 by exact NZ. lra. }
      exists h. split; [now apply V|]. cbv zeta. rewrite MH, stop_gain by exact HD. replace (/ - (a / tan (PI * g / fs))) with (- (tan (PI * g / fs) / a)) by (field; repeat split; lra || exact NZ || (intros X; lra)).
      assert (RA : Rabs (T n (- (tan (PI * g / fs) / a))) = Rabs (T n (tan (PI * g / fs) / a))) by (apply Rsqr_eq_abs_0; unfold Rsqr; apply T_sq_opp). assert (P2 : T n (- (tan (PI * g / fs) / a)) ^ 2 = T n (tan (PI * g / fs) / a) ^ 2) by (cbn [pow]; rewrite !Rmult_1_r; apply T_sq_opp). rewrite RA, P2. reflexivity.
  - intros O. apply N. rewrite cheb2_length, cheb2_zeros_length by assumption. pose proof (half_eq n) as X. rewrite O in X. lia.
Qed.
