From Verif Require Import Common ListLemmas RealUtil BiquadModel DesignModel DesignSpec DesignProofs DesignProofs2 DesignProofs3 CascadeModel CascadeSpec CascadeProofs CascadeProofs2 PoleZeroModel PoleZeroSpec PoleZeroProofs PoleZeroProofs2 PoleZeroProofs3 PoleZeroProofs4 PoleZeroProofs5 PolyRoots PoleZeroProofs6 PoleZeroProofs7 PoleZeroProofs8.
From Coquelicot Require Import Complex.
Local Open Scope R_scope.

Definition pole_modulus (s : C) (f : pole_zero) : R := Cmod (po (fun r => Cminus s r) (poles f)).
Definition zero_modulus (s : C) (f : pole_zero) : R := Cmod (po (fun r => Cminus s r) (zeros f)).
Lemma modulus_pos s l : (forall r, In r l -> r <> s) -> 0 < Cmod (po (fun r => Cminus s r) l).
Proof.
  intros H. apply Cmod_gt_0. apply po_neq. intros r Hr E. apply (H r Hr). transitivity (Cminus s (Cminus s r)); [ring|rewrite E; ring].
Qed.
Lemma modulus_value f s : 0 < pole_modulus s f -> 0 <= pz_gain f -> exists h, analog_value f s h /\ Cmod h = pz_gain f * zero_modulus s f / pole_modulus s f.
Proof.
  intros H HG. assert (N : po (fun r => Cminus s r) (poles f) <> RtoC 0) by (intros E; unfold pole_modulus in H; rewrite E, Cmod_0 in H; lra).
  eexists. split; [split; [exact N|reflexivity]|]. rewrite Cmod_div, Cmod_mult, Cmod_R, Rabs_pos_eq by assumption. reflexivity.
Qed.
Lemma unit_dc_is f : pz_gain f = 1 -> 0 < pole_modulus (RtoC 0) f -> 0 < zero_modulus (RtoC 0) f ->
  unit_dc_gain f = Ok (set_gain (pole_modulus (RtoC 0) f / zero_modulus (RtoC 0) f) f).
Proof.
  intros HG HP HZ. destruct (modulus_value f (RtoC 0) HP ltac:(lra)) as (h & V & M). destruct (eval_mod f (RtoC 0) h V) as (h' & E & M'). unfold unit_dc_gain. rewrite E. cbn [obind].
  rewrite M', M, HG. assert (0 < 1 * zero_modulus (RtoC 0) f / pole_modulus (RtoC 0) f) by (apply Rdiv_lt_0_compat; lra). destruct (Reqb_spec (1 * zero_modulus (RtoC 0) f / pole_modulus (RtoC 0) f) 0) as [X|X]; [lra|]. cbn [negb oguard]. f_equal. f_equal. field. lra.
Qed.

(* ---------- the loop over i ---------- *)
Definition inds (n : nat) : list Z := map (fun j => (Z.of_nat n - 1 - 2 * Z.of_nat j)%Z) (seq 0 (Nat.div2 n)).
Lemma half_eq n : (2 * Nat.div2 n + (if Nat.odd n then 1 else 0) = n)%nat.
Proof. pose proof (Nat.div2_odd n) as X. unfold Nat.b2n in X. lia. Qed.
Lemma indices_is n : chebyshev_indices (Z.of_nat n) = inds n ++ (if Nat.odd n then [0%Z] else []).
Proof.
  unfold chebyshev_indices, inds. pose proof (half_eq n) as H.
  replace (Z.to_nat (Z.quot (Z.of_nat n + 1) 2)) with (Nat.div2 n + (if Nat.odd n then 1 else 0))%nat.
  - rewrite seq_app, map_app. f_equal. destruct (Nat.odd n); [|reflexivity]. cbn [seq map]. f_equal. lia.
  - rewrite Z.quot_div_nonneg by lia. destruct (Nat.odd n).
    + replace (Z.of_nat n + 1)%Z with (Z.of_nat (Nat.div2 n + 1) * 2)%Z by lia. rewrite Z.div_mul by lia. lia.
    + replace (Z.of_nat n + 1)%Z with (1 + Z.of_nat (Nat.div2 n) * 2)%Z by lia. rewrite Z.div_add by lia. change (1 / 2)%Z with 0%Z. lia.
Qed.
Lemma inds_length n : length (inds n) = Nat.div2 n.
Proof. unfold inds. now rewrite map_length, seq_length. Qed.
Lemma inds_spec n i : In i (inds n) -> (0 < i < Z.of_nat n)%Z /\ (Z.rem (Z.of_nat n - i) 2 <> 0)%Z.
Proof.
  intros H. apply in_map_iff in H. destruct H as (j & <- & Hj). apply in_seq in Hj. pose proof (half_eq n) as X. split; [destruct (Nat.odd n); lia|].
  replace (Z.of_nat n - (Z.of_nat n - 1 - 2 * Z.of_nat j))%Z with (1 + Z.of_nat j * 2)%Z by lia. rewrite Z.rem_mod_nonneg, Z.mod_add by lia. discriminate.
Qed.
Lemma inds_nodup n : NoDup (inds n).
Proof. unfold inds. apply FinFun.Injective_map_NoDup; [|apply seq_NoDup]. intros a b E. lia. Qed.
Lemma odd_zero n : Nat.odd n = true -> (Z.rem (Z.of_nat n - 0) 2 <> 0)%Z.
Proof. intros H. pose proof (half_eq n) as X. rewrite H in X. rewrite <- X. replace (Z.of_nat (2 * Nat.div2 n + 1) - 0)%Z with (1 + Z.of_nat (Nat.div2 n) * 2)%Z by lia. rewrite Z.rem_mod_nonneg, Z.mod_add by lia. discriminate. Qed.
Lemma theta_range n i : (0 <= i < Z.of_nat n)%Z -> 0 <= theta n i < PI / 2 /\ ((0 < i)%Z -> PI / (2 * INR n) <= theta n i).
Proof.
  intros [H1 H2]. unfold theta, chebyshev_theta. apply IZR_le in H1. apply IZR_lt in H2. rewrite <- INR_IZR_INZ in *. pose proof PI_RGT_0 as P. assert (N : 0 < INR n) by lra.
  assert (Q : PI * IZR i / (2 * INR n) = PI / (2 * INR n) * IZR i) by (field; lra). assert (D : 0 < PI / (2 * INR n)) by (apply Rdiv_lt_0_compat; lra). rewrite Q. split; [split; [apply Rmult_le_pos; lra|]|].
  - replace (PI / 2) with (PI / (2 * INR n) * INR n) by (field; lra). now apply Rmult_lt_compat_l.
  - intros H. rewrite <- (Rmult_1_r (PI / (2 * INR n))) at 1. apply Rmult_le_compat_l; [lra|]. apply IZR_le. lia.
Qed.
Lemma theta_inj n i j : (1 <= n)%nat -> theta n i = theta n j -> i = j.
Proof.
  intros H E. unfold theta, chebyshev_theta in E. rewrite <- INR_IZR_INZ in E. assert (N : INR n <> 0) by (apply not_0_INR; lia). apply eq_IZR. pose proof PI_RGT_0 as P.
  apply (f_equal (fun x => x * (2 * INR n) / PI)) in E. replace (PI * IZR i / (2 * INR n) * (2 * INR n) / PI) with (IZR i) in E by (field; lra). replace (PI * IZR j / (2 * INR n) * (2 * INR n) / PI) with (IZR j) in E by (field; lra). exact E.
Qed.

(* ---------- Chebyshev type 1 ---------- *)
Definition cheb1 (n : nat) (mu g : R) : pole_zero :=
  {| lone_zeros := []; lone_poles := if Nat.odd n then [fst (pole1 mu n 0)] else []; paired_zeros := [];
     paired_poles := map (pole1 mu n) (inds n); pz_gain := g |}.
Lemma loop1 (pole : Z -> C) l : forall f, (forall i, In i l -> (0 < i)%Z) ->
  fold_left (fun f i => if (0 <? i)%Z then add_pole_pair (pole i) f else add_pole (fst (pole i)) f) l f = add_all add_pole_pair (map pole l) f.
Proof.
  induction l as [|i l IH]; intros f H; [reflexivity|]. cbn [fold_left map]. replace (0 <? i)%Z with true by (specialize (H i (or_introl eq_refl)); lia).
  rewrite IH by (intros j Hj; apply H; now right). unfold add_all. reflexivity.
Qed.
Lemma loop1_is n mu : fold_left (fun f i =>
       let pole := Copp (complex_sinh (mu, - chebyshev_theta (Z.of_nat n) i)) in
       if (0 <? i)%Z then add_pole_pair pole f else add_pole (fst pole) f)
     (chebyshev_indices (Z.of_nat n)) pz_new = cheb1 n mu 1.
Proof.
  assert (E : forall i, Copp (complex_sinh (mu, - chebyshev_theta (Z.of_nat n) i)) = pole1 mu n i).
  { intros i. unfold complex_sinh, pole1, theta. cbn [fst snd]. rewrite cos_neg, sin_neg. apply injective_projections; cbn; ring. }
  cbv zeta. rewrite indices_is, fold_left_app. rewrite (loop1 (fun i => Copp (complex_sinh (mu, - chebyshev_theta (Z.of_nat n) i))) (inds n)) by (intros i Hi; apply inds_spec in Hi; lia). rewrite add_pole_pairs, (map_ext _ _ E).
  destruct (Nat.odd n) eqn:O; cbn [fold_left]; unfold cheb1; rewrite O; [|reflexivity]. change (0 <? 0)%Z with false. cbv iota. rewrite E. reflexivity.
Qed.
Lemma cheb1_in n mu g (P : C -> Prop) : (forall i, In i (inds n) -> P (pole1 mu n i) /\ P (Cconj (pole1 mu n i))) -> (Nat.odd n = true -> P (pole1 mu n 0)) -> forall r, In r (poles (cheb1 n mu g)) -> P r.
Proof.
  intros H H0 r. unfold poles. rewrite in_roots. cbn [cheb1 lone_poles paired_poles]. intros [(x & Hx & ->)|[Hr|(q & Hr & ->)]].
  - destruct (Nat.odd n); [|destruct Hx]. destruct Hx as [<-|[]]. replace (RtoC (fst (pole1 mu n 0))) with (pole1 mu n 0); [now apply H0|].
    unfold pole1, theta, chebyshev_theta. apply injective_projections; cbn [fst snd RtoC]; [reflexivity|]. replace (PI * IZR 0 / (2 * IZR (Z.of_nat n))) with 0 by (cbn [IZR]; unfold Rdiv; ring). rewrite sin_0. ring.
  - apply in_map_iff in Hr. destruct Hr as (i & <- & Hi). now apply H.
  - apply in_map_iff in Hr. destruct Hr as (i & <- & Hi). now apply H.
Qed.
Lemma sinh_pos x : 0 < x -> 0 < sinh x.
Proof. intros H. rewrite <- sinh_0. now apply sinh_lt. Qed.
Lemma cosh_pos x : 0 < cosh x.
Proof. unfold cosh. pose proof (exp_pos x). pose proof (exp_pos (- x)). lra. Qed.
Lemma pole1_left n mu i : 0 < mu -> (0 <= i < Z.of_nat n)%Z -> fst (pole1 mu n i) < 0.
Proof.
  intros M H. destruct (theta_range n i H) as [[T1 T2] _]. cbn [pole1 fst]. assert (0 < cos (theta n i)) by (apply cos_gt_0; pose proof PI_RGT_0; lra). pose proof (sinh_pos mu M). nra.
Qed.
Lemma pole1_up n mu i : (0 < i < Z.of_nat n)%Z -> 0 < snd (pole1 mu n i).
Proof.
  intros H. destruct (theta_range n i ltac:(lia)) as [[T1 T2] T3]. cbn [pole1 snd]. pose proof PI_RGT_0 as P. apply Rmult_lt_0_compat; [apply cosh_pos|]. apply sin_gt_0; [|lra].
  assert (0 < INR n) by (apply lt_0_INR; lia). assert (0 < PI / (2 * INR n)) by (apply Rdiv_lt_0_compat; lra). specialize (T3 ltac:(lia)). lra.
Qed.
Lemma cheb1_left n mu g r : 0 < mu -> In r (poles (cheb1 n mu g)) -> fst r < 0.
Proof.
  intros M. revert r. apply (cheb1_in n mu g (fun r => fst r < 0)).
  - intros i Hi. apply inds_spec in Hi. pose proof (pole1_left n mu i M ltac:(lia)). split; [assumption|cbn [Cconj fst]; assumption].
  - intros O. apply pole1_left; [exact M|]. pose proof (half_eq n) as X. rewrite O in X. lia.
Qed.
Lemma cheb1_length n mu g : length (poles (cheb1 n mu g)) = n.
Proof. unfold poles. rewrite roots_length. cbn [cheb1 lone_poles paired_poles]. rewrite map_length, inds_length. pose proof (half_eq n) as X. destruct (Nat.odd n); cbn [length]; lia. Qed.
Lemma cheb1_nodup n mu g : (1 <= n)%nat -> 0 < mu -> NoDup (map nsq (poles (cheb1 n mu g))).
Proof.
  intros H M. unfold poles. rewrite nsq_roots. cbn [cheb1 lone_poles paired_poles]. rewrite map_map. apply NoDup_conj with (sg := 1).
  - destruct (Nat.odd n); repeat constructor. intros [].
  - intros r Hr. apply in_map_iff in Hr. destruct Hr as (x & <- & _). cbn. ring.
  - assert (Q : forall l, NoDup l -> (forall i, In i l -> (0 < i < Z.of_nat n)%Z) -> NoDup (map (fun i => nsq (pole1 mu n i)) l)).
    { induction 1 as [|i l NI N IH]; intros HL; cbn [map]; constructor; [|apply IH; intros j Hj; apply HL; now right].
      intros X. apply in_map_iff in X. destruct X as (j & EJ & Hj). apply NI. apply (f_equal fst) in EJ. cbn in EJ.
      destruct (theta_range n i ltac:(specialize (HL i (or_introl eq_refl)); lia)) as [T1 _]. destruct (theta_range n j ltac:(specialize (HL j (or_intror Hj)); lia)) as [T2 _].
      set (a := theta n i) in *. set (b := theta n j) in *. pose proof (sin2_cos2 a) as SA. pose proof (sin2_cos2 b) as SB. unfold Rsqr in SA, SB. pose proof (cosh_pos mu) as C0. pose proof (sinh_pos mu M) as C1.
      assert (EC : cos a * cos a = cos b * cos b).
      { replace (sin b) with (sin b) in EJ by reflexivity. assert (QQ : (sinh mu * sinh mu + cosh mu * cosh mu) * (cos a * cos a - cos b * cos b) = 0) by nra. apply Rmult_integral in QQ. destruct QQ as [QQ|QQ]; nra. }
      assert (CA : 0 < cos a) by (apply cos_gt_0; pose proof PI_RGT_0; lra). assert (CB : 0 < cos b) by (apply cos_gt_0; pose proof PI_RGT_0; lra).
      assert (EQ : cos a = cos b) by nra. apply cos_inj in EQ; [|lra|lra]. unfold a, b in EQ. apply theta_inj in EQ; [now subst j|exact H]. }
    apply Q; [apply inds_nodup|]. intros i Hi. now apply inds_spec in Hi.
  - intros r Hr. apply in_map_iff in Hr. destruct Hr as (i & <- & Hi). apply inds_spec in Hi. destruct Hi as [Hi _]. pose proof (pole1_left n mu i M ltac:(lia)) as L. pose proof (pole1_up n mu i Hi) as U. cbn [nsq Copp Cmult snd fst]. rewrite Rmult_1_l.
    destruct (pole1 mu n i) as [x y]. cbn [fst snd] in *. nra.
Qed.
Section Cheb1.
  Variables (n : nat) (eps : R).
  Hypotheses (HN : (1 <= n)%nat) (HE : 0 < eps).
  Let mu := arcsinh (1 / eps) / INR n.
  Lemma mu_pos : 0 < mu.
  Proof. unfold mu. apply Rdiv_lt_0_compat; [|apply lt_0_INR; lia]. rewrite <- arcsinh_0. apply arcsinh_lt. apply Rdiv_lt_0_compat; lra. Qed.
  Lemma cheb1_product g y : Cmult (RtoC (lead n eps)) (po (fun r => Cplus y (Cmult r r)) (poles (cheb1 n mu g))) = G n eps y.
  Proof.
    rewrite po_nsq. symmetry. apply factored.
    - apply cheb1_nodup; [exact HN|exact mu_pos].
    - rewrite map_length, cheb1_length. now apply G_leading.
    - intros r Hr. apply in_map_iff in Hr. destruct Hr as (p & <- & Hp). revert p Hp. apply (cheb1_in n mu g (fun p => G n eps (nsq p) = RtoC 0)).
      + intros i Hi. apply inds_spec in Hi. destruct Hi as [Hi Hr]. assert (R : G n eps (nsq (pole1 mu n i)) = RtoC 0) by now apply pole1_root. split; [exact R|]. rewrite nsq_conj.
        assert (Q : forall y, G n eps (Cconj y) = Cconj (G n eps y)).
        { intros z. assert (A : arg (Cconj z) = Cconj (arg z)) by (apply injective_projections; cbn; ring). unfold G. rewrite A. rewrite Cconj_plus, Cconj_mult', Cconj_plus, !Cconj_RtoC. f_equal. f_equal. f_equal. generalize (arg z). intros x. clear.
          induction n as [| |k A B] using pair_ind; [symmetry; apply Cconj_RtoC|reflexivity|]. rewrite !CT_SS, A, B, Cconj_minus, !Cconj_mult', Cconj_RtoC. reflexivity. }
        rewrite Q, R. apply Cconj_RtoC.
      + intros O. apply pole1_root; [exact HN|exact HE|now apply odd_zero].
  Qed.
  Lemma cheb1_modulus g W : lead n eps * (pole_modulus (0, W) (cheb1 n mu g) * pole_modulus (0, W) (cheb1 n mu g)) = 1 + eps * eps * (T n W * T n W).
  Proof.
    assert (X : RtoC (lead n eps * (pole_modulus (0, W) (cheb1 n mu g) * pole_modulus (0, W) (cheb1 n mu g))) = RtoC (1 + eps * eps * (T n W * T n W))).
    { rewrite RtoC_mult. unfold pole_modulus, poles. rewrite axis_modulus. fold (poles (cheb1 n mu g)). rewrite cheb1_product. apply G_real. }
    now apply (f_equal fst) in X.
  Qed.
  Lemma cheb1_positive g W : 0 < pole_modulus (0, W) (cheb1 n mu g).
  Proof. apply modulus_pos. intros r Hr E. apply (cheb1_left n mu g r mu_pos) in Hr. rewrite E in Hr. cbn in Hr. lra. Qed.
  Definition gain1 : R := pole_modulus (RtoC 0) (cheb1 n mu 1) / (if Nat.even n then sqrt (1 + eps * eps) else 1).
  Lemma root_pos : 0 < 1 + eps * eps.
  Proof. nra. Qed.
  Lemma gain1_sq : lead n eps * (gain1 * gain1) = 1.
  Proof.
    pose proof (cheb1_modulus 1 0) as M. rewrite T_0 in M. unfold gain1. change (RtoC 0) with ((0, 0) : C). pose proof root_pos as RP. pose proof (sqrt_lt_R0 _ RP) as SP. pose proof (sqrt_sqrt (1 + eps * eps) ltac:(lra)) as SQ.
    set (m := pole_modulus (0, 0) (cheb1 n mu 1)) in *. destruct (Nat.even n).
    - replace (lead n eps * (m / sqrt (1 + eps * eps) * (m / sqrt (1 + eps * eps)))) with (lead n eps * (m * m) / (sqrt (1 + eps * eps) * sqrt (1 + eps * eps))) by (field; lra). rewrite M, SQ. field. lra.
    - replace (m / 1 * (m / 1)) with (m * m) by field. rewrite M. ring.
  Qed.
  Lemma gain1_pos : 0 < gain1.
  Proof. unfold gain1. change (RtoC 0) with ((0, 0) : C). apply Rdiv_lt_0_compat; [apply cheb1_positive|]. destruct (Nat.even n); [apply sqrt_lt_R0, root_pos|lra]. Qed.
  Lemma cheb1_axis W : exists h, analog_value (cheb1 n mu gain1) (0, W) h /\ Cmod h = / sqrt (1 + eps * eps * (T n W * T n W)).
  Proof.
    pose proof gain1_pos as GP. destruct (modulus_value (cheb1 n mu gain1) (0, W) (cheb1_positive gain1 W)) as (h & V & M); [cbn [cheb1 pz_gain]; lra|]. exists h. split; [exact V|]. rewrite M. cbn [cheb1 pz_gain].
    pose proof (cheb1_modulus gain1 W) as Q. pose proof gain1_sq as QG. pose proof (cheb1_positive gain1 W) as P. set (m := pole_modulus (0, W) (cheb1 n mu gain1)) in *.
    replace (zero_modulus (0, W) (cheb1 n mu gain1)) with 1 by (unfold zero_modulus, zeros, roots; cbn [cheb1 lone_zeros paired_zeros map app product_over]; now rewrite Cmod_1).
    assert (Z : sqrt (1 + eps * eps * (T n W * T n W)) = m / gain1).
    { rewrite <- Q. rewrite <- (sqrt_square (m / gain1)) by (left; now apply Rdiv_lt_0_compat). f_equal. pose proof (lead_pos n eps HE) as LP. replace (m / gain1 * (m / gain1)) with (m * m * (lead n eps * (gain1 * gain1)) / (gain1 * gain1)) by (rewrite QG; field; lra). field. lra. }
    rewrite Z. field. split; lra.
  Qed.
  Lemma cheb1_prototype_ok : lowpass_prototype (cheb1 n mu gain1).
  Proof.
    unfold lowpass_prototype. rewrite cheb1_length. split; [intros p; apply cheb1_left, mu_pos|]. split; [intros z []|]. split; [lia|]. split; [cbn; lia|]. exact gain1_pos.
  Qed.
End Cheb1.
Definition ripple (db : R) : R := sqrt (Rpower 10 (db / 10) - 1).
Lemma Rpower_gt_1 x : 0 < x -> 1 < Rpower 10 x.
Proof. intros H. rewrite <- (Rpower_O 10) by lra. apply Rpower_lt; lra. Qed.
Lemma ripple_pos db : 0 < db -> 0 < ripple db /\ ripple db * ripple db = Rpower 10 (db / 10) - 1.
Proof. intros H. pose proof (Rpower_gt_1 (db / 10) ltac:(lra)). split; [apply sqrt_lt_R0; lra|]. unfold ripple. apply sqrt_sqrt. lra. Qed.
Lemma chebyshev1_is n db : (1 <= n)%nat -> 0 < db -> chebyshev1_prototype (Z.of_nat n) db = Ok (cheb1 n (arcsinh (1 / ripple db) / INR n) (gain1 n (ripple db))).
Proof.
  intros H HD. destruct (ripple_pos db HD) as [RP RS]. unfold chebyshev1_prototype. replace (1 <=? Z.of_nat n)%Z with true by lia. cbn [ocheck]. destruct (Rltb_spec 0 db) as [_|X]; [|lra]. cbn [ocheck]. fold (ripple db). cbv zeta.
  rewrite <- INR_IZR_INZ. pose proof (loop1_is n (arcsinh (1 / ripple db) / INR n)) as L. cbv zeta in L. rewrite L. clear L.
  assert (PM : 0 < pole_modulus (RtoC 0) (cheb1 n (arcsinh (1 / ripple db) / INR n) 1)) by (apply (cheb1_positive n (ripple db) H RP 1 0)).
  assert (ZM : zero_modulus (RtoC 0) (cheb1 n (arcsinh (1 / ripple db) / INR n) 1) = 1) by (unfold zero_modulus, zeros, roots; cbn [cheb1 lone_zeros paired_zeros map app product_over]; now rewrite Cmod_1).
  rewrite unit_dc_is; [|reflexivity|exact PM|rewrite ZM; lra]. cbn [obind]. f_equal. rewrite ZM.
  assert (OE : (Z.rem (Z.of_nat n) 2 =? 0)%Z = Nat.even n) by (rewrite <- Nat.negb_odd, <- odd_rem; now destruct (Z.rem (Z.of_nat n) 2 =? 0)%Z). rewrite OE. unfold gain1. cbv zeta. destruct (Nat.even n); unfold set_gain, cheb1; cbn [lone_zeros lone_poles paired_zeros paired_poles pz_gain]; f_equal; field. pose proof (sqrt_lt_R0 (1 + ripple db * ripple db) ltac:(nra)). lra.
Qed.
