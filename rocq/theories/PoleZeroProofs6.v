From Verif Require Import Common ListLemmas RealUtil BiquadModel DesignModel DesignSpec DesignProofs CascadeModel CascadeSpec CascadeProofs CascadeProofs2 PoleZeroModel PoleZeroSpec PoleZeroProofs PoleZeroProofs2 PoleZeroProofs3 PoleZeroProofs4 PoleZeroProofs5 PolyRoots.
From Coquelicot Require Import Complex.
Local Open Scope R_scope.

(* ---------- the modulus on the imaginary axis ---------- *)
Lemma po_conj g l : Cconj (po g l) = po (fun r => Cconj (g r)) l.
Proof. induction l as [|r l IH]; cbn [product_over]; [apply Cconj_RtoC|]. now rewrite Cconj_mult', IH. Qed.
Lemma Cconj_conj z : Cconj (Cconj z) = z.
Proof. apply injective_projections; cbn; ring. Qed.
Lemma po_roots_conj g lone paired : po (fun r => g (Cconj r)) (roots lone paired) = po g (roots lone paired).
Proof.
  rewrite !po_roots. f_equal.
  - apply po_ext. intros r Hr. apply in_map_iff in Hr. destruct Hr as (x & <- & _). now rewrite Cconj_RtoC.
  - apply po_ext. intros r _. rewrite Cconj_conj. ring.
Qed.
Lemma axis_modulus W lone paired : RtoC (Cmod (po (fun r => Cminus (0, W) r) (roots lone paired)) * Cmod (po (fun r => Cminus (0, W) r) (roots lone paired)))
  = po (fun r => Cplus (RtoC (W * W)) (Cmult r r)) (roots lone paired).
Proof.
  rewrite <- Cconj_mul, po_conj.
  rewrite (po_ext (fun r => Cconj (Cminus (0, W) r)) (fun r => Cminus (0, - W) (Cconj r))) by (intros r _; rewrite Cconj_minus; reflexivity).
  rewrite (po_roots_conj (fun r => Cminus (0, - W) r)), <- po_mul. apply po_ext. intros r _. destruct r as [x y]. apply injective_projections; cbn; ring.
Qed.
Definition nsq (r : C) : C := Copp (Cmult r r).
Lemma nsq_conj r : nsq (Cconj r) = Cconj (nsq r).
Proof. apply injective_projections; cbn; ring. Qed.
Lemma po_nsq y l : po (fun r => Cplus y (Cmult r r)) l = po (fun r => Cminus y r) (map nsq l).
Proof. rewrite po_map. apply po_ext. intros r _. unfold nsq. ring. Qed.
Lemma nsq_roots lone paired : map nsq (roots lone paired) = map (fun x => nsq (RtoC x)) lone ++ map nsq paired ++ map Cconj (map nsq paired).
Proof. unfold roots. rewrite !map_app, !map_map. f_equal. f_equal. apply map_ext. intros r. apply nsq_conj. Qed.
Lemma nodup_app {A} (l m : list A) : NoDup l -> NoDup m -> (forall x, In x l -> ~ In x m) -> NoDup (l ++ m).
Proof.
  induction 1 as [|a l NI N IH]; intros NM H; cbn [app]; [exact NM|]. constructor.
  - intros X. apply in_app_iff in X. destruct X as [X|X]; [contradiction|]. exact (H a (or_introl eq_refl) X).
  - apply IH; [exact NM|]. intros x Hx. apply H. now right.
Qed.
Lemma NoDup_conj (sg : R) (l0 l : list C) : NoDup l0 -> (forall r, In r l0 -> snd r = 0) -> NoDup l -> (forall r, In r l -> 0 < sg * snd r) -> NoDup (l0 ++ l ++ map Cconj l).
Proof.
  intros N0 H0 N H.
  assert (NC : NoDup (map Cconj l)).
  { apply FinFun.Injective_map_NoDup; [|exact N]. intros a b E. apply (f_equal Cconj) in E. now rewrite !Cconj_conj in E. }
  assert (HC : forall r, In r (map Cconj l) -> sg * snd r < 0).
  { intros r Hr. apply in_map_iff in Hr. destruct Hr as (x & <- & Hx). specialize (H x Hx). cbn [Cconj snd]. lra. }
  apply nodup_app; [exact N0| |].
  - apply nodup_app; [exact N|exact NC|]. intros x Hx Hy. specialize (H x Hx). specialize (HC x Hy). lra.
  - intros x Hx Hy. specialize (H0 x Hx). apply in_app_iff in Hy. destruct Hy as [Hy|Hy]; [specialize (H x Hy)|specialize (HC x Hy)]; rewrite H0 in *; lra.
Qed.

(* ---------- Butterworth ---------- *)
Definition cis (x : R) : C := (cos x, sin x).
Lemma cis_add x y : Cmult (cis x) (cis y) = cis (x + y).
Proof. unfold cis. rewrite cos_plus, sin_plus. apply injective_projections; cbn; ring. Qed.
Lemma cis_pow x n : cpow (cis x) n = cis (INR n * x).
Proof. induction n as [|n IH]; cbn [cpow]; [unfold cis; cbn [INR]; rewrite Rmult_0_l, cos_0, sin_0; reflexivity|]. rewrite IH, cis_add. f_equal. rewrite S_INR. ring. Qed.
Lemma cis_period x k : cis (x + 2 * INR k * PI) = cis x.
Proof. unfold cis. now rewrite cos_period, sin_period. Qed.
Lemma cis_pi : cis PI = RtoC (-1).
Proof. unfold cis. rewrite cos_PI, sin_PI. reflexivity. Qed.
Lemma cis_nsq x : nsq (cis x) = cis (2 * x + PI).
Proof. unfold nsq. rewrite cis_add, <- cis_add with (y := PI), cis_pi, RtoC_m1. replace (2 * x) with (x + x) by ring. ring. Qed.
Lemma Cmod_cis x : Cmod (cis x) = 1.
Proof. apply Rsqr_inj; [apply Cmod_ge_0|lra|]. unfold Rsqr. rewrite Cmod2. cbn [cis fst snd]. pose proof (sin2_cos2 x) as H. unfold Rsqr in H. lra. Qed.

(* angle between the pole and the negative real axis *)
Definition pole_angle (n : nat) (i : nat) : R := PI / INR n * (INR i + 1 - (if Nat.odd n then 0 else 1) * (1 / 2)).
Definition butterworth (n : nat) : pole_zero :=
  {| lone_zeros := []; lone_poles := if Nat.odd n then [-1] else []; paired_zeros := [];
     paired_poles := map (fun i => cis (PI - pole_angle n i)) (seq 0 (Nat.div2 n)); pz_gain := 1 |}.
Lemma odd_rem n : negb (Z.rem (Z.of_nat n) 2 =? 0)%Z = Nat.odd n.
Proof.
  rewrite Z.rem_mod_nonneg by lia. destruct (Nat.odd n) eqn:E.
  - apply Nat.odd_spec in E. destruct E as [k ->]. replace (Z.of_nat (2 * k + 1)) with (1 + Z.of_nat k * 2)%Z by lia. rewrite Z.mod_add by lia. reflexivity.
  - assert (EV : Nat.even n = true) by (rewrite <- Nat.negb_odd, E; reflexivity). apply Nat.even_spec in EV. destruct EV as [k ->]. replace (Z.of_nat (2 * k)) with (0 + Z.of_nat k * 2)%Z by lia. rewrite Z.mod_add by lia. reflexivity.
Qed.
Lemma pole_is n i : butterworth_pole (Z.of_nat n) i = cis (PI - pole_angle n i).
Proof. unfold butterworth_pole, pole_angle, cis. rewrite odd_rem, <- INR_IZR_INZ. reflexivity. Qed.
Lemma butterworth_poles_unit n p : In p (poles (butterworth n)) -> Cmod p = 1.
Proof.
  unfold poles. rewrite in_roots. cbn [butterworth lone_poles paired_poles]. intros [(x & Hx & ->)|[H|(q & H & ->)]].
  - destruct (Nat.odd n); [|destruct Hx]. destruct Hx as [<-|[]]. rewrite Cmod_R, Rabs_left; lra.
  - apply in_map_iff in H. destruct H as (i & <- & _). apply Cmod_cis.
  - apply in_map_iff in H. destruct H as (i & <- & _). rewrite Cmod_Cconj. apply Cmod_cis.
Qed.
Lemma po_mod g l : Cmod (po g l) = fold_right (fun r x => Cmod (g r) * x) 1 l.
Proof. induction l as [|r l IH]; cbn [product_over fold_right]; [apply Cmod_1|]. now rewrite Cmod_mult, IH. Qed.
Lemma po_unit g l : (forall r, In r l -> Cmod (g r) = 1) -> Cmod (po g l) = 1.
Proof. intros H. rewrite po_mod. induction l as [|r l IH]; cbn [fold_right]; [reflexivity|]. rewrite H, IH; [lra|intros x Hx; apply H; now right|now left]. Qed.
Lemma butterworth_is n : (1 <= n)%nat -> butterworth_prototype (Z.of_nat n) = Ok (butterworth n).
Proof.
  intros H. unfold butterworth_prototype. replace (1 <=? Z.of_nat n)%Z with true by lia. cbn [ocheck]. rewrite add_pole_pairs, odd_rem.
  replace (Z.to_nat (Z.quot (Z.of_nat n) 2)) with (Nat.div2 n) by (rewrite Z.quot_div_nonneg, Nat.div2_div by lia; change 2%Z with (Z.of_nat 2); rewrite <- Nat2Z.inj_div; lia).
  cbn [pz_new lone_zeros lone_poles paired_zeros paired_poles pz_gain app]. rewrite (map_ext _ _ (pole_is n)). set (f := if Nat.odd n then _ else _).
  assert (EF : f = butterworth n) by (unfold f, butterworth; destruct (Nat.odd n); reflexivity). rewrite EF. unfold unit_dc_gain.
  rewrite eval_ok by (intros p Hp E; apply butterworth_poles_unit in Hp; rewrite E, Cmod_0 in Hp; lra). cbn [obind].
  assert (U : Cmod (po (fun p => Cminus p (RtoC 0)) (poles (butterworth n))) = 1) by (apply po_unit; intros r Hr; replace (Cminus r (RtoC 0)) with r by ring; now apply butterworth_poles_unit in Hr).
  rewrite Cmod_div by (intros X; rewrite X, Cmod_0 in U; lra). rewrite U. cbn [butterworth zeros lone_zeros paired_zeros pz_gain roots map app product_over]. unfold zeros, roots. cbn [butterworth lone_zeros paired_zeros map app product_over].
  rewrite Cmod_mult, Cmod_1. replace (1 * 1 / 1) with 1 by field. destruct (Reqb_spec 1 0) as [X|_]; [lra|]. cbn [negb oguard]. f_equal. unfold set_gain, butterworth. cbn [lone_zeros lone_poles paired_zeros paired_poles]. f_equal. field.
Qed.
Lemma pole_angle_range n i : (i < Nat.div2 n)%nat -> 0 < pole_angle n i < PI / 2.
Proof.
  intros H. unfold pole_angle. pose proof PI_RGT_0 as HP.
  assert (H2 : (2 * Nat.div2 n + (if Nat.odd n then 1 else 0) = n)%nat).
  { pose proof (Nat.div2_odd n) as X. unfold Nat.b2n in X. lia. }
  assert (HN : 0 < INR n) by (apply lt_0_INR; lia). apply le_INR in H. rewrite S_INR in H. apply (f_equal INR) in H2. rewrite plus_INR, mult_INR in H2. cbn [INR] in H2. pose proof (pos_INR i) as HI.
  assert (Q : forall a, 0 < a -> 2 * a < INR n -> 0 < PI / INR n * a < PI / 2).
  { intros a A1 A2. split; [apply Rmult_lt_0_compat; [now apply Rdiv_lt_0_compat|exact A1]|]. replace (PI / 2) with (PI / INR n * (INR n / 2)) by (field; lra). apply Rmult_lt_compat_l; [now apply Rdiv_lt_0_compat|lra]. }
  destruct (Nat.odd n); cbn [INR] in H2; apply Q; lra.
Qed.
Lemma butterworth_lowpass_prototype n : (1 <= n)%nat -> lowpass_prototype (butterworth n) /\ length (poles (butterworth n)) = n /\ zeros (butterworth n) = [].
Proof.
  intros H. assert (L : length (poles (butterworth n)) = n).
  { unfold poles. rewrite roots_length. cbn [butterworth lone_poles paired_poles]. rewrite map_length, seq_length. pose proof (Nat.div2_odd n) as X. unfold Nat.b2n in X. destruct (Nat.odd n); cbn [length]; lia. }
  assert (HZ : zeros (butterworth n) = []) by reflexivity.
  assert (HC : forall i, (i < Nat.div2 n)%nat -> cos (PI - pole_angle n i) < 0).
  { intros i Hi. destruct (pole_angle_range n i Hi). rewrite cos_minus, cos_PI, sin_PI. assert (0 < cos (pole_angle n i)) by (apply cos_gt_0; lra). lra. }
  split; [|split; [exact L|exact HZ]]. unfold lowpass_prototype. rewrite HZ, L. split; [|split; [intros z []|split; [lia|split; [cbn; lia|cbn; lra]]]].
  intros p. unfold poles. rewrite in_roots. cbn [butterworth lone_poles paired_poles]. intros [(x & Hx & ->)|[Hp|(q & Hp & ->)]].
  - destruct (Nat.odd n); [|destruct Hx]. destruct Hx as [<-|[]]. cbn. lra.
  - apply in_map_iff in Hp. destruct Hp as (i & <- & Hi). apply in_seq in Hi. cbn [cis fst]. apply HC. lia.
  - apply in_map_iff in Hp. destruct Hp as (i & <- & Hi). apply in_seq in Hi. cbn [cis Cconj fst]. apply HC. lia.
Qed.
Lemma pole_angle_n n i : (1 <= n)%nat -> INR n * pole_angle n i = PI * (INR i + 1 - (if Nat.odd n then 0 else 1) * (1 / 2)).
Proof. intros H. unfold pole_angle. field. apply not_0_INR. lia. Qed.
Lemma even_pi n : Nat.odd n = false -> cis (INR n * PI) = RtoC 1.
Proof.
  intros E. assert (EV : Nat.even n = true) by (rewrite <- Nat.negb_odd, E; reflexivity). apply Nat.even_spec in EV. destruct EV as [k ->].
  replace (INR (2 * k) * PI) with (0 + 2 * INR k * PI) by (rewrite mult_INR; cbn [INR]; ring). rewrite cis_period. unfold cis. rewrite cos_0, sin_0. reflexivity.
Qed.
Lemma odd_pi n : Nat.odd n = true -> cis (INR n * PI) = RtoC (-1).
Proof.
  intros E. apply Nat.odd_spec in E. destruct E as [k ->]. replace (INR (2 * k + 1) * PI) with (PI + 2 * INR k * PI) by (rewrite plus_INR, mult_INR; cbn [INR]; ring). now rewrite cis_period, cis_pi.
Qed.
Lemma butterworth_root n r : (1 <= n)%nat -> In r (poles (butterworth n)) -> cpow (nsq r) n = RtoC (-1).
Proof.
  intros H. assert (P : forall i, cpow (nsq (cis (PI - pole_angle n i))) n = RtoC (-1)).
  { intros i. rewrite cis_nsq, cis_pow. replace (INR n * (2 * (PI - pole_angle n i) + PI)) with (INR n * PI + 2 * INR n * PI - 2 * (INR n * pole_angle n i)) by ring. rewrite pole_angle_n by exact H.
    rewrite <- (cis_period _ (i + 1)). rewrite plus_INR. change (INR 1) with 1. destruct (Nat.odd n) eqn:E.
    - replace (INR n * PI + 2 * INR n * PI - 2 * (PI * (INR i + 1 - 0 * (1 / 2))) + 2 * (INR i + 1) * PI) with (INR n * PI + 2 * INR n * PI) by field. rewrite cis_period. now apply odd_pi.
    - replace (INR n * PI + 2 * INR n * PI - 2 * (PI * (INR i + 1 - 1 * (1 / 2))) + 2 * (INR i + 1) * PI) with ((PI + INR n * PI) + 2 * INR n * PI) by field. rewrite cis_period, <- cis_add, cis_pi, even_pi by exact E. ring. }
  unfold poles. rewrite in_roots. cbn [butterworth lone_poles paired_poles]. intros [(x & Hx & ->)|[Hr|(q & Hr & ->)]].
  - destruct (Nat.odd n) eqn:E; [|destruct Hx]. destruct Hx as [<-|[]]. replace (nsq (RtoC (-1))) with (cis PI) by (rewrite cis_pi; apply injective_projections; cbn; ring). rewrite cis_pow. now apply odd_pi.
  - apply in_map_iff in Hr. destruct Hr as (i & <- & _). apply P.
  - apply in_map_iff in Hr. destruct Hr as (i & <- & _). rewrite nsq_conj. rewrite <- (Cconj_RtoC (-1)), <- (P i). generalize (nsq (cis (PI - pole_angle n i))). intros c. clear. induction n as [|n IH]; cbn [cpow]; [symmetry; apply Cconj_RtoC|]. now rewrite Cconj_mult', IH.
Qed.
Lemma butterworth_nodup n : (1 <= n)%nat -> NoDup (map nsq (poles (butterworth n))).
Proof.
  intros H. unfold poles. rewrite nsq_roots. cbn [butterworth lone_poles paired_poles]. rewrite map_map.
  assert (HA : forall i, In i (seq 0 (Nat.div2 n)) -> 0 < pole_angle n i < PI / 2) by (intros i Hi; apply in_seq in Hi; apply pole_angle_range; lia).
  assert (E : forall i, nsq (cis (PI - pole_angle n i)) = (- cos (2 * pole_angle n i), sin (2 * pole_angle n i))).
  { intros i. rewrite cis_nsq. replace (2 * (PI - pole_angle n i) + PI) with ((PI - 2 * pole_angle n i) + 2 * INR 1 * PI) by (cbn [INR]; ring). rewrite cis_period. unfold cis. rewrite cos_minus, sin_minus, cos_PI, sin_PI. apply injective_projections; cbn; ring. }
  apply NoDup_conj with (sg := 1).
  - destruct (Nat.odd n); repeat constructor. intros [].
  - intros r Hr. apply in_map_iff in Hr. destruct Hr as (x & <- & _). cbn. ring.
  - assert (G : forall l, NoDup l -> (forall i, In i l -> 0 < pole_angle n i < PI / 2) -> NoDup (map (fun i => nsq (cis (PI - pole_angle n i))) l)).
    { induction 1 as [|i l NI N IH]; intros HL; cbn [map]; constructor; [|apply IH; intros j Hj; apply HL; now right].
      intros X. apply in_map_iff in X. destruct X as (j & EJ & Hj). apply NI. rewrite !E in EJ. apply (f_equal fst) in EJ. cbn [fst] in EJ.
      assert (A1 := HL i (or_introl eq_refl)). assert (A2 := HL j (or_intror Hj)).
      assert (A3 : 2 * pole_angle n i = 2 * pole_angle n j) by (apply cos_inj; [lra|lra|lra]).
      apply (f_equal (fun a => INR n * a / 2)) in A3. replace (INR n * (2 * pole_angle n i) / 2) with (INR n * pole_angle n i) in A3 by field. replace (INR n * (2 * pole_angle n j) / 2) with (INR n * pole_angle n j) in A3 by field.
      rewrite !pole_angle_n in A3 by exact H. apply Rmult_eq_reg_l in A3; [|pose proof PI_RGT_0; lra]. assert (INR i = INR j) by lra. apply INR_eq in H0. now subst j. }
    apply G; [apply seq_NoDup|exact HA].
  - intros r Hr. apply in_map_iff in Hr. destruct Hr as (i & <- & Hi). rewrite E. cbn [snd]. rewrite Rmult_1_l. apply sin_gt_0; specialize (HA i Hi); lra.
Qed.
Lemma butterworth_product n y : (1 <= n)%nat -> po (fun r => Cplus y (Cmult r r)) (poles (butterworth n)) = Cplus (cpow y n) (RtoC 1).
Proof.
  intros H. rewrite po_nsq. destruct (butterworth_lowpass_prototype n H) as (_ & L & _).
  rewrite (factored (fun x => Cplus (cpow x n) (RtoC 1)) (RtoC 1) (map nsq (poles (butterworth n)))); [ring|now apply butterworth_nodup| |].
  - rewrite map_length, L. unfold leading. apply poly_ext with (g := fun _ => RtoC 1); [intros x; ring|]. apply poly_const. exact H.
  - intros r Hr. apply in_map_iff in Hr. destruct Hr as (p & <- & Hp). rewrite (butterworth_root n p H Hp), RtoC_m1. ring.
Qed.
Lemma butterworth_modulus n W : (1 <= n)%nat -> let P := po (fun r => Cminus (0, W) r) (poles (butterworth n)) in
  Cmod P * Cmod P = 1 + W ^ (2 * n) /\ P <> RtoC 0.
Proof.
  intros H P. assert (E : Cmod P * Cmod P = 1 + W ^ (2 * n)).
  { assert (X : RtoC (Cmod P * Cmod P) = RtoC (1 + W ^ (2 * n))).
    { unfold P, poles. rewrite axis_modulus. fold (poles (butterworth n)). rewrite butterworth_product by exact H. rewrite cpow_RtoC, pow_mult, RtoC_plus. replace (W ^ 2) with (W * W) by ring. ring. }
    now apply (f_equal fst) in X. }
  split; [exact E|]. intros X. rewrite X, Cmod_0 in E. assert (0 <= W ^ (2 * n)) by (rewrite pow_mult; apply pow_le, pow2_ge_0). lra.
Qed.
Lemma butterworth_axis n W : (1 <= n)%nat -> exists h, analog_value (butterworth n) (0, W) h /\ Cmod h = / sqrt (1 + W ^ (2 * n)).
Proof.
  intros H. destruct (butterworth_modulus n W H) as [E N]. cbv zeta in E, N. eexists. split; [split; [exact N|reflexivity]|].
  rewrite Cmod_div by exact N. set (P := Cmod (po (fun r => Cminus (0, W) r) (poles (butterworth n)))) in *. unfold zeros, roots. cbn [butterworth lone_zeros paired_zeros map app product_over pz_gain]. rewrite Cmod_mult, Cmod_1, <- E.
  rewrite sqrt_square by apply Cmod_ge_0. unfold Rdiv. fold P. ring.
Qed.
