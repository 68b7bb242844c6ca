From Verif Require Import Common ListLemmas RealUtil BiquadModel DesignModel DesignSpec DesignProofs DesignProofs2 DesignProofs3 CascadeModel CascadeSpec CascadeProofs CascadeProofs2 PoleZeroModel PoleZeroSpec PoleZeroProofs PoleZeroProofs2 PoleZeroProofs3 PoleZeroProofs4 PoleZeroProofs5 PolyRoots PoleZeroProofs6 PoleZeroProofs7 PoleZeroProofs8 PoleZeroProofs9.
From Coquelicot Require Import Complex.
Local Open Scope R_scope.

(* ---------- roots that do not come close to zero ---------- *)
Lemma tame_ray t r s : 0 < t -> fst r < 0 -> 2 * / 100000 < s -> s * s * (fst r * fst r + snd r * snd r) <= snd r * snd r ->
  / 100000 * Cmod (Cminus (RtoC 1) (Cmult (RtoC t) r)) < Cmod (Cplus (RtoC 1) (Cmult (RtoC t) r)).
Proof.
  intros HT HR HS HB. destruct r as [na b]. cbn [fst snd] in *. assert (HA' : exists a, na = - a) by (exists (- na); ring). destruct HA' as [a ->]. assert (HA : 0 < a) by lra. set (x := Cminus _ _). set (y := Cplus _ _).
  set (R2 := a * a + b * b). replace (- a * - a) with (a * a) in HB by ring. fold R2 in HB. assert (HR2 : 0 < R2) by (unfold R2; nra).
  assert (EX : Cmod x * Cmod x = 1 + 2 * t * a + t * t * R2) by (rewrite Cmod2; unfold x, R2; cbn [fst snd Cminus Cplus Copp Cmult RtoC]; ring).
  assert (EY : Cmod y * Cmod y = 1 - 2 * t * a + t * t * R2) by (rewrite Cmod2; unfold y, R2; cbn [fst snd Cminus Cplus Copp Cmult RtoC]; ring).
  assert (X0 := Cmod_ge_0 x). assert (Y0 := Cmod_ge_0 y). destruct (Rlt_le_dec (/ 100000 * Cmod x) (Cmod y)) as [OK|NO]; [exact OK|exfalso].
  set (k := / 100000) in *. assert (K : 0 < k < 1) by (unfold k; lra). clearbody k.
  assert (NQ : Cmod y * Cmod y <= k * k * (Cmod x * Cmod x)) by (replace (k * k * (Cmod x * Cmod x)) with ((k * Cmod x) * (k * Cmod x)) by ring; apply Rmult_le_compat; lra).
  rewrite EX, EY in NQ. clear EX EY X0 Y0 NO x y. set (u := 1 + t * t * R2) in *. set (kk := k * k) in *. assert (KK : 0 < kk < 1) by (unfold kk; nra).
  assert (S2 : 4 * kk < s * s) by (unfold kk; nra).
  assert (A1 : (1 - kk) * u <= 2 * t * a * (1 + kk)) by (unfold u in *; nra).
  assert (U0 : 0 < u) by (unfold u; assert (0 < t * t * R2) by (apply Rmult_lt_0_compat; nra); lra).
  assert (A2 : 4 * (t * t * R2) <= u * u) by (unfold u; pose proof (Rle_0_sqr (1 - t * t * R2)) as Q; unfold Rsqr in Q; lra).
  assert (A3 : ((1 - kk) * u) * ((1 - kk) * u) <= (2 * t * a * (1 + kk)) * (2 * t * a * (1 + kk))) by (apply Rmult_le_compat; try lra; apply Rmult_le_pos; lra).
  assert (A4 : (1 - kk) * (1 - kk) * (4 * (t * t * R2)) <= 4 * (t * t) * (a * a) * ((1 + kk) * (1 + kk))).
  { apply Rle_trans with ((1 - kk) * u * ((1 - kk) * u)); [|lra]. replace ((1 - kk) * u * ((1 - kk) * u)) with ((1 - kk) * (1 - kk) * (u * u)) by ring. apply Rmult_le_compat_l; [nra|exact A2]. }
  assert (A5 : (1 - kk) * (1 - kk) * R2 <= (a * a) * ((1 + kk) * (1 + kk))).
  { apply (Rmult_le_reg_l (4 * (t * t))); [nra|]. lra. }
  assert (A6 : a * a <= (1 - s * s) * R2) by (unfold R2 in *; lra).
  assert (A7 : (1 - kk) * (1 - kk) * R2 <= (1 - s * s) * ((1 + kk) * (1 + kk)) * R2).
  { apply Rle_trans with (a * a * ((1 + kk) * (1 + kk))); [exact A5|]. replace ((1 - s * s) * ((1 + kk) * (1 + kk)) * R2) with ((1 - s * s) * R2 * ((1 + kk) * (1 + kk))) by ring. apply Rmult_le_compat_r; [nra|exact A6]. }
  apply Rmult_le_reg_r in A7; [|exact HR2]. nra.
Qed.
Lemma theta_sin n i : (0 < i < Z.of_nat n)%Z -> (Z.of_nat n <= 25000)%Z -> 2 * / 100000 < sin (theta n i).
Proof.
  intros H HN. destruct (theta_range n i ltac:(lia)) as [[T1 T2] T3]. specialize (T3 ltac:(lia)). set (th := theta n i) in *. pose proof PI_RGT_0 as P.
  assert (N : 0 < INR n) by (apply lt_0_INR; lia). assert (N2 : INR n <= 25000) by (rewrite INR_IZR_INZ; now apply IZR_le).
  assert (D : 2 * / 100000 <= th / 2).
  { apply Rle_trans with (PI / (2 * INR n) / 2); [|lra]. apply Rle_trans with (2 / (2 * INR n) / 2); [|pose proof PI2_3_2 as P32; apply Rmult_le_compat_r; [lra|]; apply Rmult_le_compat_r; [left; apply Rinv_0_lt_compat; lra|lra]].
    replace (2 / (2 * INR n) / 2) with (/ (2 * INR n)) by (field; lra). replace (2 * / 100000) with (/ (50000)) by field. apply Rinv_le_contravar; lra. }
  assert (HT : th / 2 < tan (th / 2)) by (apply tan_gt; lra).
  assert (C : 0 < cos (th / 2)) by (apply cos_gt_0; lra). assert (S0 : 0 < sin (th / 2)) by (apply sin_gt_0; lra).
  assert (SC : sin (th / 2) <= cos (th / 2)).
  { apply Rnot_lt_le. intros L. assert (cos th < 0) by (replace th with (2 * (th / 2)) by field; rewrite cos_2a; nra). assert (0 < cos th) by (apply cos_gt_0; lra). lra. }
  apply Rle_lt_trans with (th / 2); [exact D|]. apply Rlt_le_trans with (tan (th / 2)); [exact HT|].
  replace th with (2 * (th / 2)) at 2 by field. rewrite sin_2a. unfold tan. pose proof (sin2_cos2 (th / 2)) as Q. unfold Rsqr in Q. set (c := cos (th / 2)) in *. set (s := sin (th / 2)) in *.
  apply (Rmult_le_reg_r c); [exact C|]. unfold Rdiv. rewrite Rmult_assoc, Rinv_l by lra. assert (H1 : 1 <= 2 * (c * c)) by nra. assert (H2 : 0 <= s * (2 * (c * c) - 1)) by (apply Rmult_le_pos; lra). lra.
Qed.
Lemma pole1_ray n mu i : sin (theta n i) * sin (theta n i) * (fst (pole1 mu n i) * fst (pole1 mu n i) + snd (pole1 mu n i) * snd (pole1 mu n i)) <= snd (pole1 mu n i) * snd (pole1 mu n i).
Proof.
  cbn [pole1 fst snd]. pose proof (sin2_cos2 (theta n i)) as Q. unfold Rsqr in Q. pose proof (cosh2 mu) as CH. set (s := sin (theta n i)) in *. set (c := cos (theta n i)) in *. set (x := cosh mu) in *. set (y := sinh mu) in *.
  assert (E : - (y * c) * - (y * c) + x * s * (x * s) = y * y + s * s) by (replace (- (y * c) * - (y * c) + x * s * (x * s)) with (y * y * (c * c) + (x * x) * (s * s)) by ring; rewrite CH; replace (c * c) with (1 - s * s) by lra; ring).
  rewrite E. replace (x * s * (x * s)) with (s * s * (x * x)) by ring. rewrite CH. assert (0 <= s * s) by nra. assert (s * s <= 1) by nra. apply Rmult_le_compat_l; lra.
Qed.
Lemma cheb1_tame_paired n mu g t : (1 <= n)%nat -> (Z.of_nat n <= 25000)%Z -> 0 < mu -> 0 < t -> lone_zeros (cheb1 n mu g) = [] /\ (length (lone_poles (cheb1 n mu g)) <= 1)%nat /\ forall r, In r (paired_zeros (cheb1 n mu g) ++ paired_poles (cheb1 n mu g)) -> / 100000 * Cmod (Cminus (RtoC 1) (Cmult (RtoC t) r)) < Cmod (Cplus (RtoC 1) (Cmult (RtoC t) r)).
Proof.
  intros H HN M HT. split; [reflexivity|]. split; [cbn [cheb1 lone_poles]; destruct (Nat.odd n); cbn; lia|].
  intros r Hr. cbn [cheb1 paired_zeros paired_poles app] in Hr. apply in_map_iff in Hr. destruct Hr as (i & <- & Hi). apply inds_spec in Hi. destruct Hi as [Hi _].
  apply tame_ray with (s := sin (theta n i)); [exact HT|apply pole1_left; [exact M|lia]|now apply theta_sin|apply pole1_ray].
Qed.
Lemma cheb1_tame n mu g t : (1 <= n)%nat -> (Z.of_nat n <= 25000)%Z -> 0 < mu -> 0 < t -> tame t (cheb1 n mu g).
Proof. intros. right. now apply cheb1_tame_paired. Qed.

(* ---------- Chebyshev type 2 ---------- *)
Definition pole2 (mu : R) (n : nat) (i : Z) : C := Cdiv (RtoC (-1)) (complex_sinh (mu, theta n i)).
Definition zero2 (n : nat) (i : Z) : C := (0, 1 / sin (theta n i)).
Definition cheb2 (n : nat) (mu g : R) : pole_zero :=
  {| lone_zeros := []; lone_poles := if Nat.odd n then [fst (pole2 mu n 0)] else []; paired_zeros := map (zero2 n) (inds n);
     paired_poles := map (pole2 mu n) (inds n); pz_gain := g |}.
Lemma loop2 (pole zero : Z -> C) l : forall f, (forall i, In i l -> (0 < i)%Z) ->
  fold_left (fun f i => if (0 <? i)%Z then add_pole_pair (pole i) (add_zero_pair (zero i) f) else add_pole (fst (pole i)) f) l f = add_all add_pole_pair (map pole l) (add_all add_zero_pair (map zero l) f).
Proof.
  induction l as [|i l IH]; intros f H; [reflexivity|]. cbn [fold_left map]. replace (0 <? i)%Z with true by (specialize (H i (or_introl eq_refl)); lia).
  rewrite IH by (intros j Hj; apply H; now right). rewrite !add_pole_pairs, !add_zero_pairs. unfold add_pole_pair, add_zero_pair. cbn [lone_zeros lone_poles paired_zeros paired_poles pz_gain]. rewrite <- !app_assoc. reflexivity.
Qed.
Lemma loop2_is n mu : fold_left (fun f i =>
       let theta := chebyshev_theta (Z.of_nat n) i in
       let pole := Cdiv (RtoC (-1)) (complex_sinh (mu, theta)) in
       if (0 <? i)%Z then add_pole_pair pole (add_zero_pair (0, 1 / sin theta) f) else add_pole (fst pole) f)
     (chebyshev_indices (Z.of_nat n)) pz_new = cheb2 n mu 1.
Proof.
  cbv zeta. rewrite indices_is, fold_left_app. rewrite (loop2 (pole2 mu n) (zero2 n) (inds n)) by (intros i Hi; apply inds_spec in Hi; lia). rewrite add_pole_pairs, add_zero_pairs.
  destruct (Nat.odd n) eqn:O; cbn [fold_left]; unfold cheb2; rewrite O; reflexivity.
Qed.
Lemma pole2_is n mu i : 0 < mu -> (0 <= i < Z.of_nat n)%Z -> pole2 mu n i = Cinv (Cconj (pole1 mu n i)).
Proof.
  intros M H. pose proof (pole1_left n mu i M H) as L. unfold pole2, complex_sinh. cbn [fst snd].
  replace (sinh mu * cos (theta n i), cosh mu * sin (theta n i)) with (Copp (Cconj (pole1 mu n i))) by (apply injective_projections; cbn; ring).
  assert (N : Cconj (pole1 mu n i) <> RtoC 0) by (intros E; apply (f_equal fst) in E; cbn in E, L; lra). set (q := Cconj (pole1 mu n i)) in *. clearbody q.
  rewrite RtoC_m1. assert (N2 : Copp q <> RtoC 0) by (intros E; apply N; transitivity (Copp (Copp q)); [ring|rewrite E; ring]). field. try split; assumption.
Qed.
Lemma po_pair_ext (g h : C -> C) (p q : Z -> C) l : (forall i, In i l -> Cmult (g (p i)) (g (Cconj (p i))) = Cmult (h (q i)) (h (Cconj (q i)))) ->
  po (fun r => Cmult (g r) (g (Cconj r))) (map p l) = po (fun r => Cmult (h r) (h (Cconj r))) (map q l).
Proof. induction l as [|i l IH]; intros H; cbn [map product_over]; [reflexivity|]. rewrite (H i (or_introl eq_refl)), IH; [reflexivity|]. intros j Hj. apply H. now right. Qed.
Lemma cheb2_po h n mu g g' : 0 < mu -> po h (poles (cheb2 n mu g)) = po (fun r => h (Cinv r)) (poles (cheb1 n mu g')).
Proof.
  intros M. unfold poles. rewrite !po_roots. cbn [cheb1 cheb2 lone_poles paired_poles]. f_equal.
  - destruct (Nat.odd n) eqn:O; [|reflexivity]. cbn [map product_over]. f_equal. f_equal. pose proof (half_eq n) as X. rewrite O in X. rewrite pole2_is by (try exact M; lia).
    assert (S0 : snd (pole1 mu n 0) = 0) by (unfold pole1, theta, chebyshev_theta; cbn [snd]; replace (PI * IZR 0 / (2 * IZR (Z.of_nat n))) with 0 by (cbn [IZR]; unfold Rdiv; ring); rewrite sin_0; ring).
    pose proof (pole1_left n mu 0 M ltac:(lia)) as L. destruct (pole1 mu n 0) as [x y]. cbn [fst snd] in *. subst y. rewrite <- RtoC_inv by lra. apply injective_projections; cbn; [field; lra|unfold Rdiv; ring].
  - apply po_pair_ext. intros i Hi. apply inds_spec in Hi. destruct Hi as [Hi _]. rewrite pole2_is by (try exact M; lia). rewrite <- Cconj_inv, Cconj_conj. ring.
Qed.
(* products over the real line *)
Definition rprod (f : Z -> R) (l : list Z) : R := fold_right (fun i a => f i * a) 1 l.
Lemma rprod_neq f l : (forall i, In i l -> f i <> 0) -> rprod f l <> 0.
Proof. induction l as [|i l IH]; intros H; cbn [rprod fold_right]; [lra|]. apply Rmult_integral_contrapositive_currified; [apply H; now left|apply IH; intros j Hj; apply H; now right]. Qed.
Definition sigma (n : nat) (i : Z) : R := sin (theta n i).
Lemma sigma_pos n i : In i (inds n) -> 0 < sigma n i < 1.
Proof.
  intros H. apply inds_spec in H. destruct H as [H _]. destruct (theta_range n i ltac:(lia)) as [[T1 T2] T3]. pose proof PI_RGT_0 as P. assert (N : 0 < INR n) by (apply lt_0_INR; lia). specialize (T3 ltac:(lia)).
  assert (0 < PI / (2 * INR n)) by (apply Rdiv_lt_0_compat; lra). unfold sigma. split; [apply sin_gt_0; lra|]. rewrite <- sin_PI2. apply sin_increasing_1; lra.
Qed.
Lemma zeros_square n mu g W : zero_modulus (0, W) (cheb2 n mu g) * zero_modulus (0, W) (cheb2 n mu g) = rprod (fun i => (W * W - 1 / (sigma n i * sigma n i)) ^ 2) (inds n).
Proof.
  assert (X : RtoC (zero_modulus (0, W) (cheb2 n mu g) * zero_modulus (0, W) (cheb2 n mu g)) = RtoC (rprod (fun i => (W * W - 1 / (sigma n i * sigma n i)) ^ 2) (inds n))).
  { unfold zero_modulus, zeros. rewrite axis_modulus, po_roots. cbn [cheb2 lone_zeros paired_zeros map product_over]. rewrite Cmult_1_l.
    assert (HS : forall i, In i (inds n) -> sigma n i <> 0) by (intros i Hi; pose proof (sigma_pos n i Hi); lra).
    induction (inds n) as [|i l IH]; cbn [map product_over rprod fold_right]; [reflexivity|]. rewrite IH by (intros j Hj; apply HS; now right). fold (rprod (fun i => (W * W - 1 / (sigma n i * sigma n i)) ^ 2) l). rewrite RtoC_mult. f_equal.
    specialize (HS i (or_introl eq_refl)). unfold zero2. fold (sigma n i). apply injective_projections; cbn; field; exact HS. }
  now apply (f_equal fst) in X.
Qed.
Lemma CT_leading n : leading (S n) (RtoC (2 ^ n)) (CT (S n)).
Proof.
  induction n as [| |n A B] using pair_ind.
  - unfold leading. apply poly_ext with (g := fun _ => RtoC 0); [|apply poly_zero]. intros x. cbn [CT cpow pow]. ring.
  - unfold leading. apply poly_ext with (g := fun _ => RtoC (-1)); [|apply poly_const; lia]. intros x. cbn [CT cpow pow]. rewrite Rmult_1_r, RtoC_m1. ring.
  - unfold leading. apply poly_ext with (g := fun x => Cminus (Cmult (RtoC 2) (Cmult x (Cminus (CT (S (S n)) x) (Cmult (RtoC (2 ^ S n)) (cpow x (S (S n))))))) (CT (S n) x)).
    + intros x. rewrite (CT_SS (S n)). set (a := CT (S (S n)) x). set (b := CT (S n) x). replace (RtoC (2 ^ S (S n))) with (Cmult (RtoC 2) (RtoC (2 ^ S n))) by (rewrite <- RtoC_mult; f_equal; cbn [pow]; ring). cbn [cpow]. ring.
    + apply poly_sub; [apply poly_scale, poly_shift; exact B|]. apply poly_weaken with (S (S n)); [lia|]. eapply leading_poly. exact A.
Qed.
Lemma T_sigma n i : (1 <= n)%nat -> In i (inds n) -> T n (sigma n i) = 0.
Proof.
  intros H Hi. apply inds_spec in Hi. destruct Hi as [_ Hi]. unfold sigma. rewrite <- cos_shift, T_cos. assert (N : INR n <> 0) by (apply not_0_INR; lia).
  replace (INR n * (PI / 2 - theta n i)) with (IZR (Z.of_nat n - i) * PI / 2) by (unfold theta, chebyshev_theta; rewrite minus_IZR, <- INR_IZR_INZ; field; exact N).
  assert (E := odd_cis (Z.of_nat n - i) Hi). apply (f_equal fst) in E. cbn [cis fst RtoC] in E. replace (IZR (Z.of_nat n - i) * PI) with (2 * (IZR (Z.of_nat n - i) * PI / 2)) in E by field. rewrite cos_2a_cos in E.
  set (c := cos _) in *. assert (c * c = 0) by lra. destruct (Rmult_integral _ _ H0); assumption.
Qed.
Definition troots (n : nat) : list R := map (sigma n) (inds n) ++ map (fun i => - sigma n i) (inds n) ++ (if Nat.odd n then [0] else []).
Lemma sigma_inj n i j : (1 <= n)%nat -> In i (inds n) -> In j (inds n) -> sigma n i = sigma n j -> i = j.
Proof.
  intros H Hi Hj E. apply inds_spec in Hi. apply inds_spec in Hj. destruct (theta_range n i ltac:(lia)) as [T1 _]. destruct (theta_range n j ltac:(lia)) as [T2 _]. apply (theta_inj n); [exact H|]. apply sin_inj; [lra|lra|exact E].
Qed.
Lemma nodup_map_on {A B} (f : A -> B) l : NoDup l -> (forall a b, In a l -> In b l -> f a = f b -> a = b) -> NoDup (map f l).
Proof.
  induction 1 as [|a l NI N IH]; intros H; cbn [map]; constructor.
  - intros X. apply in_map_iff in X. destruct X as (b & E & Hb). apply NI. rewrite (H a b); [exact Hb|now left|now right|now symmetry].
  - apply IH. intros x y Hx Hy. apply H; now right.
Qed.
Lemma troots_nodup n : (1 <= n)%nat -> NoDup (map RtoC (troots n)).
Proof.
  intros H. apply FinFun.Injective_map_NoDup; [intros a b E; now apply (f_equal fst) in E|]. unfold troots.
  assert (P : forall x, In x (map (sigma n) (inds n)) -> 0 < x) by (intros x Hx; apply in_map_iff in Hx; destruct Hx as (i & <- & Hi); now apply sigma_pos in Hi).
  assert (Q : forall x, In x (map (fun i => - sigma n i) (inds n)) -> x < 0) by (intros x Hx; apply in_map_iff in Hx; destruct Hx as (i & <- & Hi); apply sigma_pos in Hi; lra).
  assert (Z : forall x, In x (if Nat.odd n then [0] else []) -> x = 0) by (intros x; destruct (Nat.odd n); [intros [<-|[]]; reflexivity|intros []]).
  apply nodup_app; [|apply nodup_app|].
  - apply nodup_map_on; [apply inds_nodup|]. intros a b. now apply sigma_inj.
  - apply nodup_map_on; [apply inds_nodup|]. intros a b Ha Hb E. apply (sigma_inj n); try assumption. lra.
  - destruct (Nat.odd n); repeat constructor. intros [].
  - intros x Hx Hy. apply Q in Hx. apply Z in Hy. lra.
  - intros x Hx Hy. apply P in Hx. apply in_app_iff in Hy. destruct Hy as [Hy|Hy]; [apply Q in Hy|apply Z in Hy]; lra.
Qed.
Lemma troots_length n : length (troots n) = n.
Proof. unfold troots. rewrite !app_length, !map_length, inds_length. pose proof (half_eq n) as X. destruct (Nat.odd n); cbn [length]; lia. Qed.
Lemma T_product n x : (1 <= n)%nat -> T n x = 2 ^ (n - 1) * ((if Nat.odd n then x else 1) * rprod (fun i => x * x - sigma n i * sigma n i) (inds n)).
Proof.
  intros H. assert (X : RtoC (T n x) = RtoC (2 ^ (n - 1) * ((if Nat.odd n then x else 1) * rprod (fun i => x * x - sigma n i * sigma n i) (inds n)))).
  { rewrite <- CT_real. rewrite (factored (CT n) (RtoC (2 ^ (n - 1))) (map RtoC (troots n))).
    - rewrite RtoC_mult. f_equal. unfold troots. rewrite !map_app, !po_app, !map_map, RtoC_mult.
      replace (po (fun r => Cminus (RtoC x) r) (map RtoC (if Nat.odd n then [0] else []))) with (RtoC (if Nat.odd n then x else 1)) by (destruct (Nat.odd n); cbn [map product_over]; ring).
      rewrite Cmult_assoc. rewrite Cmult_comm. f_equal. induction (inds n) as [|i l IH]; cbn [map product_over rprod fold_right]; [ring|]. fold (rprod (fun i => x * x - sigma n i * sigma n i) l).
      rewrite RtoC_mult, <- IH. replace (RtoC (x * x - sigma n i * sigma n i)) with (Cmult (Cminus (RtoC x) (RtoC (sigma n i))) (Cminus (RtoC x) (RtoC (- sigma n i)))) by (apply injective_projections; cbn; ring). ring.
    - now apply troots_nodup.
    - rewrite map_length, troots_length. destruct n as [|n]; [lia|]. replace (S n - 1)%nat with n by lia. apply CT_leading.
    - intros r Hr. apply in_map_iff in Hr. destruct Hr as (y & <- & Hy). rewrite CT_real. f_equal. unfold troots in Hy. apply in_app_iff in Hy. destruct Hy as [Hy|Hy]; [|apply in_app_iff in Hy; destruct Hy as [Hy|Hy]].
      + apply in_map_iff in Hy. destruct Hy as (i & <- & Hi). now apply T_sigma.
      + apply in_map_iff in Hy. destruct Hy as (i & <- & Hi). rewrite T_opp, T_sigma by assumption. ring.
      + destruct (Nat.odd n) eqn:O; [|destruct Hy]. destruct Hy as [<-|[]]. pose proof (T_0 n) as Z. rewrite <- Nat.negb_odd, O in Z. cbn [negb] in Z. destruct (Rmult_integral _ _ Z); assumption. }
  now apply (f_equal fst) in X.
Qed.
