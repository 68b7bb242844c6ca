From Verif Require Import Common ListLemmas RealUtil BiquadModel DesignModel DesignSpec DesignProofs DesignProofs3 CascadeModel CascadeSpec CascadeProofs PoleZeroModel PoleZeroSpec PoleZeroProofs PoleZeroProofs3 PoleZeroProofs4 PoleZeroProofs5 PoleZeroProofs6 PoleZeroProofs7 PoleZeroProofs8 PoleZeroProofs9 PoleZeroProofs10 PoleZeroProofs11 ComplexModel ComplexProofs PerceptualProofs3 ZpkModel ZpkSpec ZpkProofs ZpkProofs2 ZpkProofs3 ZpkProofs4 ZpkProofs5.
From Coq Require Import Permutation Sorted.
From Coquelicot Require Import Complex.
Local Open Scope R_scope.

(* ---------- the angles ---------- *)
Lemma even_order_nat n : even_order (Z.of_nat n) = negb (Nat.odd n).
Proof. unfold even_order. rewrite <- odd_rem. now destruct (Z.rem (Z.of_nat n) 2 =? 0)%Z. Qed.
Lemma half_nat n : Z.to_nat (Z.quot (Z.of_nat n) 2) = Nat.div2 n.
Proof. rewrite Z.quot_div_nonneg, Nat.div2_div by lia. change 2%Z with (Z.of_nat 2). rewrite <- Nat2Z.inj_div. lia. Qed.
Lemma thetas_angles n : design_thetas (Z.of_nat n) = map (pole_angle n) (seq 0 (Nat.div2 n)).
Proof.
  unfold design_thetas. rewrite half_nat, even_order_nat, <- seq_shift, map_map. apply map_ext. intros i. unfold pole_angle. rewrite <- INR_IZR_INZ, S_INR. destruct (Nat.odd n); cbn [negb]; ring.
Qed.
Lemma rev_map_seq {A} (f : nat -> A) d : rev (map (fun j => f (d - j)%nat) (seq 0 d)) = map f (seq 1 d).
Proof.
  induction d as [|d IH]; [reflexivity|]. rewrite (seq_S d 1), map_app, <- IH. cbn [seq map]. rewrite <- seq_shift, map_map. reflexivity.
Qed.
Lemma thetas_inds n : Permutation (design_thetas (Z.of_nat n)) (map (theta n) (inds n)).
Proof.
  unfold design_thetas. rewrite half_nat, even_order_nat, <- INR_IZR_INZ. rewrite <- rev_map_seq, <- Permutation_rev. unfold inds. rewrite map_map. assert (E : map (fun j => PI / INR n * (INR (Nat.div2 n - j) - (if negb (Nat.odd n) then 1 else 0) * (1 / 2))) (seq 0 (Nat.div2 n)) = map (fun x => theta n (Z.of_nat n - 1 - 2 * Z.of_nat x)) (seq 0 (Nat.div2 n))); [|rewrite E; reflexivity].
  apply map_ext_in. intros j Hj. apply in_seq in Hj. pose proof (half_eq n) as X. assert (N : 0 < INR n) by (apply lt_0_INR; lia). unfold theta, chebyshev_theta. rewrite minus_INR by lia. rewrite !minus_IZR, mult_IZR, <- !INR_IZR_INZ. apply (f_equal INR) in X. rewrite plus_INR, mult_INR in X. rewrite <- X at 2. destruct (Nat.odd n); cbn [INR negb] in *; field; lra.
Qed.
Lemma pairs_perm {A} (g : A -> C) l : Permutation (flat_map (fun t => conj_pair (g t)) l) (map g l ++ map Cconj (map g l)).
Proof.
  induction l as [|a l IH]; cbn [flat_map map app]; [reflexivity|]. unfold conj_pair at 1. cbn [app]. change (cconj (g a)) with (Cconj (g a)). rewrite IH. etransitivity; [apply perm_swap|]. apply perm_skip. apply Permutation_middle.
Qed.
Lemma roots_perm (e : bool) (x : R) (l : list C) (g : R -> C) (thetas : list R) (w : C) : w = RtoC x -> Permutation (map g thetas ++ map Cconj (map g thetas)) (l ++ map Cconj l) ->
  Permutation ((if negb e then [] else [w]) ++ flat_map (fun t => conj_pair (g t)) thetas) (roots (if e then [x] else []) l).
Proof. intros -> H. unfold roots. apply Permutation_app; [destruct e; reflexivity|]. rewrite pairs_perm. exact H. Qed.

Section Prototype.
Variable ex : R -> Z.
Lemma set_dc_is f p : Permutation (z_zeros f) (zeros p) -> Permutation (z_poles f) (poles p) -> z_gain f = 1 -> 0 < pole_modulus (RtoC 0) p -> 0 < zero_modulus (RtoC 0) p ->
  set_dc_gain ex f = Ok {| z_zeros := z_zeros f; z_poles := z_poles f; z_gain := pole_modulus (RtoC 0) p / zero_modulus (RtoC 0) p |}.
Proof.
  intros HZ HP HG P0 Z0. unfold set_dc_gain. change ((0, 0) : C) with (RtoC 0). assert (EP : po (fun r => Cminus (RtoC 0) r) (z_poles f) = po (fun r => Cminus (RtoC 0) r) (poles p)) by now apply po_perm. assert (EZ : po (fun r => Cminus (RtoC 0) r) (z_zeros f) = po (fun r => Cminus (RtoC 0) r) (zeros p)) by now apply po_perm.
  unfold pole_modulus in *. unfold zero_modulus in *. assert (NP : po (fun r => Cminus (RtoC 0) r) (z_poles f) <> RtoC 0) by (rewrite EP; intros X; rewrite X, Cmod_0 in P0; lra).
  rewrite zpk_eval_ok by exact NP. cbn [obind]. rewrite cabs_Cmod. assert (V : Cmod (value_of f (RtoC 0)) = Cmod (po (fun r => Cminus (RtoC 0) r) (zeros p)) / Cmod (po (fun r => Cminus (RtoC 0) r) (poles p))) by (unfold value_of; rewrite Cmod_div by exact NP; rewrite Cmod_mult, HG, Cmod_R, Rabs_R1, EZ, EP, Rmult_1_l; reflexivity).
  rewrite V. match goal with |- context [Reqb ?a 0] => destruct (Reqb_spec a 0) as [X|X] end.
  - exfalso. assert (0 < Cmod (po (fun r => Cminus (RtoC 0) r) (zeros p)) / Cmod (po (fun r => Cminus (RtoC 0) r) (poles p))) by now apply Rdiv_lt_0_compat. lra.
  - cbn [negb oguard]. do 2 f_equal. field. split; lra.
Qed.
Lemma with_order_ok n make f : (1 <= n)%nat -> (n <= 30)%nat -> make = Ok f -> with_order (Z.of_nat n) make = Ok (Some f).
Proof. intros H1 H2 ->. unfold with_order, max_degree. replace (Z.of_nat n <? 1)%Z with false by lia. replace (Z.of_nat n <=? Z.of_nat 30)%Z with true by lia. reflexivity. Qed.
Lemma butterworth_zpk_ok n : (1 <= n)%nat -> (n <= 30)%nat -> exists f, butterworth_zpk ex (Z.of_nat n) = Ok (Some f) /\ stands_for f (butterworth n).
Proof.
  intros H1 H2. unfold butterworth_zpk. set (ps := (if even_order (Z.of_nat n) then [] else [(-1, 0)]) ++ _).
  assert (PS : Permutation ps (poles (butterworth n))).
  { unfold ps. rewrite even_order_nat. apply (roots_perm (Nat.odd n) (-1) _ (fun theta => (- cos theta, sin theta))); [reflexivity|]. rewrite thetas_angles. cbn [butterworth paired_poles]. rewrite map_map.
    rewrite (map_ext (fun x => (- cos (pole_angle n x), sin (pole_angle n x))) (fun i => cis (PI - pole_angle n i))) by (intros i; unfold cis; rewrite cos_minus, sin_minus, cos_PI, sin_PI; f_equal; ring). reflexivity. }
  assert (PM : pole_modulus (RtoC 0) (butterworth n) = 1) by (apply po_unit; intros r Hr; replace (Cminus (RtoC 0) r) with (Copp r) by ring; rewrite Cmod_opp; now apply butterworth_poles_unit in Hr).
  assert (ZM : zero_modulus (RtoC 0) (butterworth n) = 1) by (unfold zero_modulus; cbn; apply Cmod_1).
  eexists. split.
  - apply with_order_ok; [exact H1|exact H2|]. apply (set_dc_is _ (butterworth n)); cbn [z_zeros z_poles z_gain]; [reflexivity|exact PS|reflexivity|rewrite PM; lra|rewrite ZM; lra].
  - split; [reflexivity|]. split; [exact PS|]. cbn [z_gain butterworth pz_gain]. rewrite PM, ZM. field.
Qed.
Lemma epsilon_ok db : 0 < db -> ripple_epsilon db = Ok (ripple db).
Proof.
  intros H. destruct (ripple_pos db H) as (A & B). unfold ripple_epsilon. assert (E : exp (ln 10 / 10 * db) = Rpower 10 (db / 10)) by (unfold Rpower; f_equal; field). rewrite E. destruct (Rleb_spec 0 (Rpower 10 (db / 10) - 1)) as [_|X]; [reflexivity|]. pose proof (Rpower_gt_1 (db / 10) ltac:(lra)). lra.
Qed.
Lemma mu1_is e n : 0 < e -> ln ((1 + sqrt (1 + e * e)) / e) / INR n = arcsinh (1 / e) / INR n.
Proof.
  intros H. f_equal. unfold arcsinh. f_equal. assert (Q : sqrt (1 + e * e) = e * sqrt ((1 / e) ^ 2 + 1)).
  { transitivity (sqrt (e * e) * sqrt ((1 / e) ^ 2 + 1)); [|rewrite sqrt_square by lra; reflexivity]. rewrite <- sqrt_mult_alt by nra. f_equal. field. lra. }
  rewrite Q. field. lra.
Qed.
Lemma mu2_is e n : 0 < e -> ln (e + sqrt (1 + e * e)) / INR n = arcsinh (1 / (1 / e)) / INR n.
Proof. intros H. f_equal. unfold arcsinh. replace (1 / (1 / e)) with e by (field; lra). do 3 f_equal. ring. Qed.
Lemma theta_0 n : theta n 0 = 0.
Proof. unfold theta, chebyshev_theta. cbn [IZR]. unfold Rdiv. ring. Qed.
Lemma chebyshev1_zpk_ok n db : (1 <= n)%nat -> (n <= 30)%nat -> 0 < db -> exists f, chebyshev1_zpk ex (Z.of_nat n) db = Ok (Some f) /\ stands_for f (cheb1 n (arcsinh (1 / ripple db) / INR n) (gain1 n (ripple db))).
Proof.
  intros H1 H2 HD. destruct (ripple_pos db HD) as (RP & RS). unfold chebyshev1_zpk. rewrite epsilon_ok by exact HD. cbn [obind]. destruct (Reqb_spec (ripple db) 0) as [X|_]; [lra|]. cbn [negb oguard]. cbv zeta. rewrite <- INR_IZR_INZ, mu1_is by exact RP. set (mu := arcsinh (1 / ripple db) / INR n).
  set (ps := (if even_order (Z.of_nat n) then [] else [(- sinh mu, 0)]) ++ _).
  assert (PS : Permutation ps (poles (cheb1 n mu 1))).
  { unfold ps. rewrite even_order_nat. unfold poles. cbn [cheb1 lone_poles paired_poles]. apply (roots_perm (Nat.odd n) (fst (pole1 mu n 0)) _ (fun theta => cneg (csinh (mu, theta)))); [unfold pole1; rewrite theta_0, cos_0; cbn [fst]; apply injective_projections; cbn; ring|].
    assert (G : forall t, cneg (csinh (mu, t)) = Cconj (- (sinh mu * cos t), cosh mu * sin t)) by (intros t; unfold cneg, csinh, Cconj; cbn [fst snd]; f_equal; ring).
    pose proof (Permutation_map (fun theta => cneg (csinh (mu, theta))) (thetas_inds n)) as Q. rewrite Q at 1. rewrite (Permutation_map Cconj Q). rewrite !map_map. rewrite (map_ext (fun x => cneg (csinh (mu, theta n x))) (fun i => Cconj (pole1 mu n i))) by (intros; apply G). rewrite (map_ext (fun x => Cconj (cneg (csinh (mu, theta n x)))) (pole1 mu n)) by (intros; rewrite G; apply Cconj_conj). apply Permutation_app_comm. }
  assert (PM : 0 < pole_modulus (RtoC 0) (cheb1 n mu 1)) by (apply (cheb1_positive n (ripple db) H1 RP 1 0)). assert (ZM : zero_modulus (RtoC 0) (cheb1 n mu 1) = 1) by (unfold zero_modulus; cbn; apply Cmod_1).
  assert (OE : even_order (Z.of_nat n) = Nat.even n) by (rewrite even_order_nat; apply Nat.negb_odd).
  eexists. split.
  - apply with_order_ok; [exact H1|exact H2|]. rewrite (set_dc_is _ (cheb1 n mu 1)); cbn [z_zeros z_poles z_gain]; [cbn [obind]; reflexivity|reflexivity|exact PS|reflexivity|exact PM|rewrite ZM; lra].
  - rewrite OE, ZM. unfold stands_for. replace (cheb1 n mu (gain1 n (ripple db))) with (cheb1 n mu (pole_modulus (RtoC 0) (cheb1 n mu 1) / (if Nat.even n then sqrt (1 + ripple db * ripple db) else 1))) by reflexivity.
    pose proof (sqrt_lt_R0 (1 + ripple db * ripple db) ltac:(nra)). destruct (Nat.even n); cbn [z_zeros z_poles z_gain]; (split; [reflexivity|]; split; [exact PS|]); cbn [cheb1 pz_gain]; field; lra.
Qed.
Lemma map_outcome_ok {A B} (f : A -> outcome B) (g : A -> B) l : (forall x, In x l -> f x = Ok (g x)) -> map_outcome f l = Ok (map g l).
Proof. induction l as [|a l IH]; intros H; [reflexivity|]. cbn [map_outcome map]. rewrite (H a (or_introl eq_refl)). cbn [obind]. rewrite IH by (intros; apply H; now right). reflexivity. Qed.
Lemma flat_map_map {A B D} (f : B -> list D) (g : A -> B) l : flat_map f (map g l) = flat_map (fun x => f (g x)) l.
Proof. induction l as [|a l IH]; [reflexivity|]. cbn [map flat_map]. now rewrite IH. Qed.
Lemma theta_in n t : In t (design_thetas (Z.of_nat n)) -> exists i, In i (inds n) /\ t = theta n i.
Proof. intros H. apply (Permutation_in _ (thetas_inds n)) in H. apply in_map_iff in H as (i & <- & Hi). exists i. now split. Qed.
Lemma sinh_neq mu n i : 0 < mu -> (0 <= i < Z.of_nat n)%Z -> complex_sinh (mu, theta n i) <> RtoC 0.
Proof. intros M H E. pose proof (pole1_left n mu i M H) as L. apply (f_equal fst) in E. cbn in E, L. lra. Qed.
Lemma chebyshev2_zpk_ok n db : (1 <= n)%nat -> (n <= 30)%nat -> 0 < db -> exists f, chebyshev2_zpk ex (Z.of_nat n) db = Ok (Some f) /\ stands_for f (cheb2 n (arcsinh (1 / (1 / ripple db)) / INR n) (gain2 n (1 / ripple db))).
Proof.
  intros H1 H2 HD. destruct (ripple_pos db HD) as (RP & RS). assert (EP : 0 < 1 / ripple db) by (apply Rdiv_lt_0_compat; lra). unfold chebyshev2_zpk. rewrite epsilon_ok by exact HD. cbn [obind]. cbv zeta. rewrite <- INR_IZR_INZ, mu2_is by exact RP. pose proof (mu_pos n (1 / ripple db) H1 EP) as M. cbv zeta in M. set (mu := arcsinh (1 / (1 / ripple db)) / INR n) in *. pose proof (PoleZeroProofs9.sinh_pos mu M) as SP.
  assert (G0 : even_order (Z.of_nat n) || negb (Reqb (sinh mu) 0) = true) by (destruct (Reqb_spec (sinh mu) 0) as [X|_]; [lra|now rewrite Bool.orb_true_r]). rewrite G0. cbn [oguard].
  assert (G1 : forallb (fun theta => negb (Reqb (sin theta) 0)) (design_thetas (Z.of_nat n)) = true). { apply forallb_forall. intros t Ht. apply theta_in in Ht as (i & Hi & ->). apply sigma_pos in Hi. unfold sigma in Hi. destruct (Reqb_spec (sin (theta n i)) 0) as [X|_]; [lra|reflexivity]. }
  rewrite G1. cbn [oguard]. rewrite (map_outcome_ok _ (fun t => Cdiv (RtoC (-1)) (complex_sinh (mu, t)))).
  2:{ intros t Ht. apply theta_in in Ht as (i & Hi & ->). apply inds_spec in Hi. change (csinh (mu, theta n i)) with (complex_sinh (mu, theta n i)). rewrite cdiv_ok by (apply sinh_neq; [exact M|lia]). reflexivity. }
  cbn [obind]. rewrite flat_map_map. set (ps := (if even_order (Z.of_nat n) then [] else [(-1 / sinh mu, 0)]) ++ _). set (zs := flat_map _ _).
  assert (PS : Permutation ps (poles (cheb2 n mu 1))).
  { unfold ps. rewrite even_order_nat. unfold poles. cbn [cheb2 lone_poles paired_poles]. apply (roots_perm (Nat.odd n) (fst (pole2 mu n 0)) _ (fun t => Cdiv (RtoC (-1)) (complex_sinh (mu, t)))).
    - unfold pole2, complex_sinh. rewrite theta_0. cbn [fst snd]. rewrite cos_0, sin_0. apply injective_projections; cbn; field; lra.
    - pose proof (Permutation_map (fun t => Cdiv (RtoC (-1)) (complex_sinh (mu, t))) (thetas_inds n)) as Q. rewrite Q at 1. rewrite (Permutation_map Cconj Q). rewrite !map_map. reflexivity. }
  assert (ZS : Permutation zs (zeros (cheb2 n mu 1))).
  { unfold zs, zeros. cbn [cheb2 lone_zeros paired_zeros]. unfold roots. cbn [map app]. rewrite (pairs_perm (fun theta => (0, 1 / sin theta))). pose proof (Permutation_map (fun t => ((0, 1 / sin t) : C)) (thetas_inds n)) as Q. rewrite Q at 1. rewrite (Permutation_map Cconj Q). rewrite !map_map. reflexivity. }
  eexists. split.
  - apply with_order_ok; [exact H1|exact H2|]. apply (set_dc_is _ (cheb2 n mu 1)); cbn [z_zeros z_poles z_gain]; [exact ZS|exact PS|reflexivity|exact (cheb2_positive n (1 / ripple db) H1 EP 1 0)|exact (cheb2_zero_positive n (1 / ripple db) 1)].
  - split; [exact ZS|]. split; [exact PS|]. reflexivity.
Qed.
End Prototype.

(* ---------- sizes of the roots ---------- *)
Lemma sin_big n x : (1 <= n)%nat -> (n <= 30)%nat -> PI / (2 * INR n) <= x -> x < PI / 2 -> / 20 <= sin x.
Proof.
  intros H1 H2 L U. pose proof pi_range as P. apply le_INR in H1, H2. replace (INR 1) with 1 in H1 by reflexivity. replace (INR 30) with 30 in H2 by (cbn; lra).
  assert (A : PI / 60 <= x) by (eapply Rle_trans; [|exact L]; apply Rmult_le_compat_l; [lra|apply Rinv_le_contravar; lra]). apply Rle_trans with (sin (PI / 60)).
  - pose proof (sin_lower (PI / 60) ltac:(lra)) as Q. assert (C3 : PI / 60 * (PI / 60) * (PI / 60) <= 0.0525 * 0.0525 * 0.0525) by (apply Rmult_le_compat; try lra; try (apply Rmult_le_compat; lra); apply Rmult_le_pos; lra). lra.
  - apply sin_incr_1; lra.
Qed.
Lemma moderate_conj r : moderate r -> moderate (Cconj r).
Proof. unfold moderate. rewrite Cmod_Cconj. cbn [Cconj snd]. rewrite Rabs_Ropp. intros [H|H]; [left; rewrite H; ring|now right]. Qed.
Lemma butterworth_moderate n : (1 <= n)%nat -> (n <= 30)%nat -> moderate_roots (butterworth n).
Proof.
  intros H1 H2 r. change (zeros (butterworth n)) with (@nil C). cbn [app]. unfold poles. rewrite in_roots. cbn [butterworth lone_poles paired_poles].
  assert (Q : forall q, In q (map (fun i => cis (PI - pole_angle n i)) (seq 0 (Nat.div2 n))) -> moderate q).
  { intros q Hq. apply in_map_iff in Hq as (i & <- & Hi). apply in_seq in Hi. right. rewrite Cmod_cis. unfold cis. cbn [snd]. rewrite sin_minus, sin_PI, cos_PI. replace (0 * cos (pole_angle n i) - -1 * sin (pole_angle n i)) with (sin (pole_angle n i)) by ring.
    destruct (pole_angle_range n i ltac:(lia)) as (_ & U). pose proof (sin_big n _ H1 H2 (pole_angle_low n i H1) U) as S1. rewrite Rabs_pos_eq by lra. lra. }
  intros [(x & Hx & ->)|[Hr|(q & Hq & ->)]]; [now left|now apply Q|apply moderate_conj; now apply Q].
Qed.
Lemma pole1_moderate n mu i : (1 <= n)%nat -> (n <= 30)%nat -> (0 < i < Z.of_nat n)%Z -> cosh mu <= 100 -> moderate (pole1 mu n i).
Proof.
  intros H1 H2 Hi HC. right. destruct (theta_range n i ltac:(lia)) as [[T1 T2] T3]. pose proof (sin_big n _ H1 H2 (T3 ltac:(lia)) T2) as SB. pose proof (PoleZeroProofs9.cosh_pos mu) as CP. assert (C1 : 1 <= cosh mu) by (pose proof (cosh2 mu); nra).
  assert (U : Cmod (pole1 mu n i) <= cosh mu). { apply Rsqr_incr_0_var; [|lra]. unfold Rsqr. rewrite Cmod2. cbn [pole1 fst snd]. pose proof (sin2_cos2 (theta n i)) as Q. unfold Rsqr in Q. pose proof (cosh2 mu) as CH. set (s := sin (theta n i)) in *. set (c := cos (theta n i)) in *. set (x := cosh mu) in *. set (y := sinh mu) in *.
    assert (C2 : 0 <= c * c) by nra. assert (E : - (y * c) * - (y * c) + x * s * (x * s) = x * x - c * c) by (replace (- (y * c) * - (y * c) + x * s * (x * s)) with (y * y * (c * c) + (x * x) * (s * s)) by ring; replace (y * y) with (x * x - 1) by lra; replace (s * s) with (1 - c * c) by lra; ring). lra. }
  assert (L : Rabs (snd (pole1 mu n i)) <= Cmod (pole1 mu n i)) by (pose proof (Rmax_Cmod (pole1 mu n i)) as X; eapply Rle_trans; [apply Rmax_r|exact X]). assert (SN : Rabs (snd (pole1 mu n i)) = cosh mu * sin (theta n i)) by (cbn [pole1 snd]; apply Rabs_pos_eq; nra). rewrite SN in *.
  assert (X : cosh mu * / 20 <= cosh mu * sin (theta n i)) by (apply Rmult_le_compat_l; lra). lra.
Qed.
Lemma cosh_bound x n : 0 <= x -> x <= 19000 -> (2 <= n)%nat -> cosh (arcsinh x / INR n) <= 100.
Proof.
  intros H0 H HN. assert (A0 : 0 <= arcsinh x). { destruct (Req_dec x 0) as [->|X]; [rewrite arcsinh_0; lra|]. left. rewrite <- arcsinh_0. apply arcsinh_lt. lra. }
  assert (N2 : 2 <= INR n) by (apply le_INR in HN; replace (INR 2) with 2 in HN by reflexivity; exact HN). set (m := arcsinh x / INR n). assert (M0 : 0 <= m) by (apply Rmult_le_pos; [exact A0|left; apply Rinv_0_lt_compat; lra]).
  assert (M2 : 2 * m <= arcsinh x). { unfold m. apply (Rmult_le_reg_r (INR n)); [lra|]. replace (2 * (arcsinh x / INR n) * INR n) with (2 * arcsinh x) by (field; lra). nra. }
  assert (E1 : exp (2 * m) <= 2 * x + 1). { apply Rle_trans with (exp (arcsinh x)); [destruct M2 as [M2|M2]; [left; now apply exp_increasing|rewrite M2; lra]|]. unfold arcsinh. pose proof (sqrt_pos (x ^ 2 + 1)). pose proof (sqrt_sqrt (x ^ 2 + 1) ltac:(nra)) as SS. rewrite exp_ln by nra. assert (sqrt (x ^ 2 + 1) <= x + 1) by (apply Rsqr_incr_0_var; [unfold Rsqr; nra|lra]). lra. }
  assert (E2 : exp m * exp m = exp (2 * m)) by (rewrite <- exp_plus; f_equal; ring). pose proof (exp_pos m) as EP. assert (E3 : exp m <= 196) by (apply Rsqr_incr_0_var; [unfold Rsqr; lra|lra]).
  assert (E4 : exp (- m) <= 1) by (rewrite <- exp_0; destruct M0 as [M0|M0]; [left; apply exp_increasing; lra|rewrite <- M0, Ropp_0; lra]). unfold cosh. lra.
Qed.
Lemma inds_two n i : In i (inds n) -> (2 <= n)%nat /\ (0 < i < Z.of_nat n)%Z.
Proof. intros H. unfold inds in H. apply in_map_iff in H as (j & <- & Hj). apply in_seq in Hj. pose proof (half_eq n). split; [lia|]. destruct (Nat.odd n); lia. Qed.
Lemma cheb1_moderate n x g : (1 <= n)%nat -> (n <= 30)%nat -> 0 <= x -> x <= 19000 -> moderate_roots (cheb1 n (arcsinh x / INR n) g).
Proof.
  intros H1 H2 X0 X1 r. change (zeros (cheb1 n (arcsinh x / INR n) g)) with (@nil C). cbn [app]. revert r. apply cheb1_in.
  - intros i Hi. apply inds_two in Hi as (HN & Hi). assert (M : moderate (pole1 (arcsinh x / INR n) n i)) by (apply pole1_moderate; try assumption; now apply cosh_bound). split; [exact M|now apply moderate_conj].
  - intros O. left. unfold pole1. rewrite theta_0, sin_0. cbn [snd]. ring.
Qed.
Lemma cheb2_moderate n x g : (1 <= n)%nat -> (n <= 30)%nat -> 0 < arcsinh x / INR n -> 0 <= x -> x <= 19000 -> moderate_roots (cheb2 n (arcsinh x / INR n) g).
Proof.
  intros H1 H2 M0 X0 X1 r Hr. set (mu := arcsinh x / INR n) in *. unfold zeros, poles in Hr. apply in_app_iff in Hr. rewrite !in_roots in Hr. cbn [cheb2 lone_zeros lone_poles paired_zeros paired_poles] in Hr.
  assert (Z : forall q, In q (map (zero2 n) (inds n)) -> moderate q).
  { intros q Hq. apply in_map_iff in Hq as (i & <- & Hi). apply inds_two in Hi as (HN & Hi). right. destruct (theta_range n i ltac:(lia)) as [[T1 T2] T3]. pose proof (sin_big n _ H1 H2 (T3 ltac:(lia)) T2) as SB. unfold zero2. cbn [snd].
    assert (S1 : sin (theta n i) <= 1) by apply SIN_bound. set (s := sin (theta n i)) in *. assert (Q1 : 1 <= 1 / s) by (apply (Rmult_le_reg_r s); [lra|]; replace (1 / s * s) with 1 by (field; lra); lra). assert (Q2 : 1 / s <= 20) by (apply (Rmult_le_reg_r s); [lra|]; replace (1 / s * s) with 1 by (field; lra); lra).
    assert (CM : Cmod (0, 1 / s) = 1 / s) by (apply Rsqr_inj; [apply Cmod_ge_0|lra|]; unfold Rsqr; rewrite Cmod2; cbn [fst snd]; ring). rewrite CM, Rabs_pos_eq by lra. lra. }
  assert (P : forall q, In q (map (pole2 mu n) (inds n)) -> moderate q).
  { intros q Hq. apply in_map_iff in Hq as (i & <- & Hi). apply inds_two in Hi as (HN & Hi). rewrite pole2_is by (try exact M0; lia). apply inv_moderate; [|apply moderate_conj, pole1_moderate; try assumption; now apply cosh_bound].
    intros E. pose proof (pole1_left n mu i M0 ltac:(lia)) as L. apply (f_equal fst) in E. cbn in E, L. lra. }
  destruct Hr as [[(y & [] & _)|[Hr|(q & Hq & ->)]]|[(y & Hy & ->)|[Hr|(q & Hq & ->)]]]; try (now apply Z); try (now apply P); try (apply moderate_conj; auto; fail). now left.
Qed.
Lemma ripple_low db : / 1000000 <= db -> 1 / ripple db <= 19000.
Proof.
  intros H. destruct (ripple_pos db ltac:(lra)) as (A & B). assert (L : 1 + db / 10 * ln 10 <= Rpower 10 (db / 10)) by (unfold Rpower; apply exp_ineq1_le). assert (L10 : 1 <= ln 10). { rewrite <- (ln_exp 1). destruct exp_le_3 as [E|E]; left; apply ln_increasing; try apply exp_pos; lra. }
  assert (S1 : / 10000000 <= ripple db * ripple db) by (rewrite B; assert (db / 10 * 1 <= db / 10 * ln 10) by (apply Rmult_le_compat_l; lra); lra). assert (S2 : / 4000 <= ripple db) by (apply Rsqr_incr_0_var; [unfold Rsqr; lra|lra]).
  apply (Rmult_le_reg_r (ripple db)); [exact A|]. replace (1 / ripple db * ripple db) with 1 by (field; lra). lra.
Qed.
Lemma ripple_high db : 0 < db -> db <= 80 -> ripple db <= 19000.
Proof.
  intros H0 H. destruct (ripple_pos db H0) as (A & B). assert (L : Rpower 10 (db / 10) <= Rpower 10 8) by (apply Rle_Rpower; lra). replace 8 with (INR 8) in L by (cbn; lra). rewrite Rpower_pow in L by lra. cbn [pow] in L. apply Rsqr_incr_0_var; [unfold Rsqr; lra|lra].
Qed.
