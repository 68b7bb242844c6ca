(* The roots of the elliptic prototype, the two versions of the code, and their gains. *)
From Verif Require Import Common ListLemmas RealUtil CInt BiquadModel DesignSpec CascadeSpec PoleZeroModel PoleZeroSpec PoleZeroProofs PoleZeroProofs3 PoleZeroProofs9 ComplexModel ComplexProofs EllipticModel EllipticProofs6 ZpkModel ZpkSpec ZpkProofs ZpkProofs2 ZpkProofs5 ZpkProofs7 EllipticDesignModel EllipticDesignProofs.
From Coq Require Import Permutation.
From Coquelicot Require Import Complex.
Local Open Scope R_scope.
Local Notation C := Complex.C.

Lemma obind_ok {A B} (m : outcome A) (k : A -> outcome B) b : obind m k = Ok b -> exists a, m = Ok a /\ k a = Ok b.
Proof. destruct m as [a| |]; cbn [obind]; intros H; [exists a; split; [reflexivity|exact H]|discriminate H|discriminate H]. Qed.
Lemma oguard_ok {A} (g : bool) (k : outcome A) a : oguard g k = Ok a -> g = true /\ k = Ok a.
Proof. destruct g; cbn [oguard]; intros H; [split; [reflexivity|exact H]|discriminate H]. Qed.
Lemma negb_Reqb x : negb (Reqb x 0) = true -> x <> 0.
Proof. destruct (Reqb_spec x 0); [discriminate|auto]. Qed.

(* ---------- what comes out ---------- *)
Section Out.
Variables (ex : R -> Z) (lib : functions).
Lemma root_pair_out order k K v0 n p : root_pair ex lib order k K v0 n = Ok p -> exists y, fst p = (0, y) /\ y <> 0.
Proof.
  unfold root_pair. cbv zeta. intros H. apply obind_ok in H as (zeta & _ & H). apply oguard_ok in H as (G & H). apply obind_ok in H as (w & _ & H). injection H as <-. apply negb_Reqb in G. cbn [fst]. eexists. split; [reflexivity|]. intros E. apply (f_equal (fun x => x * (k * fst zeta))) in E. replace (1 / (k * fst zeta) * (k * fst zeta)) with 1 in E by (field; split; intros X; rewrite X in G; apply G; ring). lra.
Qed.
Lemma root_pairs_out order k K v0 l : forall ps, root_pairs ex lib order k K v0 l = Ok ps -> length ps = length l /\ forall p, In p ps -> exists n, In n l /\ root_pair ex lib order k K v0 n = Ok p.
Proof.
  induction l as [|n r IH]; intros ps H; cbn [root_pairs] in H; [injection H as <-; split; [reflexivity|intros p []]|].
  apply obind_ok in H as (p & P & H). apply obind_ok in H as (q & Q & H). injection H as <-. destruct (IH q Q) as (L & I). split; [cbn; now rewrite L|]. intros p' [<-|Hp]; [exists n; split; [now left|exact P]|]. destruct (I p' Hp) as (n' & N & E). exists n'. split; [now right|exact E].
Qed.
Lemma real_poles_out order k K v0 rs : real_poles lib order k K v0 = Ok rs -> length rs = if even_order order then 0%nat else 1%nat.
Proof. unfold real_poles. destruct (even_order order); intros H; [injection H as <-; reflexivity|]. apply obind_ok in H as (w & _ & H). injection H as <-. reflexivity. Qed.
Lemma roots_out order ep es rs ps : elliptic_roots ex lib order ep es = Ok (rs, ps) ->
  length rs = (if even_order order then 0%nat else 1%nat) /\ length ps = Z.to_nat (Z.quot order 2) /\ (forall p, In p ps -> exists y, fst p = (0, y) /\ y <> 0) /\ ep <> 0 /\ es <> 0.
Proof.
  unfold elliptic_roots. cbv zeta. intros H. apply oguard_ok in H as (G1 & H). apply obind_ok in H as (k & _ & H). apply obind_ok in H as (K & _ & H). apply obind_ok in H as (K1 & _ & H). apply oguard_ok in H as (G2 & H). apply obind_ok in H as (a & _ & H). apply oguard_ok in H as (_ & H).
  apply obind_ok in H as (r & E1 & H). apply obind_ok in H as (q & E2 & H). injection H as -> ->. split; [now apply real_poles_out in E1|]. destruct (root_pairs_out _ _ _ _ _ _ E2) as (L & I). split; [rewrite L; unfold pair_indices; now rewrite seq_length|]. split; [|split; now apply negb_Reqb].
  intros p Hp. destruct (I p Hp) as (n & _ & E). now apply root_pair_out in E.
Qed.
End Out.

(* ---------- the C++ functions on the domain of the design ---------- *)
Lemma cc_k_is m : 0 <= m <= 1 -> cc_elliptic_k m = elliptic_k m.
Proof. intros M. unfold cc_elliptic_k. rewrite !Rltb_false by lra. reflexivity. Qed.
Lemma cc_am_is ex u m : 0 <= m < 1 -> cc_jacobi_amplitude ex u m = jacobi_amplitude ex u m.
Proof. intros M. rewrite cc_am, Rltb_false, Rltb_true by lra. reflexivity. Qed.
Lemma cc_sn ex u m : 0 <= m < 1 -> jacobi_sn (cc_functions ex) u m = jacobi_sn (c_functions ex) u m.
Proof. intros M. unfold jacobi_sn. cbn [f_am cc_functions c_functions]. now rewrite cc_am_is. Qed.
Lemma cc_cd ex u m : 0 <= m < 1 -> jacobi_cd ex (cc_functions ex) u m = jacobi_cd ex (c_functions ex) u m.
Proof. intros M. unfold jacobi_cd. cbn [f_am cc_functions c_functions]. now rewrite cc_am_is. Qed.
Lemma cc_isn ex w m : 0 <= m < 1 -> inverse_sn ex (cc_functions ex) w m = inverse_sn ex (c_functions ex) w m.
Proof.
  intros M. unfold inverse_sn. destruct (casin_ok ex w) as (a & -> & _ & B). cbn [obind f_f cc_functions c_functions]. rewrite cc_f. rewrite Rleb_true by (unfold Rabs; destruct (Rcase_abs (fst a)); lra). rewrite Rltb_false, Rltb_true by lra. reflexivity.
Qed.
Lemma cc_product ex order K m l : 0 <= m < 1 -> forall kp, sn_product (cc_functions ex) order K m l kp = sn_product (c_functions ex) order K m l kp.
Proof. intros M. induction l as [|n r IH]; intros kp; cbn [sn_product]; [reflexivity|]. rewrite cc_sn by exact M. destruct (jacobi_sn _ _ _) as [w| |]; cbn [obind]; [apply IH|reflexivity|reflexivity]. Qed.
Lemma cc_degree ex order k1 : 0 < k1 < 1 -> solve_degree (cc_functions ex) order k1 = solve_degree (c_functions ex) order k1.
Proof.
  intros K. unfold solve_degree. destruct (Rleb_spec 0 (1 - k1 * k1)) as [L|L]; [|exfalso; nra]. cbn [oguard]. cbv zeta. rewrite sqrt_sqrt by exact L. cbn [f_k cc_functions c_functions]. rewrite cc_k_is by nra. destruct (finite_k _) as [v| |]; cbn [obind]; try reflexivity. rewrite cc_product by nra. reflexivity.
Qed.
Lemma degree_range ex order k1 k : solve_degree (c_functions ex) order k1 = Ok k -> 0 <= k <= 1.
Proof.
  unfold solve_degree. cbv zeta. intros H. apply oguard_ok in H as (_ & H). apply obind_ok in H as (v & _ & H). apply obind_ok in H as (p & _ & H). apply oguard_ok in H as (_ & H). assert (E : forall x, sqrt (1 - x * x) <= 1) by (intros x; rewrite <- sqrt_1; apply sqrt_le_1_alt; rewrite sqrt_1; pose proof (Rle_0_sqr x) as X; unfold Rsqr in X; lra). injection H as <-. split; [apply sqrt_pos|apply E].
Qed.
Lemma finite_k_ok m v : finite_k (elliptic_k m) = Ok v -> elliptic_k m = Ok (Some v).
Proof. unfold finite_k. destruct (elliptic_k m) as [[x|]| |]; cbn [obind]; intros H; try discriminate H. now injection H as <-. Qed.
Lemma k_one : elliptic_k 1 = Ok None.
Proof. unfold elliptic_k. now rewrite (proj2 (Reqb_true_iff 1 1) eq_refl). Qed.
Lemma cc_pairs ex order k K v0 l : 0 <= k * k < 1 -> root_pairs ex (cc_functions ex) order k K v0 l = root_pairs ex (c_functions ex) order k K v0 l.
Proof.
  intros M. assert (P : forall n, root_pair ex (cc_functions ex) order k K v0 n = root_pair ex (c_functions ex) order k K v0 n) by (intros n; unfold root_pair; cbv zeta; rewrite !cc_cd by exact M; reflexivity).
  induction l as [|n r IH]; cbn [root_pairs]; [reflexivity|]. rewrite P, IH. reflexivity.
Qed.
Lemma cc_roots ex order ep es : 0 < ep < es -> elliptic_roots ex (cc_functions ex) order ep es = elliptic_roots ex (c_functions ex) order ep es.
Proof.
  intros E. unfold elliptic_roots. destruct (Reqb_spec es 0) as [X|_]; [lra|]. cbn [negb oguard]. cbv zeta. assert (K1 : 0 < ep / es < 1) by (split; [apply Rdiv_lt_0_compat; lra|apply (Rmult_lt_reg_r es); [lra|]; unfold Rdiv; rewrite Rmult_assoc, Rinv_l by lra; lra]).
  set (k1 := ep / es) in *. assert (M1 : 0 <= k1 * k1 < 1) by nra. rewrite cc_degree by exact K1. destruct (solve_degree _ _ _) as [k| |] eqn:D; cbn [obind]; try reflexivity. apply degree_range in D. cbn [f_k cc_functions c_functions]. rewrite !cc_k_is by nra.
  destruct (finite_k (elliptic_k (k * k))) as [K| |] eqn:FK; cbn [obind]; try reflexivity. assert (M : 0 <= k * k < 1). { split; [nra|]. destruct (Req_dec k 1) as [->|N]; [|nra]. rewrite Rmult_1_r, k_one in FK. discriminate FK. }
  destruct (finite_k (elliptic_k (k1 * k1))) as [K1'| |]; cbn [obind]; try reflexivity. destruct (negb (Reqb ep 0)); cbn [oguard]; [|reflexivity]. rewrite cc_isn by exact M1. destruct (inverse_sn _ _ _ _) as [a| |]; cbn [obind]; try reflexivity. destruct (negb _); cbn [oguard]; [|reflexivity].
  unfold real_poles. rewrite cc_sn by exact M. rewrite cc_pairs by exact M. reflexivity.
Qed.

(* ---------- the two representations ---------- *)
Definition raw (rs : list R) (ps : list (C * C)) (g : R) : pole_zero :=
  {| lone_zeros := []; lone_poles := rs; paired_zeros := map fst ps; paired_poles := map snd ps; pz_gain := g |}.
Lemma raw_is rs ps : fold_left (fun f r => add_pole r f) rs (fold_left (fun f (p : cplx * cplx) => add_pole_pair (snd p) (add_zero_pair (fst p) f)) ps pz_new) = raw rs ps 1.
Proof.
  assert (A : forall l f, fold_left (fun f (p : cplx * cplx) => add_pole_pair (snd p) (add_zero_pair (fst p) f)) l f = {| lone_zeros := lone_zeros f; lone_poles := lone_poles f; paired_zeros := paired_zeros f ++ map fst l; paired_poles := paired_poles f ++ map snd l; pz_gain := pz_gain f |}).
  { induction l as [|p l IH]; intros f; cbn [fold_left map]; [rewrite !app_nil_r; now destruct f|]. rewrite IH. unfold add_pole_pair, add_zero_pair. cbn [lone_zeros lone_poles paired_zeros paired_poles pz_gain]. rewrite <- !app_assoc. reflexivity. }
  assert (B : forall l f, fold_left (fun f r => add_pole r f) l f = {| lone_zeros := lone_zeros f; lone_poles := lone_poles f ++ l; paired_zeros := paired_zeros f; paired_poles := paired_poles f; pz_gain := pz_gain f |}).
  { induction l as [|p l IH]; intros f; cbn [fold_left]; [rewrite !app_nil_r; now destruct f|]. rewrite IH. unfold add_pole. cbn [lone_zeros lone_poles paired_zeros paired_poles pz_gain]. rewrite <- !app_assoc. reflexivity. }
  rewrite B, A. reflexivity.
Qed.
Definition raw_zpk (rs : list R) (ps : list (C * C)) (g : R) : zpk :=
  {| z_zeros := flat_map (fun p => conj_pair (fst p)) ps; z_poles := map (fun r => (r, 0)) rs ++ flat_map (fun p => conj_pair (snd p)) ps; z_gain := g |}.
Lemma raw_zeros rs ps g g' : Permutation (z_zeros (raw_zpk rs ps g)) (zeros (raw rs ps g')).
Proof. cbn [raw_zpk z_zeros]. unfold zeros, roots. cbn [raw lone_zeros paired_zeros map app]. apply (pairs_perm fst). Qed.
Lemma raw_poles rs ps g g' : Permutation (z_poles (raw_zpk rs ps g)) (poles (raw rs ps g')).
Proof. cbn [raw_zpk z_poles]. unfold poles, roots. cbn [raw lone_poles paired_poles]. apply Permutation_app; [reflexivity|apply (pairs_perm snd)]. Qed.
Lemma raw_stands rs ps g : stands_for (raw_zpk rs ps g) (raw rs ps g).
Proof. split; [apply raw_zeros|]. split; [apply raw_poles|reflexivity]. Qed.
Lemma raw_gain_irrelevant rs ps g g' s : pole_modulus s (raw rs ps g) = pole_modulus s (raw rs ps g') /\ zero_modulus s (raw rs ps g) = zero_modulus s (raw rs ps g').
Proof. split; reflexivity. Qed.
Lemma zeros_positive rs ps g : (forall p, In p ps -> exists y, fst p = (0, y) /\ y <> 0) -> 0 < zero_modulus (RtoC 0) (raw rs ps g).
Proof.
  intros H. apply modulus_pos. intros r Hr E. unfold zeros, roots in Hr. cbn [raw lone_zeros paired_zeros map app] in Hr. apply in_app_iff in Hr as [Hr|Hr].
  - apply in_map_iff in Hr as (p & Ep & Hp). destruct (H p Hp) as (y & F & N). assert (X : ((0, y) : C) = RtoC 0) by (rewrite <- E, <- Ep; symmetry; exact F). injection X as X. lra.
  - apply in_map_iff in Hr as (q & Eq & Hq). apply in_map_iff in Hq as (p & Ep & Hp). destruct (H p Hp) as (y & F & N). assert (X : Cconj (0, y) = RtoC 0) by (rewrite <- E, <- Eq, <- Ep; f_equal; symmetry; exact F). unfold Cconj in X. cbn [fst snd] in X. injection X as X. lra.
Qed.
(* no pole at zero, or failure *)
Lemma divide_all_no l : forall r v, divide_all l r = Ok v -> forall x, In x l -> x <> RtoC 0.
Proof.
  induction l as [|x l IH]; intros r v H y Hy; [destruct Hy|]. cbn [divide_all] in H. apply oguard_ok in H as (G & H). destruct Hy as [<-|Hy]; [|now apply (IH _ _ H)]. destruct (Ceqb_spec x (RtoC 0)) as [E|E]; [discriminate G|exact E].
Qed.
Lemma eval_only f s h : eval f s = Ok h -> forall p, In p (poles f) -> p <> s.
Proof.
  unfold eval. intros H. apply obind_ok in H as (r1 & E1 & H). apply obind_ok in H as (r2 & E2 & _). pose proof (divide_all_no _ _ _ E1) as A. pose proof (divide_all_no _ _ _ E2) as B.
  intros p Hp ->. unfold poles, roots in Hp. apply in_app_iff in Hp as [Hp|Hp]; [|apply in_app_iff in Hp as [Hp|Hp]].
  - apply in_map_iff in Hp as (x & <- & Hx). apply (A (Cminus (RtoC x) (RtoC x))); [|ring]. apply in_map_iff. exists x. now split.
  - apply (B (pair_factor s s)); [now apply in_map|]. unfold pair_factor. ring.
  - apply in_map_iff in Hp as (x & <- & Hx). apply (B (pair_factor (Cconj x) x)); [now apply in_map|]. unfold pair_factor. ring.
Qed.
Lemma unit_dc_only f g : unit_dc_gain f = Ok g -> 0 < pole_modulus (RtoC 0) f.
Proof. unfold unit_dc_gain. intros H. apply obind_ok in H as (h & E & _). apply modulus_pos. now apply (eval_only _ _ h). Qed.
Lemma set_dc_only ex f g p : Permutation (z_poles f) (poles p) -> set_dc_gain ex f = Ok g -> 0 < pole_modulus (RtoC 0) p.
Proof.
  intros P H. unfold set_dc_gain in H. apply obind_ok in H as (h & E & _). destruct (Ceq_dec (po (fun p => Cminus (RtoC 0) p) (z_poles f)) (RtoC 0)) as [Z|Z]; [change ((0, 0) : C) with (RtoC 0) in E; rewrite zpk_eval_undef in E by exact Z; discriminate E|].
  unfold pole_modulus. rewrite <- (po_perm _ _ _ P). now apply Cmod_gt_0.
Qed.
(* the final gain *)
Definition final_gain (order : Z) (ep : R) (p : pole_zero) : R :=
  pole_modulus (RtoC 0) p / zero_modulus (RtoC 0) p / (if even_order order then sqrt (1 + ep * ep) else 1).
Lemma zpk_finish ex order ep rs ps : (forall p, In p ps -> exists y, fst p = (0, y) /\ y <> 0) -> 0 < pole_modulus (RtoC 0) (raw rs ps 1) ->
  (f <- set_dc_gain ex (raw_zpk rs ps 1) ;;
   Ok (if even_order order then {| z_zeros := z_zeros f; z_poles := z_poles f; z_gain := z_gain f / sqrt (1 + ep * ep) |} else f)) = Ok (raw_zpk rs ps (final_gain order ep (raw rs ps 1))).
Proof.
  intros H P. pose proof (zeros_positive rs ps 1 H) as Z. rewrite (set_dc_is ex (raw_zpk rs ps 1) (raw rs ps 1) (raw_zeros rs ps 1 1) (raw_poles rs ps 1 1) eq_refl P Z). cbn [obind raw_zpk z_zeros z_poles z_gain]. unfold final_gain, raw_zpk. destruct (even_order order); [reflexivity|]. assert (D : forall x, x / 1 = x) by (intros; field). rewrite D. reflexivity.
Qed.
Lemma pz_finish order ep rs ps : (forall p, In p ps -> exists y, fst p = (0, y) /\ y <> 0) -> 0 < pole_modulus (RtoC 0) (raw rs ps 1) ->
  (f <- unit_dc_gain (raw rs ps 1) ;; Ok (if even_order order then set_gain (pz_gain f / sqrt (1 + ep * ep)) f else f)) = Ok (raw rs ps (final_gain order ep (raw rs ps 1))).
Proof.
  intros H P. pose proof (zeros_positive rs ps 1 H) as Z. rewrite (unit_dc_is (raw rs ps 1) eq_refl P Z). cbn [obind]. unfold final_gain, raw, set_gain. cbn [lone_zeros lone_poles paired_zeros paired_poles pz_gain]. destruct (even_order order); [reflexivity|]. assert (D : forall x, x / 1 = x) by (intros; field). rewrite D. reflexivity.
Qed.
