(* The elliptic prototype: structure, agreement of the two versions, zeros, failures. *)
From Verif Require Import Common ListLemmas RealUtil CInt BiquadModel DesignSpec CascadeSpec PoleZeroModel PoleZeroSpec PoleZeroProofs PoleZeroProofs3 PoleZeroProofs9 ComplexModel ComplexProofs EllipticModel EllipticProofs6 ZpkModel ZpkSpec ZpkProofs ZpkProofs2 ZpkProofs5 ZpkProofs7 EllipticDesignModel EllipticDesignSpec EllipticDesignProofs EllipticDesignProofs2.
From Coq Require Import Permutation.
From Coquelicot Require Import Complex.
Local Open Scope R_scope.
Local Notation C := Complex.C.

Lemma zpk_out ex order rp rs f : elliptic_zpk ex order rp rs = Ok (Some f) ->
  (1 <= order <= 30)%Z /\ exists ep es lr ps, ripple_epsilon rp = Ok ep /\ ripple_epsilon rs = Ok es /\ elliptic_roots ex (c_functions ex) order ep es = Ok (lr, ps) /\
    0 < pole_modulus (RtoC 0) (raw lr ps 1) /\ f = raw_zpk lr ps (final_gain order ep (raw lr ps 1)).
Proof.
  unfold elliptic_zpk, with_order. destruct (Z.ltb_spec order 1) as [L|L]; [discriminate|]. intros H. apply oguard_ok in H as (G & H). unfold max_degree in G. apply Z.leb_le in G. split; [lia|].
  unfold omap in H. apply obind_ok in H as (f' & H & E'). injection E' as E'. subst f'. apply obind_ok in H as (ep & E1 & H). apply obind_ok in H as (es & E2 & H). apply obind_ok in H as ((lr, ps) & E3 & H).
  exists ep, es, lr, ps. split; [exact E1|]. split; [exact E2|]. split; [exact E3|]. destruct (roots_out _ _ _ _ _ _ _ E3) as (_ & _ & I & _). change (obind (set_dc_gain ex (raw_zpk lr ps 1)) (fun f => Ok (if even_order order then {| z_zeros := z_zeros f; z_poles := z_poles f; z_gain := z_gain f / sqrt (1 + ep * ep) |} else f)) = Ok f) in H.
  assert (P : 0 < pole_modulus (RtoC 0) (raw lr ps 1)) by (apply obind_ok in H as (g & S & _); exact (set_dc_only ex _ g _ (raw_poles lr ps 1 1) S)). split; [exact P|]. rewrite (zpk_finish ex order ep lr ps I P) in H. now injection H as <-.
Qed.
Lemma zpk_in ex order rp rs ep es lr ps : (1 <= order <= 30)%Z -> ripple_epsilon rp = Ok ep -> ripple_epsilon rs = Ok es -> elliptic_roots ex (c_functions ex) order ep es = Ok (lr, ps) ->
  0 < pole_modulus (RtoC 0) (raw lr ps 1) -> elliptic_zpk ex order rp rs = Ok (Some (raw_zpk lr ps (final_gain order ep (raw lr ps 1)))).
Proof.
  intros O E1 E2 E3 P. unfold elliptic_zpk, with_order. replace (order <? 1)%Z with false by lia. replace (order <=? Z.of_nat max_degree)%Z with true by (unfold max_degree; lia). cbn [oguard]. rewrite E1, E2. cbn [obind]. rewrite E3. cbn [obind]. destruct (roots_out _ _ _ _ _ _ _ E3) as (_ & _ & I & _).
  match goal with |- omap Some ?m = _ => replace m with (Ok (raw_zpk lr ps (final_gain order ep (raw lr ps 1)))); [reflexivity|] end. symmetry. exact (zpk_finish ex order ep lr ps I P).
Qed.
Lemma epsilon_only db e : ripple_epsilon db = Ok e -> e = sqrt (Rpower 10 (db / 10) - 1) /\ 0 <= Rpower 10 (db / 10) - 1.
Proof.
  unfold ripple_epsilon. assert (E : exp (ln 10 / 10 * db) = Rpower 10 (db / 10)) by (unfold Rpower; f_equal; field). rewrite E. intros H. apply oguard_ok in H as (G & H). injection H as <-. split; [reflexivity|]. destruct (Rleb_spec 0 (Rpower 10 (db / 10) - 1)); [assumption|discriminate G].
Qed.
Lemma ripple_root db e : ripple_epsilon db = Ok e -> / sqrt (1 + e * e) = Rpower 10 (- db / 20).
Proof.
  intros H. apply epsilon_only in H as (-> & P). rewrite sqrt_sqrt by exact P. replace (1 + (Rpower 10 (db / 10) - 1)) with (Rpower 10 (db / 10)) by ring. replace (Rpower 10 (db / 10)) with (Rpower 10 (db / 20) * Rpower 10 (db / 20)) by (rewrite <- Rpower_plus; f_equal; field).
  rewrite sqrt_square by (left; apply exp_pos). rewrite <- Rpower_Ropp. f_equal. field.
Qed.
Lemma pairs_length {A} (g : A -> cplx) (l : list A) : length (flat_map (fun p => conj_pair (g p)) l) = (2 * length l)%nat.
Proof. induction l as [|a l IH]; cbn [flat_map length app]; [reflexivity|]. rewrite app_length, IH. cbn. lia. Qed.
Lemma order_split order : (1 <= order)%Z -> ((if even_order order then 0 else 1) + 2 * Z.quot order 2 = order)%Z.
Proof.
  intros O. unfold even_order. pose proof (Z.quot_rem' order 2) as Q. pose proof (Z.rem_bound_pos order 2 ltac:(lia) ltac:(lia)) as B. destruct (Z.eqb_spec (Z.rem order 2) 0); lia.
Qed.
Theorem structure ex order rp rs f : elliptic_zpk ex order rp rs = Ok (Some f) ->
  Z.of_nat (length (z_poles f)) = order /\ Z.of_nat (length (z_zeros f)) = (order - Z.rem order 2)%Z /\ real_filter f /\
  (forall z, In z (z_zeros f) -> fst z = 0 /\ snd z <> 0) /\ (forall p, In p (z_poles f) -> p <> RtoC 0) /\ 0 < z_gain f /\
  exists h, zpk_value f (RtoC 0) h /\ Cmod h = if even_order order then Rpower 10 (- rp / 20) else 1.
Proof.
  intros H. apply zpk_out in H as (O & ep & es & lr & ps & E1 & E2 & E3 & P & ->). destruct (roots_out _ _ _ _ _ _ _ E3) as (L1 & L2 & I & _). pose proof (order_split order ltac:(lia)) as OS. pose proof (zeros_positive lr ps 1 I) as Z.
  assert (Q : 0 < / (if even_order order then sqrt (1 + ep * ep) else 1)) by (apply Rinv_0_lt_compat; destruct (even_order order); [apply sqrt_lt_R0; pose proof (Rle_0_sqr ep) as X; unfold Rsqr in X; lra|lra]).
  assert (G : 0 < final_gain order ep (raw lr ps 1)) by (unfold final_gain, Rdiv; repeat apply Rmult_lt_0_compat; try assumption; now apply Rinv_0_lt_compat).
  set (g := final_gain order ep (raw lr ps 1)) in *. split; [|split; [|split; [|split; [|split; [|split]]]]].
  - cbn [raw_zpk z_poles]. rewrite app_length, map_length, pairs_length. change cplx with C in *. rewrite L1, L2. destruct (even_order order); lia.
  - cbn [raw_zpk z_zeros]. rewrite pairs_length. change cplx with C in *. rewrite L2. unfold even_order in OS. pose proof (Z.rem_bound_pos order 2 ltac:(lia) ltac:(lia)) as B. destruct (Z.eqb_spec (Z.rem order 2) 0); lia.
  - exact (stands_real _ _ (raw_stands lr ps g)).
  - intros z Hz. cbn [raw_zpk z_zeros] in Hz. apply in_flat_map in Hz as (p & Hp & [Hz|[Hz|[]]]); destruct (I p Hp) as (y & F & N); assert (F1 : fst (fst p) = 0) by exact (f_equal fst F); assert (F2 : snd (fst p) = y) by exact (f_equal snd F); rewrite <- Hz; unfold cconj; cbn [fst snd]; split; try exact F1; try (rewrite F2; lra).
  - intros p Hp E. subst p. apply (Permutation_in _ (raw_poles lr ps g 1)) in Hp. unfold pole_modulus in P. apply Cmod_gt_0 in P. apply (proj1 (po_neq _ _) P (RtoC 0) Hp). ring.
  - exact G.
  - destruct (modulus_value (raw lr ps g) (RtoC 0) P ltac:(cbn [raw pz_gain]; lra)) as (h & V & M). exists h. split; [apply (stands_value _ _ _ _ (raw_stands lr ps g)); exact V|]. rewrite M. cbn [raw pz_gain].
    change (pole_modulus (RtoC 0) {| lone_zeros := []; lone_poles := lr; paired_zeros := map fst ps; paired_poles := map snd ps; pz_gain := g |}) with (pole_modulus (RtoC 0) (raw lr ps 1)).
    change (zero_modulus (RtoC 0) {| lone_zeros := []; lone_poles := lr; paired_zeros := map fst ps; paired_poles := map snd ps; pz_gain := g |}) with (zero_modulus (RtoC 0) (raw lr ps 1)).
    unfold g, final_gain. rewrite <- (ripple_root rp ep E1). set (pm := pole_modulus _ _) in *. set (zm := zero_modulus _ _) in *. destruct (even_order order); [|field; lra]. assert (sqrt (1 + ep * ep) <> 0) by (intros X; rewrite X, Rinv_0 in Q; lra). field. lra.
Qed.
(* ---------- the C++ prototype ---------- *)
Lemma ripple_order rp rs : 0 < rp < rs -> 0 < ripple rp < ripple rs.
Proof.
  intros H. destruct (ripple_pos rp ltac:(lra)) as (A & _). split; [exact A|]. pose proof (Rpower_gt_1 (rp / 10) ltac:(lra)). unfold ripple. apply sqrt_lt_1_alt. split; [lra|]. assert (Rpower 10 (rp / 10) < Rpower 10 (rs / 10)) by (apply Rpower_lt; lra). lra.
Qed.
Theorem agree ex order rp rs : (1 <= order <= 30)%Z -> 0 < rp < rs ->
  (forall f, elliptic_zpk ex order rp rs = Ok (Some f) -> exists g, elliptic_prototype ex order rp rs = Ok g /\ stands_for f g) /\
  (forall g, elliptic_prototype ex order rp rs = Ok g -> exists f, elliptic_zpk ex order rp rs = Ok (Some f) /\ stands_for f g).
Proof.
  intros O D. pose proof (ripple_order rp rs D) as RO. assert (E1 : ripple_epsilon rp = Ok (ripple rp)) by (apply epsilon_ok; lra). assert (E2 : ripple_epsilon rs = Ok (ripple rs)) by (apply epsilon_ok; lra).
  assert (PE : elliptic_prototype ex order rp rs = (' (lr, ps) <- elliptic_roots ex (c_functions ex) order (ripple rp) (ripple rs) ;; f <- unit_dc_gain (raw lr ps 1) ;; Ok (if even_order order then set_gain (pz_gain f / sqrt (1 + ripple rp * ripple rp)) f else f))).
  { unfold elliptic_prototype. replace (1 <=? order)%Z with true by lia. rewrite !Rltb_true by lra. cbn [ocheck]. cbv zeta. fold (ripple rp). fold (ripple rs). rewrite cc_roots by exact RO. destruct (elliptic_roots _ _ _ _ _) as [(lr, ps)| |]; cbn [obind]; try reflexivity. rewrite raw_is. reflexivity. }
  split.
  - intros f H. apply zpk_out in H as (_ & ep & es & lr & ps & X1 & X2 & X3 & P & ->). rewrite E1 in X1. injection X1 as <-. rewrite E2 in X2. injection X2 as <-. destruct (roots_out _ _ _ _ _ _ _ X3) as (_ & _ & I & _). rewrite PE, X3. cbn [obind]. rewrite (pz_finish order _ lr ps I P). eexists. split; [reflexivity|apply raw_stands].
  - intros g H. rewrite PE in H. apply obind_ok in H as ((lr, ps) & X3 & H). destruct (roots_out _ _ _ _ _ _ _ X3) as (_ & _ & I & _). assert (P : 0 < pole_modulus (RtoC 0) (raw lr ps 1)) by (apply obind_ok in H as (u & U & _); exact (unit_dc_only _ _ U)).
    rewrite (pz_finish order _ lr ps I P) in H. injection H as <-. eexists. split; [exact (zpk_in ex order rp rs _ _ lr ps O E1 E2 X3 P)|apply raw_stands].
Qed.
(* ---------- the degree equation and the zeros ---------- *)
Fixpoint lower (n : Z) (l : list nat) : R := match l with [] => 1 | i :: r => 99 / 100 * ((2 * INR i + 1) / IZR n) * lower n r end.
Definition small_args (n : Z) (l : list nat) : Prop := forall i, In i l -> 0 < (2 * INR i + 1) / IZR n <= 29 / 30.
Lemma indices_small n : (1 <= n <= 30)%Z -> small_args n (pair_indices n).
Proof.
  intros O i Hi. unfold pair_indices in Hi. apply in_seq in Hi. pose proof (order_split n ltac:(lia)) as S. assert (J : (2 * Z.of_nat i + 1 <= n - 1)%Z) by (destruct (even_order n); lia).
  assert (J' : 2 * INR i + 1 <= IZR n - 1) by (rewrite INR_IZR_INZ, <- mult_IZR, <- plus_IZR, <- minus_IZR; now apply IZR_le). assert (N : 1 <= IZR n <= 30) by (split; apply IZR_le; lia). pose proof (pos_INR i). split; [apply Rdiv_lt_0_compat; lra|].
  apply (Rmult_le_reg_r (IZR n)); [lra|]. unfold Rdiv at 1. rewrite Rmult_assoc, Rinv_l by lra. lra.
Qed.
Lemma product_ok ex n m v : 0 <= m <= 1 - / 2 ^ 53 -> elliptic_k m = Ok (Some v) -> forall l kp, small_args n l -> 0 < kp ->
  exists r, sn_product (c_functions ex) n v m l kp = Ok r /\ kp * lower n l <= r <= kp.
Proof.
  intros M V. induction l as [|i l IH]; intros kp A K; cbn [sn_product lower]; [exists kp; split; [reflexivity|lra]|].
  set (t := (2 * INR i + 1) / IZR n). assert (T : 0 < t <= 29 / 30) by (apply A; now left). replace (argument n v i) with (t * v) by (unfold argument, t, Rdiv; ring). destruct (sn_real ex m v t M V T) as (y & E & Y). rewrite E. cbn [obind fst].
  assert (YY : 99 / 100 * t <= y) by lra. destruct (IH (kp * y) (fun j Hj => A j (or_intror Hj)) ltac:(nra)) as (r & E' & B). exists r. split; [exact E'|]. assert (LP : 0 <= lower n l).
  { clear - A. assert (B : small_args n l) by (intros j Hj; apply A; now right). clear A. induction l as [|j l IH]; cbn [lower]; [lra|]. pose proof (B j (or_introl eq_refl)). apply Rmult_le_pos; [lra|]. apply IH. intros j' Hj. apply B. now right. }
  split; [|nra]. apply Rle_trans with (kp * y * lower n l); [|lra]. replace (kp * (99 / 100 * t * lower n l)) with (kp * (99 / 100 * t) * lower n l) by ring. apply Rmult_le_compat_r; [exact LP|]. apply Rmult_le_compat_l; lra.
Qed.
Lemma lower_bound n : (1 <= n <= 9)%Z -> 1 / 2 ^ 53 <= (3 / 4) ^ Z.to_nat n * lower n (pair_indices n) ^ 8 /\ 0 < lower n (pair_indices n).
Proof.
  intros N. assert (C : (n = 1 \/ n = 2 \/ n = 3 \/ n = 4 \/ n = 5 \/ n = 6 \/ n = 7 \/ n = 8 \/ n = 9)%Z) by lia.
  assert (E : forall (a b : nat) m, Z.to_nat m = a -> Z.to_nat (Z.quot m 2) = b -> 1 / 2 ^ 53 <= (3 / 4) ^ a * lower m (seq 0 b) ^ 8 /\ 0 < lower m (seq 0 b) -> 1 / 2 ^ 53 <= (3 / 4) ^ Z.to_nat m * lower m (pair_indices m) ^ 8 /\ 0 < lower m (pair_indices m)) by (intros a b m E1 E2; unfold pair_indices; rewrite E1, E2; auto).
  decompose [or] C; clear C; subst n; (eapply E; [vm_compute; reflexivity|vm_compute; reflexivity|]); cbn [seq lower INR]; split; lra.
Qed.
Lemma degree_ok ex n k1 : (1 <= n <= 9)%Z -> 0 < k1 -> / 2 ^ 53 <= k1 * k1 <= 1 / 4 -> exists k, solve_degree (c_functions ex) n k1 = Ok k /\ 0 < k /\ k * k <= 1 - / 2 ^ 53.
Proof.
  intros N K0 K1. pose proof pow53 as P53. unfold solve_degree. rewrite Rleb_true by lra. cbn [oguard]. cbv zeta. set (s := sqrt (1 - k1 * k1)). assert (S0 : 0 < s) by (apply sqrt_lt_R0; lra). assert (SS : s * s = 1 - k1 * k1) by (apply sqrt_sqrt; lra). rewrite SS. cbn [f_k c_functions].
  destruct (k_finite (1 - k1 * k1) ltac:(nra)) as (v & V & VP). rewrite V. cbn [finite_k obind]. destruct (product_ok ex n (1 - k1 * k1) v ltac:(lra) V (pair_indices n) 1 (indices_small n ltac:(lia)) ltac:(lra)) as (r & E & B). rewrite E. cbn [obind]. destruct (lower_bound n N) as (LB & LP).
  set (l := lower n (pair_indices n)) in *. set (kp := s ^ Z.to_nat n * r ^ 4). rewrite Rmult_1_l in B.
  assert (Q : kp * kp = (s * s) ^ Z.to_nat n * r ^ 8) by (unfold kp; rewrite Rpow_mult_distr; ring). 
  assert (QL : / 2 ^ 53 <= kp * kp). { rewrite Q, SS. replace (/ 2 ^ 53) with (1 / 2 ^ 53) by field. apply Rle_trans with (1 := LB). apply Rmult_le_compat; [apply pow_le; lra|apply pow_le; lra| |]; apply pow_incr; lra. }
  assert (QU : kp * kp < 1). { rewrite Q, SS. assert (A : (1 - k1 * k1) ^ Z.to_nat n <= (1 - k1 * k1) ^ 1) by (apply Rle_pow_le1 || idtac; assert (NN : (1 <= Z.to_nat n)%nat) by lia; clear - NN K1 K0 P53; set (x := 1 - k1 * k1); assert (X : 0 <= x <= 1) by (unfold x; nra); destruct (Z.to_nat n) as [|j]; [lia|]; cbn [pow]; rewrite Rmult_1_r; assert (x ^ j <= 1) by (rewrite <- (pow1 j); apply pow_incr; lra); nra).
    assert (A8 : 0 <= r ^ 8 <= 1) by (split; [apply pow_le; lra|rewrite <- (pow1 8); apply pow_incr; lra]). rewrite pow_1 in A. assert (0 <= (1 - k1 * k1) ^ Z.to_nat n) by (apply pow_le; lra). nra. }
  rewrite Rleb_true by lra. cbn [oguard]. eexists. split; [reflexivity|]. split; [apply sqrt_lt_R0; lra|]. rewrite sqrt_sqrt by lra. lra.
Qed.
Lemma apart_k1 rp rs : ripples_apart rp rs -> 0 < rp < rs /\ let k1 := ripple rp / ripple rs in 0 < k1 /\ / 2 ^ 53 <= k1 * k1 <= 1 / 4.
Proof.
  intros (P & A & B). pose proof (Rpower_gt_1 (rp / 10) ltac:(lra)) as P1. assert (O : 0 < rp < rs). { split; [exact P|]. destruct (Rlt_dec rp rs) as [L|L]; [exact L|exfalso]. assert (Rpower 10 (rs / 10) <= Rpower 10 (rp / 10)) by (apply Rle_Rpower; lra). lra. }
  split; [exact O|]. cbv zeta. destruct (ripple_pos rp P) as (R1 & Q1). destruct (ripple_pos rs ltac:(lra)) as (R2 & Q2). split; [apply Rdiv_lt_0_compat; lra|]. replace (ripple rp / ripple rs * (ripple rp / ripple rs)) with ((ripple rp * ripple rp) / (ripple rs * ripple rs)) by (field; lra). rewrite Q1, Q2.
  assert (X0 : 0 < Rpower 10 (rp / 10) - 1) by lra. set (x := Rpower 10 (rp / 10) - 1) in *. set (y := Rpower 10 (rs / 10) - 1) in *. split.
  - apply (Rmult_le_reg_r y); [lra|]. unfold Rdiv. rewrite (Rmult_assoc x), Rinv_l by lra. lra.
  - apply (Rmult_le_reg_r y); [lra|]. unfold Rdiv at 1. rewrite (Rmult_assoc x), Rinv_l by lra. lra.
Qed.
Theorem zeros_beyond ex order rp rs f : ripples_apart rp rs -> (order <= 9)%Z -> elliptic_zpk ex order rp rs = Ok (Some f) -> forall z, In z (z_zeros f) -> 1 < Cmod z.
Proof.
  intros A O9 H. destruct (apart_k1 rp rs A) as (RO & K0 & K1). cbv zeta in K0, K1. apply zpk_out in H as (O & ep & es & lr & ps & E1 & E2 & E3 & P & ->). rewrite epsilon_ok in E1 by lra. injection E1 as <-. rewrite epsilon_ok in E2 by lra. injection E2 as <-.
  unfold elliptic_roots in E3. cbv zeta in E3. apply oguard_ok in E3 as (_ & E3). set (k1 := ripple rp / ripple rs) in *. destruct (degree_ok ex order k1 ltac:(lia) K0 K1) as (k & D & KP & KK). rewrite D in E3. cbn [obind f_k c_functions] in E3. apply obind_ok in E3 as (K & FK & E3). apply finite_k_ok in FK. apply obind_ok in E3 as (K1' & _ & E3). apply oguard_ok in E3 as (_ & E3). apply obind_ok in E3 as (a & _ & E3). apply oguard_ok in E3 as (_ & E3). apply obind_ok in E3 as (r & _ & E3). apply obind_ok in E3 as (q & E4 & E3). injection E3 as -> ->.
  destruct (root_pairs_out ex (c_functions ex) _ _ _ _ _ _ E4) as (_ & I). intros z Hz. cbn [raw_zpk z_zeros] in Hz. apply in_flat_map in Hz as (p & Hp & Hz). destruct (I p Hp) as (n & Hn & E). unfold root_pair in E. cbv zeta in E. pose proof (indices_small order ltac:(lia) n Hn) as T. set (t := (2 * INR n + 1) / IZR order) in *. replace (argument order K n) with (t * K) in E by (unfold argument, t, Rdiv; ring).
  destruct (cd_real ex (k * k) K t ltac:(split; nra) FK T) as (zeta & EZ & Z). rewrite EZ in E. cbn [obind fst] in E. apply oguard_ok in E as (_ & E). apply obind_ok in E as (w & _ & E). injection E as <-. pose proof pow53 as P53. assert (KL : k < 1) by nra. assert (KZ : 0 < k * zeta < 1) by nra. assert (Y : 1 < 1 / (k * zeta)). { apply (Rmult_lt_reg_r (k * zeta)); [lra|]. replace (1 / (k * zeta) * (k * zeta)) with 1 by (field; lra). lra. }
  assert (CM : Cmod (0, 1 / (k * zeta)) = 1 / (k * zeta)) by (unfold Cmod; cbn [fst snd]; replace (0 ^ 2 + (1 / (k * zeta)) ^ 2) with ((1 / (k * zeta)) * (1 / (k * zeta))) by ring; apply sqrt_square; lra).
  destruct Hz as [Hz|[Hz|[]]]; rewrite <- Hz; [change (cconj ?x) with (Cconj x); rewrite Cmod_Cconj|]; cbn [fst]; change (1 < Cmod (0, 1 / (k * zeta))); lra.
Qed.
