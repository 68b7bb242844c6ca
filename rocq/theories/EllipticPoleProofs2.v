(* The roots of the elliptic prototypes in terms of elliptic integrals. *)
From Verif Require Import Common ListLemmas RealUtil CInt DesignSpec PoleZeroModel PoleZeroSpec PoleZeroProofs9 ComplexModel ComplexProofs EllipticModel EllipticSpec EllipticAxisSpec EllipticProofs EllipticProofs2 EllipticProofs4 EllipticProofs5 EllipticAxisProofs EllipticAxisProofs2 EllipticAxisProofs3 EllipticProps EllipticPathSpec EllipticPathProofs EllipticPathProofs2 ZpkModel ZpkSpec ZpkProofs7 EllipticDesignModel EllipticDesignProofs EllipticDesignProofs2 EllipticDesignProofs3 EllipticDesignProofs4 EllipticDesignProofs5 EllipticDesignProofs6 EllipticStableProofs EllipticStableProofs2 EllipticStableProofs3 EllipticStableProofs4 EllipticPoleSpec EllipticPoleProofs.
From Coquelicot Require Import Coquelicot.
Local Open Scope R_scope.
Local Notation C := Complex.C.

Lemma index_args n i : (2 <= n <= 10)%Z -> (2 * Z.of_nat i + 1 < n)%Z -> In i (pair_indices n) /\ 0 < (2 * INR i + 1) / IZR n <= 9 / 10.
Proof.
  intros N I. assert (A : In i (pair_indices n)) by (unfold pair_indices; apply in_seq; pose proof (EllipticDesignProofs3.order_split n ltac:(lia)) as S; destruct (even_order n); lia). split; [exact A|]. apply (indices_tight n ltac:(lia) i A).
Qed.
(* ---------- the degree equation ---------- *)
Definition angle (ex : R -> Z) (n : Z) (v m : R) (i : nat) : R := match jacobi_amplitude ex (argument n v i, 0) m with Ok w => fst w | _ => 0 end.
Lemma angle_is ex n v m i : 0 <= m <= 1 - / 2 ^ 53 -> 0 < (2 * INR i + 1) / IZR n <= 9 / 10 -> Rabs (v - K m) <= / 10 ^ 12 * K m -> let th := angle ex n v m i in
  jacobi_amplitude ex (argument n v i, 0) m = Ok (th, 0) /\ - (PI / 2) <= th <= PI / 2 /\ Rabs (F th m - (2 * INR i + 1) / IZR n * K m) <= / 10 ^ 11 * K m.
Proof.
  intros M T V. cbv zeta. pose proof pow53 as P53. assert (M1 : 0 <= m < 1) by lra. pose proof (K_pos m M1) as KP. pose proof PI_RGT_0 as PP. set (t := (2 * INR i + 1) / IZR n) in *. assert (AE : argument n v i = t * v) by (unfold argument, t, Rdiv; ring). assert (E12 : 0 < / 10 ^ 12 <= / 100) by (split; [apply Rinv_0_lt_compat; lra|apply Rinv_le_contravar; lra]).
  assert (VB : (1 - / 10 ^ 12) * K m <= v <= (1 + / 10 ^ 12) * K m) by (unfold Rabs in V; destruct (Rcase_abs (v - K m)); lra). assert (V0 : 0 < v) by nra.
  assert (U : Rabs (t * v) <= K m). { rewrite Rabs_pos_eq by nra. apply Rle_trans with (9 / 10 * ((1 + / 10 ^ 12) * K m)); [apply Rmult_le_compat; lra|nra]. }
  destruct (amplitude_close ex m (t * v) M U) as (th & E & R1 & B). unfold angle. rewrite AE, E. cbn [fst]. split; [reflexivity|]. split; [exact R1|]. assert (E102 : / 2 ^ 102 <= / 10 ^ 12) by (apply Rinv_le_contravar; lra). assert (B2 : / 2 ^ 102 * K m <= / 10 ^ 12 * K m) by (apply Rmult_le_compat_r; lra).
  replace (F th m - t * K m) with ((F th m - t * v) + t * (v - K m)) by ring. apply Rle_trans with (1 := Rabs_triang _ _). rewrite Rabs_mult, (Rabs_pos_eq t) by lra. pose proof (Rabs_pos (v - K m)). assert (t * Rabs (v - K m) <= 1 * (/ 10 ^ 12 * K m)) by (apply Rmult_le_compat; lra). assert (/ 10 ^ 12 = / 10 ^ 11 * / 10) by (field). nra.
Qed.
Fixpoint sine_list (th : nat -> R) (l : list nat) : R := match l with [] => 1 | i :: r => sin (th i) * sine_list th r end.
Lemma sine_list_app th l l' : sine_list th (l ++ l') = sine_list th l * sine_list th l'.
Proof. induction l as [|i l IH]; cbn [app sine_list]; [ring|]. rewrite IH. ring. Qed.
Lemma sine_list_seq th n : sine_list th (seq 0 n) = sines th n.
Proof. induction n as [|n IH]; [reflexivity|]. rewrite seq_S, sine_list_app, IH. cbn [sines sine_list Nat.add]. ring. Qed.
Lemma product_is ex n v m : 0 <= m <= 1 - / 2 ^ 53 -> Rabs (v - K m) <= / 10 ^ 12 * K m -> forall l kp, tight_args n l -> sn_product (c_functions ex) n v m l kp = Ok (kp * sine_list (angle ex n v m) l).
Proof.
  intros M V. induction l as [|i l IH]; intros kp A; cbn [sn_product sine_list]; [f_equal; ring|]. destruct (angle_is ex n v m i M (A i (or_introl eq_refl)) V) as (E & _). unfold jacobi_sn. cbn [f_am c_functions]. rewrite E. cbn [obind]. rewrite csin_real. cbn [fst]. rewrite IH by (intros j Hj; apply A; now right). f_equal. ring.
Qed.
Lemma degree_is ex n k1 k : (2 <= n <= 10)%Z -> / 2 ^ 53 <= k1 * k1 -> 0 < k1 <= 101 / 1000 -> solve_degree (c_functions ex) n k1 = Ok k ->
  exists theta, k * k = 1 - (sqrt (1 - k1 * k1) ^ Z.to_nat n * sines theta (Z.to_nat (n / 2)) ^ 4) ^ 2 /\
    forall i, (2 * Z.of_nat i + 1 < n)%Z -> - (PI / 2) <= theta i <= PI / 2 /\ Rabs (F (theta i) (1 - k1 * k1) - (2 * INR i + 1) / IZR n * K (1 - k1 * k1)) <= / 10 ^ 11 * K (1 - k1 * k1).
Proof.
  intros N K2 K1 D. pose proof pow53 as P53. assert (KK : 0 < k1 * k1 <= 11 / 1000) by nra. assert (SS : sqrt (1 - k1 * k1) * sqrt (1 - k1 * k1) = 1 - k1 * k1) by (apply sqrt_sqrt; lra). unfold solve_degree in D. rewrite Rleb_true in D by lra. cbn [oguard] in D. cbv zeta in D. rewrite SS in D. cbn [f_k c_functions] in D. set (m := 1 - k1 * k1) in *. assert (M : 0 <= m <= 1 - / 2 ^ 53) by (unfold m; lra).
  assert (V : exists v, elliptic_k m = Ok (Some v) /\ Rabs (v - K m) <= / 10 ^ 12 * K m).
  { destruct (Rle_dec m (1 - / 10 ^ 12)) as [L|L].
    - destruct (proj1 C92_complete m ltac:(lra)) as (v & E & B). exists v. split; [exact E|]. pose proof (K_pos m ltac:(lra)) as KP. pose proof PI_RGT_0. assert (/ 2 ^ 104 <= / 10 ^ 12) by (apply Rinv_le_contravar; lra). assert (0 < / 2 ^ 104) by (apply Rinv_0_lt_compat; lra). assert (V0 : 0 <= v) by nra. rewrite Rabs_minus_sym, Rabs_pos_eq by lra. nra.
    - destruct (proj1 (proj2 C92_complete) m ltac:(lra)) as (v & E & B). now exists v. }
  destruct V as (v & V & VB). rewrite V in D. cbn [finite_k obind] in D. rewrite (product_is ex n v m M VB (pair_indices n) 1 (indices_tight n ltac:(lia))) in D. cbn [obind] in D. rewrite Rmult_1_l in D. unfold pair_indices in D. rewrite sine_list_seq in D. rewrite Z.quot_div_nonneg in D by lia. exists (angle ex n v m). split.
  - destruct (Rleb_spec 0 (1 - sqrt m ^ Z.to_nat n * sines (angle ex n v m) (Z.to_nat (n / 2)) ^ 4 * (sqrt m ^ Z.to_nat n * sines (angle ex n v m) (Z.to_nat (n / 2)) ^ 4))) as [G|G]; cbn [oguard] in D; [|discriminate]. injection D as <-. rewrite sqrt_sqrt by exact G. ring.
  - intros i I. destruct (index_args n i N I) as (_ & T). exact (proj2 (angle_is ex n v m i M T VB)).
Qed.
(* ---------- zeros, poles and the real pole ---------- *)
Lemma pairs_have ex n k L v0 : forall l ps, root_pairs ex (c_functions ex) n k L v0 l = Ok ps -> forall i, In i l -> exists p, In p ps /\ root_pair ex (c_functions ex) n k L v0 i = Ok p.
Proof.
  induction l as [|j l IH]; intros ps E i I; cbn [root_pairs] in E; [destruct I|]. destruct (root_pair ex (c_functions ex) n k L v0 j) as [p| |] eqn:P; cbn [obind] in E; try discriminate. destruct (root_pairs ex (c_functions ex) n k L v0 l) as [qs| |] eqn:Q; cbn [obind] in E; try discriminate. injection E as <-.
  destruct I as [<-|I]; [exists p; split; [now left|exact P]|]. destruct (IH qs eq_refl i I) as (q & H & Z). exists q. split; [now right|exact Z].
Qed.
Lemma zero_is ex m k L t z : 0 < k -> k * k = m -> 0 <= m <= 1 - / 2 ^ 53 -> L <= K m <= L * (1 + / 2 ^ 104) -> 0 < t <= 9 / 10 -> jacobi_cd ex (c_functions ex) (t * L, 0) m = Ok z -> k * fst z <> 0 ->
  exists th, - (PI / 2) <= th <= PI / 2 /\ Rabs (F th m - t * L) <= / 2 ^ 102 * K m /\ zero_at k th (1 / (k * fst z)).
Proof.
  intros K0 KM M LB T E NZ. pose proof pow53 as P53. assert (M1 : 0 <= m < 1) by lra. pose proof (K_pos m M1) as KP. pose proof PI_RGT_0 as PP. assert (0 < / 2 ^ 104) by (apply Rinv_0_lt_compat; lra). assert (L0 : 0 < L) by nra.
  destruct (amplitude_close ex m (t * L) M) as (th & A & R1 & B). { rewrite Rabs_pos_eq by nra. nra. } exists th. split; [exact R1|]. split; [exact B|]. unfold jacobi_cd in E. cbn [f_am c_functions] in E. rewrite A in E. cbn [obind] in E. rewrite csin_real, ccos_real in E.
  replace (csub (1, 0) (cmul_real (csquare (sin th, 0)) m)) with (1 - sin th * sin th * m, 0) in E by (unfold csub, cmul_real, csquare; cbn [fst snd]; f_equal; ring). pose proof (SIN_bound th) as SB. assert (S2 : 0 <= sin th * sin th <= 1) by nra. assert (DP : 0 < 1 - sin th * sin th * m) by nra. pose proof (sqrt_lt_R0 _ DP) as Q0. pose proof (sqrt_sqrt _ (Rlt_le _ _ DP)) as QQ. rewrite csqrt_real, cdiv_real in E by lra. injection E as <-. cbn [fst] in *. unfold zero_at. set (q := sqrt (1 - sin th * sin th * m)) in *. assert (CN : cos th <> 0). { intros Z. apply NZ. rewrite Z. unfold Rdiv. ring. }
  rewrite KM. transitivity (q * q); [field; lra|rewrite QQ; ring].
Qed.
Lemma pole_is ex m k ks a b (q : C) : moduli m k ks -> ks <> [] -> 0 < m -> landen_sequence m = Ok (k, ks) -> 0 < a < PI / 2 -> 0 < b <= 2 -> 101 / 100 * b * product ks < K (1 - m) ->
  jacobi_cd ex (c_functions ex) (a * product ks, - (b * product ks)) m = Ok q -> fst (cmul (0, 1) q) < 0 -> 0 < snd (cmul (0, 1) q) ->
  exists phi : C, 0 < fst phi < PI / 2 /\ snd phi < 0 /\ Cmod (Cminus ((a * product ks, - (b * product ks)) : C) (F_path phi m)) <= / 2 ^ 52 * F_length phi m /\ pole_at k phi (cmul (0, 1) q).
Proof.
  intros H NE M S A B L E P1 P2. pose proof H as [MK R1 _ _]. assert (M1 : 0 < m < 1) by nra. destruct (am_path m k ks H NE M ex a b S A B L) as (phi & AM & R2 & R3 & X). exists phi. split; [exact R2|]. split; [exact R3|]. split; [exact X|]. split; [exact P1|]. split; [exact P2|]. unfold jacobi_cd in E. cbn [f_am c_functions] in E. rewrite AM in E. cbn [obind] in E.
  assert (FW : fourth (csin phi)). { unfold fourth, csin. cbn [fst snd]. assert (0 < sin (fst phi)) by (apply sin_gt_0; lra). assert (0 < cos (fst phi)) by (apply cos_gt_0; lra). assert (0 < cosh (snd phi)) by (unfold cosh; pose proof (exp_pos (snd phi)); pose proof (exp_pos (- snd phi)); lra). assert (sinh (snd phi) < 0) by (rewrite <- sinh_0'; apply sinh_lt; lra). split; nra. }
  pose proof (cd_square ex (csin phi) phi m q eq_refl M1 FW E) as Q. change (sine phi) with (csin phi : C). rewrite MK. set (w := csin phi : C) in *. replace (cmul (0, 1) q) with (Cmult (0, 1) q) by (destruct q; unfold cmul, Cmult; cbn [fst snd]; f_equal; ring).
  assert (I2 : Cmult (0, 1) (0, 1) = Copp (RtoC 1)) by (unfold Cmult, Copp, RtoC; cbn [fst snd]; f_equal; ring). transitivity (Cmult (Cmult (0, 1) (0, 1)) (Cmult (Cmult q q) (Cminus (RtoC 1) (Cmult (RtoC m) (Cmult w w))))); [ring|]. rewrite Q, I2. ring.
Qed.
Theorem roots_at ex n rp rs : (2 <= n <= 10)%Z -> 1 <= rp <= 3 -> 20 <= rs <= 100 ->
  let ep := sqrt (Rpower 10 (rp / 10) - 1) in let k1 := ep / sqrt (Rpower 10 (rs / 10) - 1) in
  exists f k v L theta, elliptic_zpk ex n rp rs = Ok (Some f) /\ 0 < k < 1 /\ 0 < v /\ L <= K (k * k) <= L * (1 + / 2 ^ 104) /\
    (k * k = 1 - (sqrt (1 - k1 * k1) ^ Z.to_nat n * sines theta (Z.to_nat (n / 2)) ^ 4) ^ 2 /\
     forall i, (2 * Z.of_nat i + 1 < n)%Z -> - (PI / 2) <= theta i <= PI / 2 /\ Rabs (F (theta i) (1 - k1 * k1) - (2 * INR i + 1) / IZR n * K (1 - k1 * k1)) <= / 10 ^ 11 * K (1 - k1 * k1)) /\
    Rabs (IZR n * v * K (k1 * k1) - F_i (arcsinh (1 / ep)) (k1 * k1)) <= / 10 ^ 11 * F_i (arcsinh (1 / ep)) (k1 * k1) /\
    (forall i, (2 * Z.of_nat i + 1 < n)%Z -> exists (phi p : C), In p (z_poles f) /\ pole_at k phi p /\ 0 < fst phi < PI / 2 /\ snd phi < 0 /\
       Cmod (Cminus ((2 * INR i + 1) / IZR n * L, - (v * L)) (F_path phi (k * k))) <= / 2 ^ 52 * F_length phi (k * k)) /\
    (forall i, (2 * Z.of_nat i + 1 < n)%Z -> exists th y, In (0, y) (z_zeros f) /\ zero_at k th y /\ - (PI / 2) <= th <= PI / 2 /\
       Rabs (F th (k * k) - (2 * INR i + 1) / IZR n * L) <= / 2 ^ 102 * K (k * k)) /\
    (Z.odd n = true -> exists y, In (- sinh y, 0) (z_poles f) /\ Rabs (F_i y (k * k) - v * L) <= / 2 ^ 53 * (v * L)).
Proof.
  intros N P S. cbv zeta. fold (ripple rp). fold (ripple rs). pose proof (moderate_ripples rp rs ltac:(lra) S) as M. cbv zeta in M. destruct M as (E0 & E1 & _ & M & B). assert (E5 : 1 / 5 <= ripple rp * ripple rp). { destruct (ripple_pos rp ltac:(lra)) as (_ & ->). assert (1 + 2 / 10 <= Rpower 10 (rp / 10)); [|lra]. apply Rle_trans with (Rpower 10 (/ 10)); [|apply Rle_Rpower; lra]. unfold Rpower. pose proof (exp_ineq1_le (/ 10 * ln 10)). pose proof ln10_two. lra. }
  destruct (stable_parts ex n _ _ N E0 E1 E5 M B) as (k & lr & ps & (KR & KG & R1 & RN & G) & ks & b & u & L1 & v0 & D & KU & LS & MO & NE & B0 & BL & V1 & IS & LP & VE & VB & RP & PS).
  destruct (stable ex n rp rs N P S) as (f & _ & H & _). destruct (zpk_out ex n rp rs f H) as (_ & ep' & es' & lr' & ps' & A1 & A2 & R1' & _ & FE). rewrite epsilon_ok in A1, A2 by lra. injection A1 as <-. injection A2 as <-. rewrite R1 in R1'. injection R1' as <- <-.
  set (k1 := ripple rp / ripple rs) in *. set (L := k_from_landen ks) in *. pose proof pow53 as P53. pose proof PI_RGT_0 as PP. assert (P27 : 0 < / 2 ^ 27) by (apply Rinv_0_lt_compat; lra). assert (P12 : 0 < / 10 ^ 12 <= / 100) by (split; [apply Rinv_0_lt_compat; lra|apply Rinv_le_contravar; lra]).
  pose proof (K_close (k * k) k ks MO) as KC. fold L in KC. destruct (kf_is (k * k) k ks MO) as (KF & PR). fold L in KF. assert (M5 : 0 <= k * k <= 1 - / 2 ^ 53) by nra. assert (M0 : 0 < k * k) by nra. assert (L0 : 0 < L) by (rewrite KF; nra). assert (V0 : 0 < v0). { assert (0 < v0 * L) by (rewrite VB; nra). nra. }
  destruct (degree_is ex n k1 k N M ltac:(lra) D) as (theta & DG). exists f, k, v0, L, theta. split; [exact H|]. split; [exact KR|]. split; [exact V0|]. split; [exact KC|]. split; [exact DG|].
  assert (NR : 2 <= IZR n <= 10) by (split; apply IZR_le; lia).
  assert (GP : forall i, (2 * Z.of_nat i + 1 < n)%Z -> exists p, In p ps /\ root_pair ex (c_functions ex) n k L v0 i = Ok p /\ 0 < (2 * INR i + 1) / IZR n <= 9 / 10). { intros i I. destruct (index_args n i N I) as (A & T). destruct (pairs_have ex n k L v0 _ _ PS i A) as (p & Hp & E). exists p. split; [exact Hp|]. split; [exact E|exact T]. }
  split; [|split; [|split]].
  - (* the height *)
    set (y := arcsinh (1 / ripple rp)) in *. unfold inverse_sn in IS. rewrite casin_imag in IS. cbn [obind f_f c_functions] in IS. fold y in IS. assert (K1 : 0 <= k1 * k1 <= 11 / 1000) by nra.
    destruct (imaginary_f ex y (k1 * k1) ltac:(lra)) as (v & EV & VV & _). { left. apply Rlt_le_trans with (2 := M). apply Rinv_lt_contravar; lra. } rewrite IS in EV. injection EV as <-.
    assert (Y0 : 0 < y) by (apply arcsinh_pos; apply Rdiv_lt_0_compat; lra). assert (F0 : 0 <= F_i y (k1 * k1)) by (apply F_i_pos; lra). rewrite (Rabs_pos_eq (F_i y (k1 * k1))) in VV by exact F0. set (g := F_i y (k1 * k1)) in *.
    destruct (proj1 C92_complete (k1 * k1) ltac:(lra)) as (L2 & E2 & B2). rewrite V1 in E2. injection E2 as <-. set (Q := K (k1 * k1)) in *. assert (VU : IZR n * v0 * L1 = u) by (rewrite VE; field; lra). assert (X : IZR n * v0 * Q = u * (Q / L1)) by (rewrite <- VU; field; lra).
    assert (Z : 1 <= Q / L1 <= 1 + / 2 ^ 104). { split; apply (Rmult_le_reg_r L1); try exact LP; unfold Rdiv; rewrite Rmult_assoc, Rinv_l by lra; lra. } set (z := Q / L1) in *. clearbody z. rewrite X. assert (E13 : 3 / 10 ^ 13 <= / 10 ^ 12) by lra. assert (E104 : / 2 ^ 104 <= / 10 ^ 12) by (apply Rinv_le_contravar; lra). assert (E11 : / 10 ^ 11 = 10 * / 10 ^ 12) by field. assert (UB : (1 - / 10 ^ 12) * g <= u <= (1 + / 10 ^ 12) * g) by (unfold Rabs in VV; destruct (Rcase_abs (u - g)); nra). rewrite E11. set (e := / 10 ^ 12) in *. clearbody e. set (d := / 2 ^ 104) in *. clearbody d. assert (U0 : 0 <= u) by nra. assert (u <= u * z <= u * (1 + e)) by (split; nra). assert (u * (1 + e) <= (1 + e) * g * (1 + e)) by (apply Rmult_le_compat_r; lra). assert ((1 + e) * g * (1 + e) <= (1 + 10 * e) * g) by nra. apply Rabs_le. split; nra.
  - intros i I. destruct (GP i I) as (p & Hp & E & T). destruct (G p Hp) as (_ & Q1 & Q2 & _). unfold root_pair in E. cbv zeta in E. set (t := (2 * INR i + 1) / IZR n) in *. replace (argument n L i) with (t * L) in E by (unfold argument, t, Rdiv; ring). destruct (jacobi_cd ex (c_functions ex) (t * L, 0) (k * k)) as [z| |] eqn:EZ; cbn [obind] in E; try discriminate. destruct (Reqb (k * fst z) 0); cbn [negb oguard] in E; try discriminate. destruct (jacobi_cd ex (c_functions ex) (t * L, - v0 * L) (k * k)) as [q| |] eqn:EQ; cbn [obind] in E; try discriminate. injection E as <-. cbn [fst snd] in Q1, Q2.
    replace (- v0 * L) with (- (b * product ks)) in EQ by (rewrite <- VB; ring). replace (t * L) with (PI / 2 * t * product ks) in EQ by (rewrite KF; ring). destruct (pole_is ex (k * k) k ks (PI / 2 * t) b q MO NE M0 LS ltac:(nra) B0 BL EQ Q1 Q2) as (phi & A1 & A2 & A3 & A4). exists phi, (cmul (0, 1) q). split; [|split; [exact A4|split; [exact A1|split; [exact A2|]]]].
    + rewrite FE. cbn [raw_zpk z_poles]. apply in_or_app. right. apply in_flat_map. eexists. split; [exact Hp|]. right. left. reflexivity.
    + replace (t * L) with (PI / 2 * t * product ks) by (rewrite KF; ring). rewrite VB. exact A3.
  - intros i I. destruct (GP i I) as (p & Hp & E & T). unfold root_pair in E. cbv zeta in E. set (t := (2 * INR i + 1) / IZR n) in *. replace (argument n L i) with (t * L) in E by (unfold argument, t, Rdiv; ring). destruct (jacobi_cd ex (c_functions ex) (t * L, 0) (k * k)) as [z| |] eqn:EZ; cbn [obind] in E; try discriminate. destruct (Reqb_spec (k * fst z) 0) as [NZ|NZ]; cbn [negb oguard] in E; try discriminate. destruct (jacobi_cd ex (c_functions ex) (t * L, - v0 * L) (k * k)) as [q| |] eqn:EQ; cbn [obind] in E; try discriminate. injection E as <-.
    destruct (zero_is ex (k * k) k L t z ltac:(lra) eq_refl M5 KC T EZ NZ) as (th & A1 & A2 & A3). exists th, (1 / (k * fst z)). split; [|split; [exact A3|split; [exact A1|exact A2]]]. rewrite FE. cbn [raw_zpk z_zeros]. apply in_flat_map. eexists. split; [exact Hp|]. right. left. reflexivity.
  - intros O. unfold real_poles in RP. replace (even_order n) with false in RP. 2:{ symmetry. rewrite <- Z.negb_even, Zquot.Zeven_rem in O. unfold even_order. destruct (Z.rem n 2 =? 0)%Z; [discriminate O|reflexivity]. }
    assert (UV : 0 < v0 * L) by nra. destruct (imaginary_amplitude ex (v0 * L) (k * k)) as (y & EY & YB). { split; [|exact (proj2 M5)]. apply Rlt_le_trans with (/ 2 ^ 53); [apply Rinv_lt_contravar; lra|]. nra. } { rewrite Rabs_pos_eq by lra. rewrite VB. nra. } unfold jacobi_sn in RP. cbn [f_am c_functions] in RP. rewrite EY in RP. cbn [obind] in RP. rewrite csin_axis in RP. cbn [snd] in RP. injection RP as <-. rewrite (Rabs_pos_eq (v0 * L)) in YB by lra. exists y. split; [|exact YB]. rewrite FE. cbn [raw_zpk z_poles map]. left. reflexivity.
Qed.
