(* The elliptic prototypes up to order 10 are stable lowpass prototypes that every corner frequency suits. *)
From Verif Require Import Common ListLemmas RealUtil CInt BiquadModel DesignSpec CascadeSpec PoleZeroModel PoleZeroSpec PoleZeroProofs PoleZeroProofs3 PoleZeroProofs9 ComplexModel ComplexProofs EllipticModel EllipticSpec EllipticProofs2 EllipticProofs3 EllipticProofs4 EllipticProofs5 EllipticProofs6 EllipticAxisProofs EllipticAxisProofs2 ZpkModel ZpkSpec ZpkProofs ZpkProofs2 ZpkProofs5 ZpkProofs7 EllipticDesignModel EllipticDesignSpec EllipticDesignProofs EllipticDesignProofs2 EllipticDesignProofs3 EllipticDesignProofs4 EllipticDesignProofs5 EllipticDesignProofs6 EllipticStableProofs EllipticStableProofs2 EllipticDesignProofs2 EllipticDesignProofs3 PoleZeroModel PoleZeroSpec PoleZeroProofs ZpkSpec ZpkProofs5 EllipticDesignSpec EllipticStableProofs3.
From Coq Require Import Permutation Zquot.
From Coquelicot Require Import Coquelicot.
Local Open Scope R_scope.
Local Notation C := Complex.C.

Lemma mod2 (z : C) : Cmod z * Cmod z = fst z * fst z + snd z * snd z.
Proof. unfold Cmod. rewrite sqrt_sqrt; [ring|]. assert (0 <= fst z ^ 2) by apply pow2_ge_0. assert (0 <= snd z ^ 2) by apply pow2_ge_0. lra. Qed.
Lemma clear_from (z w : C) : w <> RtoC 0 -> fst z * fst z + snd z * snd z <= 1000 * (fst w * fst w + snd w * snd w) -> / 100000 * Cmod z < Cmod w.
Proof.
  intros W H. apply Cmod_gt_0 in W. rewrite <- !mod2 in H. pose proof (Cmod_ge_0 z) as Z. set (x := Cmod z) in *. set (y := Cmod w) in *. clearbody x y. destruct (Rlt_dec (/ 100000 * x) y) as [L|L]; [exact L|exfalso]. assert (y * 100000 <= x) by lra. nra.
Qed.
Lemma pole_clear t (r : C) : 0 < t -> fst r < 0 -> snd r <> 0 -> fst r * fst r <= 100 * (snd r * snd r) -> / 100000 * Cmod (Cminus (RtoC 1) (Cmult (RtoC t) r)) < Cmod (Cplus (RtoC 1) (Cmult (RtoC t) r)).
Proof.
  intros T A B H. destruct r as [a b]. cbn [fst snd] in *. set (x := t * a). set (y := t * b). assert (Y : y <> 0) by (unfold y; apply Rmult_integral_contrapositive_currified; lra). assert (BB : 0 < b * b) by nra. assert (XY : x * x <= 100 * (y * y)). { unfold x, y. replace (t * a * (t * a)) with (t * t * (a * a)) by ring. replace (100 * (t * b * (t * b))) with (t * t * (100 * (b * b))) by ring. apply Rmult_le_compat_l; nra. }
  replace (Cmult (RtoC t) (a, b)) with ((x, y) : C) by (unfold Cmult, RtoC, x, y; cbn [fst snd]; f_equal; ring). clearbody x y. apply clear_from.
  - intros E. apply (f_equal snd) in E. cbn in E. apply Y. lra.
  - unfold Cminus, Cplus, Copp, RtoC. cbn [fst snd]. assert (0 <= (x + 99 / 100) * (x + 99 / 100)) by apply Rle_0_sqr. nra.
Qed.
Lemma zero_clear t (r : C) : fst r = 0 -> / 100000 * Cmod (Cminus (RtoC 1) (Cmult (RtoC t) r)) < Cmod (Cplus (RtoC 1) (Cmult (RtoC t) r)).
Proof.
  intros A. destruct r as [a b]. cbn [fst] in A. subst a. replace (Cmult (RtoC t) (0, b)) with ((0, t * b) : C) by (unfold Cmult, RtoC; cbn [fst snd]; f_equal; ring). set (y := t * b). clearbody y. apply clear_from.
  - intros E. apply (f_equal fst) in E. cbn in E. lra.
  - unfold Cminus, Cplus, Copp, RtoC. cbn [fst snd]. assert (0 <= y * y) by apply Rle_0_sqr. nra.
Qed.
(* a root is real or clearly not, and of any size that occurs here *)
Definition sized (r : C) : Prop := snd r = 0 \/ (Cmod r <= 20 * Rabs (snd r) /\ / 4000000 <= Cmod r <= 4000000).
Lemma sized_is (r : C) : fst r * fst r <= 100 * (snd r * snd r) -> / 4000000 <= Rabs (snd r) <= 200000 -> sized r.
Proof.
  intros A B. right. assert (S2 : snd r * snd r = Rabs (snd r) * Rabs (snd r)) by (rewrite <- Rabs_mult, Rabs_pos_eq; [reflexivity|nra]). pose proof (mod2 r) as M. rewrite S2 in *. pose proof (Cmod_ge_0 r). pose proof (Rmax_Cmod r) as RM. pose proof (Rmax_r (Rabs (fst r)) (Rabs (snd r))). set (q := Cmod r) in *. set (y := Rabs (snd r)) in *. assert (q <= 20 * y) by nra. lra.
Qed.
Lemma sized_axis (r : C) : fst r = 0 -> 1 <= Rabs (snd r) <= 4000000 -> sized r.
Proof.
  intros A B. right. assert (S2 : snd r * snd r = Rabs (snd r) * Rabs (snd r)) by (rewrite <- Rabs_mult, Rabs_pos_eq; [reflexivity|nra]). pose proof (mod2 r) as M. rewrite S2, A in *. pose proof (Cmod_ge_0 r). set (q := Cmod r) in *. set (y := Rabs (snd r)) in *. assert (q = y) by nra. lra.
Qed.
Theorem stable ex n rp rs : (2 <= n <= 10)%Z -> 1 <= rp <= 3 -> 20 <= rs <= 100 ->
  exists f g, elliptic_zpk ex n rp rs = Ok (Some f) /\ elliptic_prototype ex n rp rs = Ok g /\ stands_for f g /\ lowpass_prototype g /\ (forall r, In r (zeros g ++ poles g) -> sized r) /\ (forall t, 0 < t -> tame t g) /\ (Z.even n = true -> lone_zeros g = [] /\ lone_poles g = [] /\ (forall r, In r (zeros g ++ poles g) -> snd r <> 0) /\ forall t, 0 < t -> away t g) /\
    (forall p, In p (z_poles f) -> fst p < 0) /\ (forall z, In z (z_zeros f) -> fst z = 0 /\ 1 < Cmod z).
Proof.
  intros N P S. pose proof (moderate_ripples rp rs ltac:(lra) S) as M. cbv zeta in M. destruct M as (E0 & E1 & _ & M & B). assert (E5 : 1 / 5 <= ripple rp * ripple rp). { destruct (ripple_pos rp ltac:(lra)) as (_ & ->). assert (1 + 2 / 10 <= Rpower 10 (rp / 10)); [|lra]. apply Rle_trans with (Rpower 10 (/ 10)); [|apply Rle_Rpower; lra]. unfold Rpower. pose proof (exp_ineq1_le (/ 10 * ln 10)). pose proof ln10_two. lra. }
  assert (K4 : 4 / 1000000 <= ripple rp / ripple rs). { destruct (ripple_pos rs ltac:(lra)) as (P2 & Q2). assert (A4 : Rpower 10 (rs / 10) <= 10 ^ 10) by (rewrite <- Rpower_pow by lra; apply Rle_Rpower; [lra|]; cbn [INR]; lra). destruct (ripple_pos rp ltac:(lra)) as (P1 & _). apply (Rmult_le_reg_r (ripple rs)); [lra|]. replace (ripple rp / ripple rs * ripple rs) with (ripple rp) by (field; lra). assert (ripple rs <= 100000) by nra. nra. }
  destruct (stable_roots ex n _ _ N E0 E1 E5 M B) as (k & lr & ps & KR & KG & R1 & RN & G). assert (A1 : ripple_epsilon rp = Ok (ripple rp)) by (apply epsilon_ok; lra). assert (A2 : ripple_epsilon rs = Ok (ripple rs)) by (apply epsilon_ok; lra).
  assert (PN : forall r, In r (z_poles (raw_zpk lr ps 1)) -> fst r < 0). { intros r Hr. cbn [raw_zpk z_poles] in Hr. apply in_app_or in Hr as [Hr|Hr]; [apply in_map_iff in Hr as (x & <- & Hx); now apply RN|]. apply in_flat_map in Hr as (p & Hp & Hr). destruct (G p Hp) as (_ & Q & _). unfold conj_pair in Hr. destruct Hr as [<-|[<-|[]]]; [exact Q|]. exact Q. }
  assert (ZN : forall z, In z (z_zeros (raw_zpk lr ps 1)) -> fst z = 0 /\ 1 < Cmod z).
  { intros z Hz. cbn [raw_zpk z_zeros] in Hz. apply in_flat_map in Hz as (p & Hp & Hz). destruct (G p Hp) as ((x & X & E) & _). assert (Hz' : In z (conj_pair ((0, 1 / (k * x)) : C))) by (rewrite <- E; exact Hz). clear Hz. rename Hz' into Hz. assert (KX : 0 < k * x < 1) by (split; nra). assert (I1 : 1 < 1 / (k * x)). { apply (Rmult_lt_reg_r (k * x)); [lra|]. unfold Rdiv. rewrite Rmult_assoc, Rinv_l by lra. lra. } set (i := 1 / (k * x)) in *. clearbody i. unfold conj_pair in Hz. pose proof (Rmax_Cmod z) as RM. assert (ZZ : fst z = 0 /\ 1 < Rabs (snd z)). { destruct Hz as [<-|[<-|[]]]; unfold cconj; cbn [fst snd]; (split; [lra|]); [rewrite Rabs_Ropp, Rabs_pos_eq; lra|rewrite Rabs_pos_eq; lra]. }
    split; [exact (proj1 ZZ)|]. pose proof (Rmax_r (Rabs (fst z)) (Rabs (snd z))). lra. }
  assert (PM : 0 < pole_modulus (RtoC 0) (raw lr ps 1)). { apply modulus_pos. intros r Hr ->. apply (Permutation_in _ (Permutation_sym (raw_poles lr ps 1 1))) in Hr. apply PN in Hr. cbn in Hr. lra. }
  pose proof (zpk_in ex n rp rs _ _ _ _ ltac:(lia) A1 A2 R1 PM) as H. destruct (structure ex n rp rs _ H) as (LP & LZ & _ & _ & _ & GP & _). destruct (roots_out _ _ _ _ _ _ _ R1) as (L1 & _ & I & _).
  set (gn := final_gain n (ripple rp) (raw lr ps 1)) in *. exists (raw_zpk lr ps gn), (raw lr ps gn). split; [exact H|]. split.
  { unfold elliptic_prototype. replace (1 <=? n)%Z with true by lia. rewrite !Rltb_true by lra. cbn [ocheck]. cbv zeta. fold (ripple rp). fold (ripple rs). rewrite cc_roots by (apply ripple_order; lra). rewrite R1. cbn [obind]. rewrite raw_is. exact (pz_finish n _ lr ps I PM). }
  split; [apply raw_stands|]. split; [|split; [|split; [|split; [|split; [exact PN|exact ZN]]]]].
  - split; [intros p Hp; apply PN; apply (Permutation_in _ (Permutation_sym (raw_poles lr ps 1 gn)) Hp)|]. split; [|split; [|split]].
    + intros z Hz. apply (Permutation_in _ (Permutation_sym (raw_zeros lr ps 1 gn))) in Hz. destruct (ZN z Hz) as (Z1 & Z2). split; [lra|]. intros ->. rewrite Cmod_0 in Z2. lra.
    + pose proof (Permutation_length (raw_poles lr ps gn gn)) as X1. change cplx with C in *. lia.
    + pose proof (Permutation_length (raw_poles lr ps gn gn)) as X1. pose proof (Permutation_length (raw_zeros lr ps gn gn)) as X2. change cplx with C in *. pose proof (Z.rem_nonneg n 2 ltac:(lia) ltac:(lia)). lia.
    + exact GP.
  - intros r Hr. apply in_app_or in Hr as [Hr|Hr].
    + apply (Permutation_in _ (Permutation_sym (raw_zeros lr ps 1 gn))) in Hr. destruct (ZN r Hr) as (Z1 & Z2). cbn [raw_zpk z_zeros] in Hr. apply in_flat_map in Hr as (p & Hp & Hz). destruct (G p Hp) as ((x & X & E) & _). assert (Hz' : In r (conj_pair ((0, 1 / (k * x)) : C))) by (rewrite <- E; exact Hz). apply sized_axis; [exact Z1|].
      assert (KX : 0 < k * x < 1) by (split; nra). assert (I1 : 1 <= 1 / (k * x) <= 4000000). { split; apply (Rmult_le_reg_r (k * x)); try lra; unfold Rdiv; rewrite Rmult_assoc, Rinv_l by lra; [lra|nra]. } set (i := 1 / (k * x)) in *. clearbody i. unfold conj_pair in Hz'. destruct Hz' as [<-|[<-|[]]]; unfold cconj; cbn [fst snd]; [rewrite Rabs_Ropp, Rabs_pos_eq; lra|rewrite Rabs_pos_eq; lra].
    + apply (Permutation_in _ (Permutation_sym (raw_poles lr ps 1 gn))) in Hr. cbn [raw_zpk z_poles] in Hr. apply in_app_or in Hr as [Hr|Hr]; [apply in_map_iff in Hr as (x & <- & _); left; reflexivity|]. apply in_flat_map in Hr as (p & Hp & Hr). destruct (G p Hp) as (_ & Q1 & Q2 & Q3 & Q4 & Q5). assert (SA : Rabs (snd (snd p)) = snd (snd p)) by (apply Rabs_pos_eq; left; exact Q2). unfold conj_pair in Hr. destruct Hr as [<-|[<-|[]]]; apply sized_is; unfold cconj; cbn [fst snd]; rewrite ?Rmult_opp_opp, ?Rabs_Ropp; try exact Q3; rewrite SA; (split; [apply Rle_trans with (2 := proj1 Q5); lra|apply Rle_trans with (1 := proj2 Q5); lra]).
  - intros t T. right. split; [reflexivity|]. split; [cbn [raw lone_poles]; rewrite L1; destruct (even_order n); lia|]. intros r Hr. cbn [raw paired_zeros paired_poles] in Hr. apply in_app_or in Hr as [Hr|Hr]; apply in_map_iff in Hr as (p & <- & Hp); destruct (G p Hp) as ((x & _ & E) & Q1 & Q2 & Q3 & _).
    + apply zero_clear. exact (f_equal fst E).
    + apply pole_clear; try assumption. apply Rgt_not_eq. exact Q2.
  - intros EV. split; [reflexivity|]. assert (L0 : lr = []) by (apply length_zero_iff_nil; rewrite L1; rewrite Zeven_rem in EV; unfold even_order; rewrite EV; reflexivity). split; [exact L0|]. split; [|intros t T r Hr].
    { intros r Hr. apply in_app_or in Hr as [Hr|Hr].
      - apply (Permutation_in _ (Permutation_sym (raw_zeros lr ps 1 gn))) in Hr. destruct (ZN r Hr) as (Z1 & Z2). intros Z3. pose proof (mod2 r) as M2. rewrite Z1, Z3 in M2. nra.
      - apply (Permutation_in _ (Permutation_sym (raw_poles lr ps 1 gn))) in Hr. cbn [raw_zpk z_poles] in Hr. rewrite L0 in Hr. cbn [map app] in Hr. apply in_flat_map in Hr as (p & Hp & Hr). destruct (G p Hp) as (_ & Q1 & Q2 & _). unfold conj_pair in Hr. destruct Hr as [<-|[<-|[]]]; unfold cconj; cbn [fst snd]; [apply Ropp_neq_0_compat, Rgt_not_eq; exact Q2|apply Rgt_not_eq; exact Q2]. }
    apply in_app_or in Hr as [Hr|Hr].
    + apply (Permutation_in _ (Permutation_sym (raw_zeros lr ps 1 gn))) in Hr. apply zero_clear. exact (proj1 (ZN r Hr)).
    + apply (Permutation_in _ (Permutation_sym (raw_poles lr ps 1 gn))) in Hr. cbn [raw_zpk z_poles] in Hr. rewrite L0 in Hr. cbn [map app] in Hr. apply in_flat_map in Hr as (p & Hp & Hr). destruct (G p Hp) as (_ & Q1 & Q2 & Q3 & _). unfold conj_pair in Hr. destruct Hr as [<-|[<-|[]]]; (apply pole_clear; [exact T| | |]); unfold cconj; cbn [fst snd]; try (apply Rgt_not_eq; exact Q2); try exact Q1; try exact Q3; [apply Ropp_neq_0_compat, Rgt_not_eq; exact Q2|rewrite Rmult_opp_opp; exact Q3].
Qed.
