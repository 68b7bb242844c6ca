(* EllipticF at complex amplitudes is the integral along the straight path. *)
From Coq Require Import ZArith Reals Lra Lia List Bool.
From Coquelicot Require Import Coquelicot.
From Verif Require Import Common RealUtil CInt ComplexModel ComplexProofs EllipticModel EllipticProofs EllipticProofs2 EllipticProofs4 EllipticProofs5 EllipticAxisProofs EllipticAxisProofs2 EllipticPathSpec EllipticPathProofs EllipticPathProofs2 EllipticPathProofs3 EllipticPathProofs4.
Import ListNotations.
Local Open Scope R_scope.
Local Notation C := Complex.C.

Section Ray.
Variable phi : C.
Hypothesis B : Rabs (fst phi) < PI / 2.
Definition ray (t : R) : C := (t * fst phi, t * snd phi).
Definition strip (t : R) : Prop := - (PI / 2) < t * fst phi < PI / 2.
Lemma strip_open t : strip t -> locally t strip.
Proof.
  intros T. assert (CT : continuous (fun s : R => s * fst phi) t) by (apply continuity_pt_filterlim; apply continuity_pt_mult; [apply derivable_continuous_pt, derivable_pt_id|apply continuity_pt_const; intros ? ?; reflexivity]).
  apply (CT (fun y => - (PI / 2) < y < PI / 2)). apply (open_and (fun y : R => - (PI / 2) < y) (fun y : R => y < PI / 2)); [apply open_gt|apply open_lt|exact T].
Qed.
Lemma strip_conv s t : strip t -> Rmin 0 t <= s <= Rmax 0 t -> strip s.
Proof.
  unfold strip. intros T S. pose proof PI_RGT_0. set (p := fst phi) in *. clearbody p. destruct (Rle_dec 0 t) as [L|L].
  - rewrite Rmin_left, Rmax_right in S by lra. destruct (Rle_dec 0 p); split; nra.
  - rewrite Rmin_right, Rmax_left in S by lra. destruct (Rle_dec 0 p); split; nra.
Qed.
Lemma strip_down s t : strip t -> 0 <= s <= t -> strip s.
Proof. intros T S. apply (strip_conv s t T). rewrite Rmin_left, Rmax_right by lra. exact S. Qed.
Lemma strip_01 t : 0 <= t <= 1 -> strip t.
Proof. intros T. apply (strip_down t 1); [|exact T]. unfold strip. rewrite Rmult_1_l. unfold Rabs in B. destruct (Rcase_abs (fst phi)); lra. Qed.
Lemma strip_0 : strip 0.
Proof. apply strip_01. lra. Qed.
Lemma ray_cder t : cder ray t phi.
Proof. split; unfold ray; cbn [fst snd]; (eapply der_eq; [apply der_mult; [apply (is_derive_id (K := R_AbsRing))|apply (is_derive_const (K := R_AbsRing) (V := R_NormedModule))]|]); unfold one, zero; cbn; ring. Qed.
Definition w0 (t : R) : C := csin (ray t).
Lemma w0_cder t : cder w0 t (Cmult (ccos (ray t)) phi).
Proof. apply cder_csin, ray_cder. Qed.
Lemma w0_path : path strip w0.
Proof.
  split; [|intros t T; split; [apply ccos_root; exact T|eexists; apply w0_cder]]. unfold w0, ray, csin. cbn [fst snd]. rewrite !Rmult_0_l, sin_0, sinh_0. unfold RtoC. f_equal; ring.
Qed.
Lemma w0_cos t : strip t -> ccos (ray t) = root (under 1 (w0 t)).
Proof. intros T. now apply ccos_root. Qed.
Lemma speed_is k m t : k * k = m -> speed phi m t = Cdiv phi (root (under k (w0 t))).
Proof. intros <-. reflexivity. Qed.
Lemma re_nonzero (z : C) : 0 < fst z -> z <> RtoC 0.
Proof. intros P E. rewrite E in P. cbn in P. lra. Qed.
Lemma speed_cont k t : 0 <= k < 1 -> strip t -> continuity_pt (fun s => fst (speed phi (k * k) s)) t /\ continuity_pt (fun s => snd (speed phi (k * k) s)) t.
Proof.
  intros K0 T. destruct (root_under_cder strip k w0 t ltac:(lra) w0_path T) as (e & E). destruct (ex_cder_div (fun _ => phi) _ t _ _ (cder_const phi t) E) as (d & D).
  - apply re_nonzero, root_ok, inside_slit; [lra|]. now apply w0_path.
  - exact (cder_cont _ _ _ D).
Qed.
Section Chain.
Variables (k : R) (ks : list R).
Hypothesis K0 : 0 <= k < 1.
Hypothesis CH : chain k ks.
Let wN := fun t => descend_w k ks (w0 t).
Let E := fun t => Cmult (RtoC (product ks)) (arc (wN t)).
Let h := fun t => root (under (final k ks) (wN t)).
Lemma wN_path : path strip wN.
Proof. apply descend_path; [exact K0|exact CH|exact w0_path]. Qed.
Lemma E_0 : E 0 = RtoC 0.
Proof. unfold E. rewrite (proj1 wN_path), arc_0. ring. Qed.
Lemma E_cder t : 0 <= t <= 1 -> cder E t (Cmult (h t) (speed phi (k * k) t)).
Proof.
  intros T. pose proof (strip_01 t T) as S. destruct (proj2 wN_path t S) as (I & e & De). destruct (ex_cder_arc wN t e De I) as (a & Da).
  pose proof (arc_relation strip wN t e a strip_open (fun s Us => proj1 (proj2 wN_path s Us)) S De Da) as AR.
  pose proof (descend_relation strip strip_open strip_down ks k w0 t _ e K0 CH w0_path S (proj1 T) (w0_cder t) De) as DR. fold (wN t) in DR. fold (h t) in DR.
  pose proof (final_range ks k K0 CH) as FR. assert (NF : h t <> RtoC 0) by (apply re_nonzero, root_ok, inside_slit; [lra|exact I]). assert (N1 : root (under 1 (wN t)) <> RtoC 0) by (apply re_nonzero, root_ok, inside_slit; [lra|exact I]).
  pose proof (proj1 (proj2 w0_path t S)) as I0. assert (M1 : root (under 1 (w0 t)) <> RtoC 0) by (apply re_nonzero, root_ok, inside_slit; [lra|exact I0]). assert (M2 : root (under k (w0 t)) <> RtoC 0) by (apply re_nonzero, root_ok, inside_slit; [lra|exact I0]).
  eapply cder_eq; [unfold E; apply cder_mult; [apply cder_const|exact Da]|]. cbv beta. rewrite (speed_is k (k * k) t eq_refl). rewrite (w0_cos t S) in DR. set (c := root (under 1 (wN t))) in *. set (c0 := root (under 1 (w0 t))) in *. set (d0 := root (under k (w0 t))) in *. clearbody c c0 d0. set (H := h t) in *. clearbody H.
  assert (X : Cdiv phi d0 = Cdiv (Cmult (RtoC (product ks)) a) H).
  { transitivity (Cdiv (Cmult c0 phi) (Cmult c0 d0)); [field; now split|]. rewrite DR, <- AR. field. now split. }
  rewrite X. field. exact NF.
Qed.
Definition tame : Prop := ks <> [] \/ forall t, 0 <= t <= 1 -> Cmod (Cmult (RtoC k) (Cmult (w0 t) (w0 t))) <= 1.
Lemma h_close t : 0 <= t <= 1 -> tame -> Cmod (Cminus (h t) (RtoC 1)) <= final k ks.
Proof.
  intros T NE. pose proof (strip_01 t T) as S. pose proof (final_range ks k K0 CH) as FR. destruct (descend_mod ks k (w0 t) K0 CH (proj1 (proj2 w0_path t S))) as (I & M). { destruct NE as [NE|NE]; [now left|right; now apply NE]. } fold (wN t) in I, M.
  destruct (root_ok _ (inside_slit (final k ks) (wN t) ltac:(lra) I)) as (Q & P). fold (h t) in Q, P. set (f := final k ks) in *. clearbody f.
  assert (X : Cmult (Cminus (h t) (RtoC 1)) (Cplus (h t) (RtoC 1)) = Copp (Cmult (RtoC f) (Cmult (RtoC f) (Cmult (wN t) (wN t))))) by (transitivity (Cminus (Cmult (h t) (h t)) (RtoC 1)); [ring|]; rewrite Q; unfold under; rewrite RtoC_mult; ring).
  apply (f_equal Cmod) in X. rewrite Cmod_opp, !Cmod_mult, Cmod_R, Rabs_pos_eq in X by lra. rewrite !Cmod_mult, Cmod_R, Rabs_pos_eq in M by lra.
  assert (O : 1 <= Cmod (Cplus (h t) (RtoC 1))). { apply Rle_trans with (fst (Cplus (h t) (RtoC 1))); [cbn [fst Cplus RtoC]; lra|]. apply Rle_trans with (Rabs (fst (Cplus (h t) (RtoC 1)))); [apply Rle_abs|]. apply Rle_trans with (2 := Rmax_Cmod _). apply Rmax_l. }
  pose proof (Cmod_ge_0 (Cminus (h t) (RtoC 1))) as P1. set (x := Cmod (Cminus (h t) (RtoC 1))) in *. set (y := Cmod (Cplus (h t) (RtoC 1))) in *. clearbody x y. set (z := f * (Cmod (wN t) * Cmod (wN t))) in *. clearbody z. nra.
Qed.
Lemma chain_close : tame -> Cmod (Cminus (E 1) (F_path phi (k * k))) <= final k ks * F_length phi (k * k).
Proof.
  intros NE. pose proof (final_range ks k K0 CH) as FR. apply (compare E (speed phi (k * k)) h (final k ks) (proj1 FR) E_0 E_cder (fun t T => h_close t T NE) strip strip_open strip_conv strip_01). intros t T. now apply speed_cont.
Qed.
Lemma E_1 ex m : landen_sequence m = Ok (k, ks) -> / 10 ^ 6 <= cabs2 phi -> elliptic_f ex phi m = Ok (E 1).
Proof.
  intros S L. unfold elliptic_f. rewrite Rltb_false by lra. rewrite S. cbn [obind]. assert (R1 : ray 1 = phi) by (unfold ray; rewrite !Rmult_1_l; now destruct phi). pose proof (strip_01 1 ltac:(lra)) as S1. rewrite <- R1. fold (w0 1). rewrite descend_is by (try assumption; now apply w0_path). cbn [obind]. fold (wN 1). destruct (casin_arc ex (wN 1) (proj1 (proj2 wN_path 1 S1))) as (CA & _). rewrite CA. cbn [obind]. f_equal. unfold E. rewrite k_from_landen_eq. unfold cmul_real, Cmult, RtoC. pose proof PI_RGT_0. apply injective_projections; cbn [fst snd]; field; lra.
Qed.
End Chain.
End Ray.
Lemma length_ex phi m : Rabs (fst phi) < PI / 2 -> 0 <= m < 1 -> 0 <= F_length phi m.
Proof.
  intros B M. unfold F_length. assert (KK : sqrt m * sqrt m = m) by (apply sqrt_sqrt; lra). apply RInt_ge_0; [lra| |intros; apply Cmod_ge_0]. apply (ex_RInt_continuous (V := R_CompleteNormedModule)). intros s T. rewrite Rmin_left, Rmax_right in T by lra. apply continuity_pt_filterlim. rewrite <- KK. apply (mod_cont (speed phi (sqrt m * sqrt m)) (strip phi)); [intros t Ht; apply speed_cont; [pose proof (sqrt_pos m); nra|exact Ht]|now apply strip_01].
Qed.
Lemma sine_mod z : Cmod (csin z) * Cmod (csin z) = sin (fst z) * sin (fst z) + sinh (snd z) * sinh (snd z).
Proof.
  rewrite Cmod_sq. unfold csin. cbn [fst snd]. pose proof (hyp (snd z)) as H. pose proof (trig (fst z)) as T. replace (sin (fst z) * cosh (snd z) * (sin (fst z) * cosh (snd z))) with (sin (fst z) * sin (fst z) * (cosh (snd z) * cosh (snd z))) by ring. rewrite H. replace (cos (fst z) * sinh (snd z) * (cos (fst z) * sinh (snd z))) with (cos (fst z) * cos (fst z) * (sinh (snd z) * sinh (snd z))) by ring. replace (cos (fst z) * cos (fst z)) with (1 - sin (fst z) * sin (fst z)) by lra. ring.
Qed.
Lemma sine_bound z t : 0 <= t <= 1 -> Cmod (csin (ray z t)) * Cmod (csin (ray z t)) <= cosh (snd z) * cosh (snd z).
Proof.
  intros T. rewrite sine_mod. unfold ray. cbn [fst snd]. rewrite hyp. pose proof (trig (t * fst z)). pose proof (sq_pos (cos (t * fst z))). assert (Q : forall y, 0 <= y -> sinh (t * y) * sinh (t * y) <= sinh y * sinh y).
  { intros y Y. pose proof (sinh_pos (t * y) ltac:(nra)). pose proof (sinh_le (t * y) y ltac:(nra)). nra. }
  destruct (Rle_dec 0 (snd z)) as [L|L]; [pose proof (Q (snd z) L); lra|]. pose proof (Q (- snd z) ltac:(lra)) as X. replace (t * - snd z) with (- (t * snd z)) in X by ring. rewrite !EllipticAxisProofs.sinh_neg in X. lra.
Qed.
Theorem complex_f ex phi m : 0 <= m <= 1 - / 2 ^ 53 -> / 2 ^ 104 < m \/ sqrt m * (cosh (snd phi) * cosh (snd phi)) <= 1 -> Rabs (fst phi) < PI / 2 -> / 10 ^ 6 <= cabs2 phi ->
  exists v, elliptic_f ex phi m = Ok v /\ Cmod (Cminus v (F_path phi m)) <= / 2 ^ 52 * F_length phi m.
Proof.
  intros M MT B L. destruct (sequence_full m ltac:(lra)) as (S & HM). destruct HM as [KK R1 CH FE]. assert (NE : tame phi (sqrt m) (landen_loop 9 (sqrt m))).
  { destruct MT as [MT|MT]; [left; now apply loop_nonempty|right]. intros t T. rewrite !Cmod_mult, Cmod_R, Rabs_pos_eq by lra. pose proof (sine_bound phi t T). unfold w0. nra. }
  eexists. split; [exact (E_1 phi B _ _ R1 CH ex m S L)|].
  pose proof (chain_close phi B _ _ R1 CH NE) as X. rewrite KK in X. apply Rle_trans with (1 := X). apply Rmult_le_compat_r; [|exact (proj2 FE)]. apply length_ex; [exact B|]. now apply m_lt.
Qed.
(* ---------- the short series ---------- *)
Lemma sinh_lin_sq b : Rabs b <= / 1000 -> sinh b * sinh b <= 10201 / 10000 * (b * b).
Proof.
  intros H. assert (Q : forall x, 0 <= x <= / 1000 -> sinh x * sinh x <= 10201 / 10000 * (x * x)) by (intros x X; pose proof (sinh_le_lin x X); pose proof (sinh_pos x (proj1 X)); nra).
  unfold Rabs in H. destruct (Rcase_abs b); [|apply Q; lra]. pose proof (Q (- b) ltac:(lra)) as X. rewrite EllipticAxisProofs.sinh_neg in X. lra.
Qed.
Lemma sin_lin_sq a : sin a * sin a <= a * a.
Proof.
  assert (Q : forall x, 0 <= x -> sin x * sin x <= x * x). { intros x X. destruct X as [X| <-]; [|rewrite sin_0; lra]. pose proof (sin_lt_x x X) as L. destruct (Rle_dec 1 x); [pose proof (SIN_bound x); nra|]. pose proof (sin_ge_0 x ltac:(lra) ltac:(pose proof PI2_1; lra)). nra. }
  destruct (Rle_dec 0 a); [now apply Q|]. pose proof (Q (- a) ltac:(lra)) as X. rewrite sin_neg in X. lra.
Qed.
Lemma comp_le (z : C) : Rabs (fst z) <= Cmod z /\ Rabs (snd z) <= Cmod z.
Proof. pose proof (Rmax_Cmod z) as R. pose proof (Rmax_l (Rabs (fst z)) (Rabs (snd z))). pose proof (Rmax_r (Rabs (fst z)) (Rabs (snd z))). lra. Qed.
Lemma sine_small z : Cmod z <= / 1000 -> Cmod (csin z) <= 101 / 100 * Cmod z.
Proof.
  intros H. pose proof (Cmod_ge_0 z) as P. pose proof (Cmod_ge_0 (csin z)) as P2. destruct (comp_le z) as (_ & S). apply Rsqr_incr_0_var; [|lra]. unfold Rsqr. rewrite sine_mod. pose proof (sinh_lin_sq (snd z) ltac:(lra)). pose proof (sin_lin_sq (fst z)). pose proof (Cmod_sq z) as Q. pose proof (sq_pos (fst z)). replace (101 / 100 * Cmod z * (101 / 100 * Cmod z)) with (10201 / 10000 * (Cmod z * Cmod z)) by field. rewrite Q. lra.
Qed.
Lemma ray_mod z t : 0 <= t -> Cmod (ray z t) = t * Cmod z.
Proof. intros T. replace (ray z t) with (Cmult (RtoC t) z) by (unfold ray, Cmult, RtoC; apply injective_projections; cbn [fst snd]; ring). rewrite Cmod_mult, Cmod_R, Rabs_pos_eq by exact T. reflexivity. Qed.
Lemma cosine_small z : Cmod z <= / 1000 -> Cmod (Cminus (ccos z) (RtoC 1)) <= 52 / 100 * (Cmod z * Cmod z).
Proof.
  intros H. set (y := ray z (1 / 2)). assert (E : Cminus (ccos z) (RtoC 1) = Copp (Cmult (RtoC 2) (Cmult (csin y) (csin y)))).
  { assert (Q : ccos z = Cminus (Cmult (ccos y) (ccos y)) (Cmult (csin y) (csin y))).
    { destruct z as [a b]. unfold y, ray, ccos, csin. cbn [fst snd]. set (p := 1 / 2 * a). set (q := 1 / 2 * b). replace a with (p + p) by (unfold p; field). replace b with (q + q) by (unfold q; field). rewrite cos_plus, sin_plus. assert (C1 : cosh (q + q) = cosh q * cosh q + sinh q * sinh q) by (unfold cosh, sinh; rewrite Ropp_plus_distr, !exp_plus; field). assert (C2 : sinh (q + q) = 2 * (sinh q * cosh q)) by (unfold cosh, sinh; rewrite Ropp_plus_distr, !exp_plus; field). rewrite C1, C2. unfold Cmult, Cminus, Cplus, Copp. apply injective_projections; cbn [fst snd]; ring. }
    rewrite Q, ccos_sq. unfold under. replace (RtoC (1 * 1)) with (RtoC 1) by (f_equal; ring). replace (RtoC 2) with (Cplus (RtoC 1) (RtoC 1)) by (rewrite <- RtoC_plus; f_equal; ring). ring. }
  rewrite E, Cmod_opp, !Cmod_mult, Cmod_R, Rabs_pos_eq by lra. assert (Y : Cmod y = 1 / 2 * Cmod z) by (apply ray_mod; lra). pose proof (Cmod_ge_0 z) as P. pose proof (sine_small y ltac:(lra)) as S. rewrite Y in S. pose proof (Cmod_ge_0 (csin y)) as P2. set (s := Cmod (csin y)) in *. set (n := Cmod z) in *. clearbody s n. assert (s * s <= 101 / 100 * (1 / 2 * n) * (101 / 100 * (1 / 2 * n))) by nra. nra.
Qed.
Lemma ray_1 z : ray z 1 = z.
Proof. unfold ray. rewrite !Rmult_1_l. now destruct z. Qed.
Lemma sine_cube z : Cmod z <= / 1000 -> Cmod (Cminus (csin z) z) <= 52 / 100 * (Cmod z * Cmod z) * Cmod z.
Proof.
  intros H. pose proof (Cmod_ge_0 z) as P. pose proof (compare (w0 z) (fun _ => z) (fun t => ccos (ray z t)) (52 / 100 * (Cmod z * Cmod z))) as X.
  specialize (X ltac:(nra)). assert (Z0 : w0 z 0 = RtoC 0) by (unfold w0, ray, csin; cbn [fst snd]; rewrite !Rmult_0_l, sin_0, sinh_0; unfold RtoC; f_equal; ring). specialize (X Z0 (fun t _ => w0_cder z t)).
  assert (HB : forall t, 0 <= t <= 1 -> Cmod (Cminus (ccos (ray z t)) (RtoC 1)) <= 52 / 100 * (Cmod z * Cmod z)). { intros t T. assert (RM : Cmod (ray z t) = t * Cmod z) by (apply ray_mod; lra). apply Rle_trans with (52 / 100 * (Cmod (ray z t) * Cmod (ray z t))); [apply cosine_small; rewrite RM; nra|]. rewrite RM. assert (0 <= t * Cmod z <= Cmod z) by nra. assert (t * Cmod z * (t * Cmod z) <= Cmod z * Cmod z) by nra. lra. }
  specialize (X HB (fun _ => True)). assert (O : forall t : R, True -> locally t (fun _ => True)) by (intros; apply filter_true). specialize (X O (fun _ _ _ _ => I) (fun _ _ => I)).
  assert (CC : forall t : R, True -> continuity_pt (fun _ : R => fst z) t /\ continuity_pt (fun _ : R => snd z) t) by (intros; split; apply continuity_pt_const; intros ? ?; reflexivity). specialize (X CC).
  cbv beta in X. rewrite !RInt_const in X. unfold scal in X. cbn in X. unfold mult in X. cbn in X. replace (w0 z 1) with (csin z) in X by (unfold w0; now rewrite ray_1).
  replace ((1 - 0) * fst z) with (fst z) in X by ring. replace ((1 - 0) * snd z) with (snd z) in X by ring. replace ((1 - 0) * Cmod z) with (Cmod z) in X by ring. replace (fst z, snd z) with z in X by (now destruct z). exact X.
Qed.
