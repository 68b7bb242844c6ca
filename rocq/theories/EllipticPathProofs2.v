(* A step of the descending recursion along a path of complex numbers. *)
From Coq Require Import ZArith Reals Lra Lia List Bool.
From Coquelicot Require Import Coquelicot.
From Verif Require Import EllipticModel EllipticProofs EllipticProofs2 EllipticPathSpec EllipticPathProofs.
Local Open Scope R_scope.
Local Notation C := Complex.C.

Definition under (k : R) (w : C) : C := Cminus (RtoC 1) (Cmult (RtoC (k * k)) (Cmult w w)).
Definition inside (w : C) : Prop := slit (under 1 w).
Definition step_w (k k1 : R) (w : C) : C := Cdiv w (Cmult (Cplus (RtoC 1) (root (under k w))) (RtoC (1 / 2 * (1 + k1)))).
Lemma RtoC_nz x : x <> 0 -> RtoC x <> RtoC 0.
Proof. intros N E. apply N. now apply (f_equal fst) in E. Qed.
Lemma inside_slit k w : 0 <= k <= 1 -> inside w -> slit (under k w).
Proof.
  unfold inside, slit, under. set (q := Cmult w w). clearbody q. destruct q as [x y]. unfold Cminus, Cplus, Copp, Cmult, RtoC. cbn [fst snd]. intros K [H|H].
  - left. assert (0 <= k * k <= 1) by nra. destruct (Rle_dec x 0); nra.
  - assert (Y : y <> 0) by (intros ->; apply H; ring). destruct (Req_dec k 0) as [-> |N]; [left; lra|right]. intros E. assert (k * k * y = 0) by lra. apply Rmult_integral in H0 as [H0|H0]; [nra|contradiction].
Qed.
Lemma one_plus_nz (r : C) : 0 < fst r -> Cplus (RtoC 1) r <> RtoC 0.
Proof. intros P E. apply (f_equal fst) in E. cbn in E. lra. Qed.
Section Step.
Variables (k : R) (w : C).
Hypothesis K0 : 0 <= k < 1.
Hypothesis W : inside w.
Let k1 := landen_step k.
Let r := root (under k w).
Let w1 := step_w k k1 w.
Lemma k1_range : 0 <= k1 < 1.
Proof. destruct (landen_range k K0). unfold k1. lra. Qed.
Lemma r_pos : 0 < fst r.
Proof. apply root_ok, inside_slit; [lra|exact W]. Qed.
Lemma r_sq : Cmult r r = under k w.
Proof. apply root_ok, inside_slit; [lra|exact W]. Qed.
Lemma one_k1_nz : RtoC (1 + k1) <> RtoC 0.
Proof. apply RtoC_nz. pose proof k1_range. lra. Qed.
Lemma half_nz : RtoC (1 / 2 * (1 + k1)) <> RtoC 0.
Proof. apply RtoC_nz. pose proof k1_range. lra. Qed.
Lemma w1_eq : w = Cmult (Cmult w1 (Cplus (RtoC 1) r)) (RtoC (1 / 2 * (1 + k1))).
Proof. unfold w1, step_w. fold r. field. repeat split; (exact half_nz || exact (one_plus_nz r r_pos)). Qed.
Lemma k1_w1 : Cmult (RtoC k1) (Cmult w1 w1) = Cdiv (Cminus (RtoC 1) r) (Cplus (RtoC 1) r).
Proof.
  pose proof (one_plus_nz r r_pos) as N. pose proof half_nz as H. pose proof one_k1_nz as O. pose proof r_sq as Q. pose proof (up_landen k K0) as U. fold k1 in U. unfold up in U.
  assert (KK : Cmult (RtoC (k * k)) (Cmult w w) = Cminus (RtoC 1) (Cmult r r)) by (rewrite Q; unfold under; ring).
  assert (UK : RtoC (k * k) = Cdiv (Cmult (RtoC 4) (RtoC k1)) (Cmult (RtoC (1 + k1)) (RtoC (1 + k1)))). { rewrite <- U. rewrite RtoC_div, !RtoC_mult; [reflexivity|]. pose proof k1_range. nra. }
  transitivity (Cdiv (Cmult (RtoC (k * k)) (Cmult w w)) (Cmult (Cplus (RtoC 1) r) (Cplus (RtoC 1) r))); [|rewrite KK; field; exact N].
  rewrite UK. unfold w1, step_w. fold r. replace (RtoC (1 / 2 * (1 + k1))) with (Cdiv (RtoC (1 + k1)) (RtoC 2)) by (rewrite <- RtoC_div by lra; f_equal; field).
  replace (RtoC 4) with (Cmult (RtoC 2) (RtoC 2)) by (rewrite <- RtoC_mult; f_equal; ring). field. repeat split; (exact N || exact O || (apply RtoC_nz; lra)).
Qed.
Let v := Cmult (RtoC k1) (Cmult w1 w1).
Lemma one_v : Cmult (Cplus (RtoC 1) v) (Cplus (RtoC 1) r) = RtoC 2.
Proof. unfold v. rewrite k1_w1. replace (RtoC 2) with (Cplus (RtoC 1) (RtoC 1)) by (rewrite <- RtoC_plus; f_equal; ring). field. exact (one_plus_nz r r_pos). Qed.
Lemma one_v_nz : Cplus (RtoC 1) v <> RtoC 0.
Proof. intros E. pose proof one_v as H. rewrite E in H. apply (f_equal fst) in H. cbn in H. lra. Qed.
Lemma r_is : r = Cdiv (Cminus (RtoC 1) v) (Cplus (RtoC 1) v).
Proof.
  pose proof (one_plus_nz r r_pos) as N. pose proof one_v_nz as N2. unfold v in *. rewrite k1_w1 in *. set (q := Cdiv (Cminus (RtoC 1) r) (Cplus (RtoC 1) r)) in *.
  transitivity (Cdiv (Cmult r (Cplus (RtoC 1) q)) (Cplus (RtoC 1) q)); [field; exact N2|]. f_equal. unfold q. field. exact N.
Qed.
Lemma w_is : w = Cdiv (Cmult (RtoC (1 + k1)) w1) (Cplus (RtoC 1) v).
Proof.
  rewrite w1_eq at 1. pose proof one_v_nz as N. pose proof one_v as O. transitivity (Cdiv (Cmult (Cmult (RtoC (1 / 2 * (1 + k1))) w1) (Cmult (Cplus (RtoC 1) v) (Cplus (RtoC 1) r))) (Cplus (RtoC 1) v)); [field; exact N|].
  rewrite O. f_equal. replace (RtoC (1 / 2 * (1 + k1))) with (Cdiv (RtoC (1 + k1)) (RtoC 2)) by (rewrite <- RtoC_div by lra; f_equal; field). field. apply RtoC_nz. lra.
Qed.
Lemma under_is : under 1 w = Cdiv (Cmult (under 1 w1) (under k1 w1)) (Cmult (Cplus (RtoC 1) v) (Cplus (RtoC 1) v)).
Proof.
  pose proof one_v_nz as N. unfold under. rewrite w_is at 1 2. rewrite !RtoC_mult, !RtoC_plus. unfold v in *. field. exact N.
Qed.
Lemma w1_inside : inside w1.
Proof.
  unfold inside. destruct (Rlt_dec 0 (fst (under 1 w1))) as [L|L]; [now left|]. destruct (Req_dec (snd (under 1 w1)) 0) as [Z|Z]; [|now right]. exfalso.
  (* w1^2 is a real number p >= 1 *)
  set (p := fst (Cmult w1 w1)). assert (P : Cmult w1 w1 = RtoC p). { unfold under in Z. unfold p. destruct (Cmult w1 w1) as [x y]. unfold RtoC. cbn [fst]. cbn in Z. f_equal. lra. }
  assert (P1 : 1 <= p). { unfold under in L. unfold p. destruct (Cmult w1 w1) as [x y]. cbn in *. lra. }
  pose proof k1_range as KR. assert (V : v = RtoC (k1 * p)) by (unfold v; rewrite P, <- RtoC_mult; reflexivity). pose proof r_is as RI. rewrite V in RI. pose proof r_pos as RP.
  rewrite <- RtoC_plus, <- RtoC_minus, <- RtoC_div in RI by nra. rewrite RI in RP. unfold RtoC in RP. cbn [fst] in RP. assert (KP : k1 * p < 1). { apply Rnot_le_lt. intros X. assert ((1 - k1 * p) / (1 + k1 * p) <= 0); [|lra]. unfold Rdiv. assert (0 < / (1 + k1 * p)) by (apply Rinv_0_lt_compat; lra). nra. }
  pose proof under_is as UI. unfold under in UI at 2 3. rewrite P, V in UI. rewrite <- !RtoC_mult, <- !RtoC_minus, <- RtoC_plus, <- !RtoC_mult, <- RtoC_div in UI by nra. pose proof W as I. unfold inside in I. rewrite UI in I. unfold slit, RtoC in I. cbn [fst snd] in I. destruct I as [I|I]; [|now apply I].
  assert ((1 - 1 * 1 * p) * (1 - k1 * k1 * p) <= 0) by (assert (k1 * k1 * p <= 1) by nra; nra). assert (0 < / ((1 + k1 * p) * (1 + k1 * p))) by (apply Rinv_0_lt_compat; nra). unfold Rdiv in I. nra.
Qed.
Lemma v_mod : Cmod v <= 1.
Proof.
  unfold v. rewrite k1_w1. pose proof r_pos as P. pose proof (one_plus_nz r P) as N. rewrite Cmod_div by exact N. assert (M : 0 < Cmod (Cplus (RtoC 1) r)) by (now apply Cmod_gt_0).
  apply (Rmult_le_reg_r (Cmod (Cplus (RtoC 1) r))); [exact M|]. unfold Rdiv. rewrite Rmult_assoc, Rinv_l, Rmult_1_l, Rmult_1_r by lra. clear - P. destruct r as [x y]. cbn [fst] in P. unfold Cmod. apply sqrt_le_1_alt. cbn. nra.
Qed.
End Step.
