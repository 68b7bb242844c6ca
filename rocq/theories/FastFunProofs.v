(* Bounds on the logarithm and on rounding, and the table checks. *)
From Coq Require Import ZArith Reals List Lia Lra QArith Qreals.
From Flocq Require Import Core.
From Verif Require Import RealUtil FastFunModel.
Import ListNotations.
Local Open Scope R_scope.

(* --- logarithm bounds --- *)
Definition lnlo (z : R) : R :=
  2 * (z + z * z * z / 3 + z * z * z * z * z / 5 + z * z * z * z * z * z * z / 7
       + z * z * z * z * z * z * z * z * z / 9).
Definition lnhi (z : R) : R := lnlo z + 9 / 44 * (z * z * z * z * z * z * z * z * z * z * z).

Lemma mono_from_derivative (F F' : R -> R) a b : a <= b ->
  (forall x, a <= x <= b -> derivable_pt_lim F x (F' x)) ->
  (forall x, a <= x <= b -> 0 <= F' x) -> F a <= F b.
Proof.
  intros Hab HD HP. destruct (Req_dec a b) as [->|N]; [lra|].
  destruct (MVT_cor2 F F' a b ltac:(lra) HD) as (c & E & Hc).
  assert (0 <= F' c * (b - a)) by (apply Rmult_le_pos; [apply HP; lra|lra]). lra.
Qed.

Lemma derivable_ln_ratio x : 0 <= x <= 1 / 3 ->
  derivable_pt_lim (fun z => ln (1 + z) - ln (1 - z)) x (/ (1 + x) + / (1 - x)).
Proof.
  intros H. replace (/ (1 + x) + / (1 - x)) with (/ (1 + x) * 1 - / (1 - x) * (-1)) by ring.
  apply (derivable_pt_lim_minus (fun z => ln (1 + z)) (fun z => ln (1 - z))).
  - apply (derivable_pt_lim_comp (fun z => 1 + z) ln).
    + cut (derivable_pt_lim (fct_cte 1 + id)%F x (0 + 1)); [rewrite Rplus_0_l; exact (fun h => h)|].
      apply (derivable_pt_lim_plus (fct_cte 1) id); [apply derivable_pt_lim_const|apply derivable_pt_lim_id].
    + apply derivable_pt_lim_ln. lra.
  - apply (derivable_pt_lim_comp (fun z => 1 - z) ln).
    + cut (derivable_pt_lim (fct_cte 1 - id)%F x (0 - 1));
        [replace (0 - 1) with (-1) by ring; exact (fun h => h)|].
      apply (derivable_pt_lim_minus (fct_cte 1) id); [apply derivable_pt_lim_const|apply derivable_pt_lim_id].
    + apply derivable_pt_lim_ln. lra.
Qed.

Lemma ln_bounds z : 0 <= z <= 1 / 3 -> lnlo z <= ln ((1 + z) / (1 - z)) <= lnhi z.
Proof.
  intros H. unfold Rdiv. rewrite ln_mult; [|lra|apply Rinv_0_lt_compat; lra]. rewrite ln_Rinv by lra.
  assert (DP : forall (c : R) (n : nat) (x : R), derivable_pt_lim (fun z => c * pow z n) x (c * (INR n * x ^ Nat.pred n))).
  { intros c n x. apply (derivable_pt_lim_scal (fun z => z ^ n)). apply derivable_pt_lim_pow. }
  pose (P := fun z : R => 2 * z ^ 1 + (2 / 3 * z ^ 3 + (2 / 5 * z ^ 5 + (2 / 7 * z ^ 7 + 2 / 9 * z ^ 9)))).
  pose (P' := fun x : R => 2 * (INR 1 * x ^ 0) + (2 / 3 * (INR 3 * x ^ 2) + (2 / 5 * (INR 5 * x ^ 4)
               + (2 / 7 * (INR 7 * x ^ 6) + 2 / 9 * (INR 9 * x ^ 8))))).
  assert (DPP : forall x, derivable_pt_lim P x (P' x)).
  { intros x. unfold P, P'.
    apply (derivable_pt_lim_plus (fun z => 2 * z ^ 1)); [apply DP|].
    apply (derivable_pt_lim_plus (fun z => 2 / 3 * z ^ 3)); [apply DP|].
    apply (derivable_pt_lim_plus (fun z => 2 / 5 * z ^ 5)); [apply DP|].
    apply (derivable_pt_lim_plus (fun z => 2 / 7 * z ^ 7)); apply DP. }
  assert (EP : forall x, 0 <= x <= 1 / 3 ->
     / (1 + x) + / (1 - x) - P' x = 2 * x ^ 10 / (1 - x * x)).
  { intros x Hx. unfold P'. cbn [INR]. field. repeat split; try lra.
    assert (x * x <= 1 / 3 * (1 / 3)) by (apply Rmult_le_compat; lra). lra. }
  assert (B : forall x, 0 <= x <= 1 / 3 -> 0 <= 2 * x ^ 10 / (1 - x * x) <= 9 / 4 * x ^ 10).
  { intros x Hx. assert (x * x <= 1 / 3 * (1 / 3)) by (apply Rmult_le_compat; lra).
    assert (0 <= x ^ 10) by (apply pow_le; lra).
    assert (I1 : 0 < / (1 - x * x)) by (apply Rinv_0_lt_compat; lra).
    assert (I2 : / (1 - x * x) <= / (8 / 9)) by (apply Rinv_le_contravar; lra).
    unfold Rdiv. split.
    - apply Rmult_le_pos; lra.
    - replace (9 * / 4 * x ^ 10) with (2 * x ^ 10 * / (8 / 9)) by field.
      apply Rmult_le_compat_l; lra. }
  split.
  - pose (F := fun z => (ln (1 + z) - ln (1 - z)) - P z).
    assert (M : F 0 <= F z).
    { apply (mono_from_derivative F (fun x => / (1 + x) + / (1 - x) - P' x)); [lra| |].
      - intros x Hx. unfold F.
        apply (derivable_pt_lim_minus (fun z => ln (1 + z) - ln (1 - z)) P);
          [apply derivable_ln_ratio; lra|apply DPP].
      - intros x Hx. rewrite EP by lra. apply B. lra. }
    assert (F0 : F 0 = 0).
    { unfold F, P. rewrite Rplus_0_r, Rminus_0_r, ln_1. ring. }
    rewrite F0 in M. unfold F in M. unfold lnlo.
    assert (E : P z = 2 * (z + z * z * z / 3 + z * z * z * z * z / 5 + z * z * z * z * z * z * z / 7
       + z * z * z * z * z * z * z * z * z / 9)) by (unfold P; field). lra.
  - pose (F := fun z => (P z + 9 / 44 * z ^ 11) - (ln (1 + z) - ln (1 - z))).
    assert (M : F 0 <= F z).
    { apply (mono_from_derivative F (fun x => (P' x + 9 / 44 * (INR 11 * x ^ Nat.pred 11)) - (/ (1 + x) + / (1 - x)))); [lra| |].
      - intros x Hx. unfold F.
        apply (derivable_pt_lim_minus (fun z => P z + 9 / 44 * z ^ 11) (fun z => ln (1 + z) - ln (1 - z)));
          [|apply derivable_ln_ratio; lra].
        apply (derivable_pt_lim_plus P (fun z => 9 / 44 * z ^ 11)); [apply DPP|apply DP].
      - intros x Hx. specialize (EP x ltac:(lra)). specialize (B x ltac:(lra)).
        replace (INR 11) with 11 by (cbn; lra). change (Nat.pred 11) with 10%nat. lra. }
    assert (F0 : F 0 = 0).
    { unfold F, P. rewrite Rplus_0_r, Rminus_0_r, ln_1. ring. }
    rewrite F0 in M. unfold F in M. unfold lnhi, lnlo.
    assert (E : P z = 2 * (z + z * z * z / 3 + z * z * z * z * z / 5 + z * z * z * z * z * z * z / 7
       + z * z * z * z * z * z * z * z * z / 9)) by (unfold P; field).
    replace (z * z * z * z * z * z * z * z * z * z * z) with (z ^ 11) by ring. lra.
Qed.

Lemma ln2_bounds : lnlo (1 / 3) <= ln 2 <= lnhi (1 / 3).
Proof.
  pose proof (ln_bounds (1 / 3) ltac:(lra)) as H.
  replace ((1 + 1 / 3) / (1 - 1 / 3)) with 2 in H by field. exact H.
Qed.
Lemma ln2_num : 6931460 / 10 ^ 7 <= ln 2 <= 6931473 / 10 ^ 7.
Proof. pose proof ln2_bounds as (A & B). unfold lnhi, lnlo in *. lra. Qed.

(* --- the same bounds over Q --- *)
Definition qhorner (a v : Z) : Z :=
  let u := (a * a)%Z in let v2 := (v * v)%Z in
  ((((35 * u + 45 * v) * u + 63 * v2) * u + 105 * (v2 * v)) * u + 315 * (v2 * v2))%Z.
Definition qlnlo (z : Q) : Q :=
  let a := Qnum z in let b := Qden z in let v := (b * b)%positive in
  (2 * (qhorner a (Zpos v) * a))%Z # (315 * (b * ((v * v) * (v * v)))).
Definition qlnhi (z : Q) : Q :=
  let a := Qnum z in let b := Qden z in let v := (b * b)%positive in
  let u := (a * a)%Z in let v2 := (v * v)%positive in
  (88 * (qhorner a (Zpos v) * (a * Zpos v)) + 2835 * (a * (u * ((u * u) * (u * u)))))%Z # (13860 * (b * (v * (v2 * v2)))).

Lemma q2r_frac a b : Q2R (a # b) = IZR a / IZR (Zpos b).
Proof. reflexivity. Qed.

Lemma qlnlo_R z : Q2R (qlnlo z) = lnlo (Q2R z).
Proof.
  destruct z as [a b]. unfold qlnlo, lnlo, qhorner. cbn [Qnum Qden]. rewrite !q2r_frac.
  rewrite !Pos2Z.inj_mul, !mult_IZR, !plus_IZR, !mult_IZR, !plus_IZR, !mult_IZR, !plus_IZR, !mult_IZR, !plus_IZR, !mult_IZR.
  assert (IZR (Zpos b) <> 0) by (apply IZR_neq; lia).
  set (x := IZR (Zpos b)) in *. set (y := IZR a). clearbody x y. field. assumption.
Qed.
Lemma qlnhi_R z : Q2R (qlnhi z) = lnhi (Q2R z).
Proof.
  destruct z as [a b]. unfold qlnhi, lnhi, lnlo, qhorner. cbn [Qnum Qden]. rewrite !q2r_frac.
  rewrite !Pos2Z.inj_mul, !mult_IZR, !plus_IZR, !mult_IZR, !plus_IZR, !mult_IZR, !plus_IZR, !mult_IZR, !plus_IZR, !mult_IZR, !plus_IZR, !mult_IZR.
  assert (IZR (Zpos b) <> 0) by (apply IZR_neq; lia).
  set (x := IZR (Zpos b)) in *. set (y := IZR a). clearbody x y. field. assumption.
Qed.

(* --- table of logarithms --- *)
Definition ln2lo : Q := 6931460 # 10000000.
Definition ln2hi : Q := 6931473 # 10000000.
Definition etol : Q := 282 # 100000.
Definition entryQ (s : Z) : Q := (nth (Z.to_nat s) log2_table 0%Z # 100000000000).

Definition log_check (s : Z) : bool :=
  (Qle_bool ((entryQ s - etol) * ln2hi) (qlnlo (s # (512 + Z.to_pos (s) )))
   || (s =? 0)%Z && Qle_bool (entryQ s - etol) 0)%bool
  && Qle_bool (qlnhi ((s + 1) # (512 + Z.to_pos (s + 1)))) ((entryQ s + etol) * ln2lo).

Definition indices : list Z := map Z.of_nat (seq 0 256).

Lemma log_checks : forallb log_check indices = true.
Proof. vm_compute. reflexivity. Qed.

Definition exp_check (k : Z) : bool :=
  let t := nth (Z.to_nat k) exp2_table 0%Z in
  (0 <=? t)%Z && (t <? 2 ^ 23)%Z &&
  ((k =? 0)%Z && (t =? 0)%Z ||
   let z := (t # (2 ^ 24 + Z.to_pos t)) in
   (0 <? t)%Z && Qle_bool ((k # 256) * ln2hi - (1 # 100000)) (qlnlo z) &&
   Qle_bool (qlnhi z) ((k # 256) * ln2lo + (1 # 100000))).

Lemma exp_checks : forallb exp_check indices = true.
Proof. vm_compute. reflexivity. Qed.

Lemma in_indices s : (0 <= s < 256)%Z -> In s indices.
Proof.
  intros H. unfold indices. apply in_map_iff. exists (Z.to_nat s). split; [lia|].
  apply in_seq. lia.
Qed.
