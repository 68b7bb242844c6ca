(* One stage of the auditory filterbank: the resonator and the cascade it is appended to. *)
From Coq Require Import ZArith Reals Lra Lia List Bool Psatz.
From Coquelicot Require Import Coquelicot.
From Verif Require Import Common CInt ListLemmas RealUtil BiquadModel DesignModel DesignSpec DesignProofs CascadeModel CascadeSpec CascadeProofs CascadeProofs2
  PeakModel PeakSpec PeakProofs PeakProofs2 PeakProofs3 AuditoryModel AuditorySpec.
Import ListNotations.
Local Open Scope R_scope.
Local Notation C := Complex.C.

Definition res_den (x z : R) : R := x * x + 2 * z * x + 1.
Definition res (x z : R) : coeffs R :=
  {| b0 := (x * x / 2 + z * x + 1) / res_den x z; b1 := 2 * (1 - x * x / 2) / res_den x z; b2 := (x * x / 2 - z * x + 1) / res_den x z;
     a0 := 1; a1 := 2 * (1 - x * x) / res_den x z; a2 := (x * x - 2 * z * x + 1) / res_den x z |}.

Lemma sqrt2_sq : sqrt 2 * sqrt 2 = 2.
Proof. apply sqrt_sqrt. lra. Qed.
Lemma sqrt2_pos : 0 < sqrt 2.
Proof. apply sqrt_lt_R0. lra. Qed.

Lemma laplace_zero pole z : 0 < pole ->
  laplace (pole * sqrt 2) (z / sqrt 2) = (1 / (2 * ((2 * PI * pole) * (2 * PI * pole))), z / (2 * PI * pole), 1).
Proof.
  intros P. pose proof PI_RGT_0. pose proof sqrt2_pos. unfold laplace. f_equal. f_equal.
  - f_equal. transitivity ((2 * PI * pole) * (2 * PI * pole) * (sqrt 2 * sqrt 2)); [ring|]. rewrite sqrt2_sq. ring.
  - replace (2 * PI * (pole * sqrt 2)) with (2 * PI * pole * sqrt 2) by ring.
    transitivity (2 * z / (2 * PI * pole * (sqrt 2 * sqrt 2))); [field; repeat split; lra|]. rewrite sqrt2_sq. field. split; lra.
Qed.

Lemma resonator_eq p rate pole : 0 < pole -> pole < rate / 2 -> 0 < pole_zeta p ->
  resonator p rate pole = Ok (res (compute_K pole rate / (2 * PI * pole)) (pole_zeta p)) /\
  0 < compute_K pole rate / (2 * PI * pole).
Proof.
  intros P0 P1 Z. pose proof (compute_K_pos pole rate P0 P1) as K. pose proof PI_RGT_0 as PP.
  set (w := 2 * PI * pole). assert (W : 0 < w) by (unfold w; nra).
  split; [|now apply Rdiv_lt_0_compat].
  unfold resonator. rewrite laplace_zero by exact P0. unfold bilinear_transform.
  rewrite Rltb_true by lra. rewrite Rleb_true by lra. rewrite Rltb_true by lra. cbn [ocheck].
  set (k := compute_K pole rate) in *. unfold laplace. fold w. f_equal.
  unfold normalize, make_coeffs, bilinear_map, res, res_den. cbn [fst snd b0 b1 b2 a0 a1 a2].
  assert (KW : 0 < k * w) by (apply Rmult_lt_0_compat; assumption).
  assert (D : 0 < k * k + 2 * pole_zeta p * k * w + w * w).
  { pose proof (Rmult_lt_0_compat _ _ K K). pose proof (Rmult_lt_0_compat _ _ W W). pose proof (Rmult_lt_0_compat _ _ Z KW). lra. }
  f_equal; field; repeat split; lra.
Qed.

Section Res.
Context (x z : R).
Hypothesis X : 0 < x.
Hypothesis Z : 0 < z < 1 / 2.
Lemma res_den_pos : 0 < res_den x z.
Proof. unfold res_den. nra. Qed.
Lemma res_a2 : 1 / 4 < a2 (res x z).
Proof.
  cbn. pose proof res_den_pos as D. apply (Rmult_lt_reg_r (res_den x z)); [exact D|].
  unfold Rdiv at 2. rewrite Rmult_assoc, Rinv_l by lra. unfold res_den in *.
  assert (z * x < 1 / 2 * x) by (apply Rmult_lt_compat_r; lra). pose proof (Rle_0_sqr (x - 1)). unfold Rsqr in *. lra.
Qed.
Lemma res_b2 : 1 / 4 < b2 (res x z).
Proof.
  cbn. pose proof res_den_pos as D. apply (Rmult_lt_reg_r (res_den x z)); [exact D|].
  unfold Rdiv at 2. rewrite Rmult_assoc, Rinv_l by lra. unfold res_den in *.
  assert (z * x < 1 / 2 * x) by (apply Rmult_lt_compat_r; lra). pose proof (Rle_0_sqr (x - 3 / 2)). unfold Rsqr in *. lra.
Qed.
Lemma res_stable : stable (res x z).
Proof.
  pose proof res_a2. pose proof res_den_pos as D.
  assert (Q : 0 < z * x) by nra. assert (Q2 : 0 < x * x) by nra.
  apply jury; [cbn; lra| | |].
  - change (a0 (res x z)) with 1. apply Rabs_def1; [|lra].
    cbn. apply (Rmult_lt_reg_r (res_den x z)); [exact D|]. unfold Rdiv. rewrite Rmult_assoc, Rinv_l by lra. unfold res_den. lra.
  - cbn. replace (1 + 2 * (1 - x * x) / res_den x z + (x * x - 2 * z * x + 1) / res_den x z) with (4 / res_den x z) by (unfold res_den in *; field; lra).
    apply Rdiv_lt_0_compat; lra.
  - cbn. replace (1 - 2 * (1 - x * x) / res_den x z + (x * x - 2 * z * x + 1) / res_den x z) with (4 * (x * x) / res_den x z) by (unfold res_den in *; field; lra).
    apply Rdiv_lt_0_compat; lra.
Qed.
Lemma res_num w : numerator (res x z) (cos w, sin w) <> RtoC 0.
Proof.
  pose proof res_b2. pose proof res_den_pos as D. assert (Q : 0 < z * x) by nra. assert (Q2 : 0 < x * x) by nra.
  set (c := {| b0 := 0; b1 := 0; b2 := 0; a0 := b0 (res x z); a1 := b1 (res x z); a2 := b2 (res x z) |}).
  assert (S : stable c).
  { assert (B0 : 0 < b0 (res x z)) by (cbn; apply Rdiv_lt_0_compat; lra).
    apply jury; cbn [a0 a1 a2 c]; [lra| | |].
    - apply Rabs_def1; [|lra]. cbn. apply Rmult_lt_compat_r; [now apply Rinv_0_lt_compat|]. lra.
    - cbn. replace (_ + _ + _) with (4 / res_den x z) by (unfold res_den in *; field; lra). apply Rdiv_lt_0_compat; lra.
    - cbn. replace (_ - _ + _) with (2 * (x * x) / res_den x z) by (unfold res_den in *; field; lra). apply Rdiv_lt_0_compat; lra. }
  change (numerator (res x z) (cos w, sin w)) with (denominator c (cos w, sin w)).
  intros E. destruct S as [_ S]. specialize (S _ E). unfold Cmod in S. cbn [fst snd] in S.
  replace (cos w ^ 2 + sin w ^ 2) with 1 in S; [rewrite sqrt_1 in S; lra|].
  pose proof (sin2_cos2 w). unfold Rsqr in *. lra.
Qed.
End Res.

(* what every stage of a filterbank has *)
Definition good (c : coeffs R) : Prop :=
  stable c /\ a0 c = 1 /\ 1 / 4 < a2 c /\ forall w, numerator c (cos w, sin w) <> RtoC 0.
Lemma res_good x z : 0 < x -> 0 < z < 1 / 2 -> good (res x z).
Proof.
  intros X Z. split; [now apply res_stable|]. split; [reflexivity|]. split; [now apply res_a2|]. intros w. now apply res_num.
Qed.
Lemma adjust_num_at g c z : numerator (adjust_stage g c) z = (RtoC g * numerator c z)%C.
Proof. unfold adjust_stage, set_b, vec_b, numerator. cbn [map nth b0 b1 b2]. rewrite !RtoC_mult. ring. Qed.
Lemma adjust_good g c : g <> 0 -> good c -> good (adjust_stage g c).
Proof.
  intros N (S & A & B & D). split; [exact S|]. split; [exact A|]. split; [exact B|]. intros w.
  rewrite adjust_num_at. apply Cmult_neq_0; [|apply D]. intros E. apply N. now apply RtoC_inj.
Qed.

(* ---- appending ---- *)
Definition clear_a (c : coeffs R) : Prop := tolerance < Rabs (a2 c).
Definition clear_b (c : coeffs R) : Prop := tolerance < Rabs (b2 c).
Lemma good_clear c : good c -> clear_a c.
Proof. intros (_ & _ & A & _). unfold clear_a, tolerance. rewrite Rabs_pos_eq by lra. lra. Qed.

Lemma find_none (f : coeffs R -> bool) cs i : Forall (fun c => f c = false) cs -> find_from f cs i = None.
Proof. intros H. now apply find_from_iff. Qed.
Lemma clear_first (poly : coeffs R -> list R) c : tolerance < Rabs (nth 2 (poly c) 0) -> first_order tolerance (poly c : list R) = false.
Proof. intros H. unfold first_order. rewrite Rleb_false by lra. reflexivity. Qed.
Lemma clear_zero (poly : coeffs R -> list R) c : tolerance < Rabs (nth 2 (poly c) 0) -> zero_order tolerance (poly c : list R) = false.
Proof. intros H. unfold zero_order. rewrite (Rleb_false (Rabs (nth 2 _ 0))) by lra. apply andb_false_r. Qed.
Lemma no_pairs poly set fuel cs : Forall (fun c => first_order tolerance (poly c) = false) cs -> merge_pairs tolerance poly set fuel cs = Ok cs.
Proof.
  intros H. assert (E : find_pair tolerance poly cs = None) by (unfold find_pair; now rewrite find_none).
  destruct fuel; cbn [merge_pairs]; [reflexivity|]. now rewrite E.
Qed.
Lemma no_gains fuel cs : Forall clear_a cs -> merge_gains tolerance fuel cs = cs.
Proof.
  intros H. destruct fuel; cbn [merge_gains]; [reflexivity|]. destruct (1 <? length cs)%nat; [|reflexivity].
  unfold find_zero_order. rewrite find_none; [reflexivity|]. eapply Forall_impl; [|exact H]. intros c Hc. exact (clear_zero vec_a c Hc).
Qed.

(* some coefficient is negligible, and scaling the last stage does not change that *)
Definition bad (cs : list (coeffs R)) : Prop :=
  exists i, (i < length cs)%nat /\ Rabs (b2 (nth i cs identity_coeffs)) <= tolerance /\ ((S i < length cs)%nat \/ b2 (nth i cs identity_coeffs) = 0).
Definition bad0 (cs : list (coeffs R)) : Prop := exists i, (i < length cs)%nat /\ b2 (nth i cs identity_coeffs) = 0.

Lemma tolerance_pos : 0 < tolerance.
Proof. unfold tolerance. lra. Qed.
Lemma bad0_bad cs : bad0 cs -> bad cs.
Proof. intros (i & I & E). exists i. split; [exact I|]. rewrite E, Rabs_R0. split; [left; exact tolerance_pos|now right]. Qed.
Lemma bad_not_clear cs : bad cs -> ~ clear_numerators cs.
Proof.
  intros (i & I & E & _) H. unfold clear_numerators in H. rewrite Forall_forall in H.
  specialize (H (nth i cs identity_coeffs) (nth_In _ _ I)). cbv beta in H. unfold tolerance in E. lra.
Qed.

Lemma update_length cs i c : (i < length cs)%nat -> length (update cs i c) = length cs.
Proof.
  intros I. destruct (nth_split cs identity_coeffs I) as (pre & post & E & L). rewrite E, <- L, update_mid, !app_length. reflexivity.
Qed.
Lemma update_nth cs i c : (i < length cs)%nat -> nth i (update cs i c) identity_coeffs = c.
Proof.
  intros I. destruct (nth_split cs identity_coeffs I) as (pre & post & E & L).
  rewrite E, <- L, update_mid. apply nth_mid.
Qed.
Lemma update_a cs i l : (i < length cs)%nat -> map vec_a (update cs i (set_b (nth i cs identity_coeffs) l)) = map vec_a cs.
Proof.
  intros I. destruct (nth_split cs identity_coeffs I) as (pre & post & E & L). set (c := nth i cs identity_coeffs) in *.
  rewrite E, <- L, update_mid, !map_app. cbn [map]. now rewrite vec_a_set_b.
Qed.
Lemma find_from_range f cs : forall i k, find_from f cs i = Some k -> (i <= k < i + length cs)%nat.
Proof.
  induction cs as [|c cs IH]; intros i k H; cbn in H; [discriminate|]. destruct (f c).
  - injection H as <-. cbn. lia.
  - apply IH in H. cbn. lia.
Qed.
Lemma find_pair_range poly cs i j : find_pair tolerance poly cs = Some (i, j) -> (i < j < length cs)%nat.
Proof.
  unfold find_pair. destruct (find_from _ cs 0) as [i'|] eqn:E1; [|discriminate].
  destruct (find_from _ (skipn (S i') cs) (S i')) as [j'|] eqn:E2; [|discriminate]. intros H. injection H as <- <-.
  apply find_from_range in E1, E2. rewrite skipn_length in E2. lia.
Qed.
Lemma merge_b fuel : forall cs cs', merge_pairs tolerance vec_b set_b fuel cs = Ok cs' ->
  length cs' = length cs /\ map vec_a cs' = map vec_a cs /\ (cs' = cs \/ bad0 cs').
Proof.
  induction fuel as [|fuel IH]; intros cs cs' H; cbn [merge_pairs] in H.
  - injection H as <-. auto.
  - destruct (find_pair tolerance vec_b cs) as [[i j]|] eqn:E; [|injection H as <-; auto].
    apply find_pair_range in E. destruct (convolve _ _) as [q| |] eqn:EC; cbn [obind] in H; try discriminate.
    set (u := update cs i (set_b (nth i cs identity_coeffs) (vresize 0 3 q))) in *.
    assert (LU : length u = length cs) by (apply update_length; lia).
    assert (NU : nth j u identity_coeffs = nth j cs identity_coeffs).
    { unfold u. destruct (nth_split cs identity_coeffs (n := i)) as (pre & post & E1 & L); [lia|].
      set (ci := nth i cs identity_coeffs) in *. rewrite E1. rewrite <- L at 1. rewrite update_mid.
      rewrite !app_nth2 by lia. destruct (j - length pre)%nat eqn:D; [lia|reflexivity]. }
    set (v := update u j (set_b (nth j cs identity_coeffs) [1; 0; 0])) in *.
    assert (LV : length v = length cs) by (unfold v; rewrite update_length; lia).
    assert (AV : map vec_a v = map vec_a cs).
    { unfold v. rewrite <- NU. rewrite update_a by lia. unfold u. apply update_a. lia. }
    assert (BV : bad0 v).
    { exists j. split; [lia|]. unfold v. rewrite update_nth by lia. reflexivity. }
    destruct (IH v cs' H) as (L & A & D). split; [lia|]. split; [congruence|]. right. destruct D as [->|D]; assumption.
Qed.
Lemma clear_a_map cs cs' : map vec_a cs' = map vec_a cs -> Forall clear_a cs -> Forall clear_a cs'.
Proof.
  intros E H. apply (Forall_map_eq (fun v => tolerance < Rabs (nth 2 v 0)) vec_a cs cs'); [now symmetry|]. exact H.
Qed.

Lemma append_cases cs c cs' : Forall clear_a (cs ++ [c]) -> append_biquad tolerance cs c = Ok cs' ->
  length cs' = S (length cs) /\ Forall clear_a cs' /\ (cs' = cs ++ [c] \/ bad0 cs').
Proof.
  intros A H. unfold append_biquad, simplify in H. 
  destruct (merge_pairs tolerance vec_b set_b _ _) as [c1| |] eqn:E1; cbn [obind] in H; try discriminate.
  apply merge_b in E1 as (L & M & D). assert (A1 : Forall clear_a c1) by (eapply clear_a_map; [exact M|exact A]).
  rewrite no_pairs in H. 2:{ eapply Forall_impl; [|exact A1]. intros q Q. exact (clear_first vec_a q Q). }
  cbn [obind] in H. rewrite no_gains in H by exact A1. injection H as <-.
  rewrite app_length in L. cbn in L. split; [lia|]. split; [exact A1|exact D].
Qed.
Lemma append_clear cs c : Forall clear_a (cs ++ [c]) -> Forall clear_b (cs ++ [c]) -> append_biquad tolerance cs c = Ok (cs ++ [c]).
Proof.
  intros A B. unfold append_biquad, simplify. rewrite no_pairs. 2:{ eapply Forall_impl; [|exact B]. intros q Q. exact (clear_first vec_b q Q). }
  cbn [obind]. rewrite no_pairs. 2:{ eapply Forall_impl; [|exact A]. intros q Q. exact (clear_first vec_a q Q). }
  cbn [obind]. now rewrite no_gains.
Qed.
Lemma append_first c : clear_a c -> clear_b c -> append_biquad tolerance [identity_coeffs] c = Ok [c].
Proof.
  intros A B. pose proof tolerance_pos as T. unfold append_biquad, simplify. cbn [app].
  assert (I1 : forall poly, poly = vec_a \/ poly = vec_b -> first_order tolerance (poly identity_coeffs) = false).
  { intros poly [-> | ->]; unfold first_order; cbn; rewrite Rabs_R0, (Rltb_false tolerance 0) by lra; apply andb_false_r. }
  rewrite no_pairs. 2:{ constructor; [apply (I1 vec_b); auto|]. constructor; [exact (clear_first vec_b c B)|constructor]. }
  cbn [obind]. rewrite no_pairs. 2:{ constructor; [apply (I1 vec_a); auto|]. constructor; [exact (clear_first vec_a c A)|constructor]. }
  cbn [obind length merge_gains Nat.ltb Nat.leb]. unfold find_zero_order. cbn [find_from].
  assert (ZI : forall poly, poly = vec_a \/ poly = vec_b -> zero_order tolerance (poly identity_coeffs) = true).
  { intros poly [-> | ->]; unfold zero_order; cbn; rewrite Rabs_R0, (Rleb_true 0 tolerance) by lra; reflexivity. }
  rewrite (ZI vec_a) by auto. rewrite (ZI vec_b) by auto. cbn [nth b0 a0 identity_coeffs Nat.eqb firstn skipn app].
  destruct (Reqb_spec (1 / 1) 1) as [_|N]; [|exfalso; apply N; field]. reflexivity.
Qed.
