From Verif Require Import Common ListLemmas RealUtil BiquadModel DesignModel DesignSpec DesignProofs DesignProofs2 DesignProofs3 CascadeModel CascadeSpec CascadeProofs CascadeProofs2 PoleZeroModel PoleZeroSpec PoleZeroProofs PoleZeroProofs2 PoleZeroProofs3 PoleZeroProofs4 PoleZeroProofs5 PolyRoots PoleZeroProofs6 PoleZeroProofs7 PoleZeroProofs12 PoleZeroProofs13.
From Coquelicot Require Import Complex.
Local Open Scope R_scope.

Lemma invhalf_real b x : RtoC (fst (Cdiv (Cdiv (RtoC b) (RtoC x)) (RtoC 2))) = Cdiv (Cdiv (RtoC b) (RtoC x)) (RtoC 2).
Proof. rewrite <- (inv_real b x). set (y := fst (Cdiv (RtoC b) (RtoC x))). rewrite <- RtoC_div by lra. reflexivity. Qed.
Lemma invhalf_conj b r : Cdiv (Cdiv (RtoC b) (Cconj r)) (RtoC 2) = Cconj (Cdiv (Cdiv (RtoC b) r) (RtoC 2)).
Proof. now rewrite !Cconj_div, !Cconj_RtoC. Qed.
Lemma invhalf_re b r : r <> RtoC 0 -> fst (Cdiv (Cdiv (RtoC b) r) (RtoC 2)) = b / (2 * (Cmod r * Cmod r)) * fst r.
Proof.
  intros H. pose proof (inv_re b r H) as E. apply Cmod_gt_0 in H. replace (Cdiv (Cdiv (RtoC b) r) (RtoC 2)) with (Cdiv (Cmult (RtoC 1) (Cdiv (RtoC b) r)) (RtoC 2)) by (f_equal; ring).
  rewrite half_re, E. field. lra.
Qed.
Lemma po_stop b c s l : (forall r, In r l -> r <> RtoC 0) -> Cplus (Cmult s s) (RtoC (c * c)) <> RtoC 0 ->
  po (quad c s) (map (fun r => Cdiv (Cdiv (RtoC b) r) (RtoC 2)) l) =
  Cdiv (Cmult (cpow (Cplus (Cmult s s) (RtoC (c * c))) (length l)) (po (fun r => Cminus (Cdiv (Cmult (RtoC b) s) (Cplus (Cmult s s) (RtoC (c * c)))) r) l)) (po (fun r => Cminus (RtoC 0) r) l).
Proof.
  intros H Q. pose proof two_neq as T. induction l as [|r l IH]; cbn [map product_over length cpow]; [field; apply RtoC_neq; lra|]. rewrite IH by (intros; apply H; now right).
  assert (R0 : r <> RtoC 0) by (apply H; now left). assert (P0 : po (fun r0 => Cminus (RtoC 0) r0) l <> RtoC 0) by (apply po_neq; intros x Hx; apply Cminus_neq; intros X; apply (H x); [now right|now symmetry]).
  set (q := Cplus (Cmult s s) (RtoC (c * c))) in *. set (P1 := po (fun r0 => Cminus (RtoC 0) r0) l) in *. set (X := po (fun r0 => Cminus (Cdiv (Cmult (RtoC b) s) q) r0) l). clear IH. clearbody P1 X q. assert (RM : Copp r <> RtoC 0) by (intros Y; apply R0; transitivity (Copp (Copp r)); [ring|rewrite Y; ring]). field. repeat split; assumption.
Qed.
Lemma bandstop_ok p fs low high : let tl := tan (PI * low / fs) in let th := tan (PI * high / fs) in
  lowpass_prototype p -> 0 < low -> low < high -> high < fs / 2 ->
  (forall x, In x (lone_zeros p ++ lone_poles p) -> (th - tl) * (th - tl) <= 4 * (tl * th) * (x * x)) -> away ((1 + tl * th) / (th - tl)) p ->
  exists cs, bandstop_filter (Ok p) fs low high = Ok cs /\ stable_cascade cs /\
    (forall z h, z <> RtoC 0 -> z <> RtoC (-1) -> let s := Cdiv (Cminus z (RtoC 1)) (Cplus z (RtoC 1)) in Cplus (Cmult s s) (RtoC (tl * th)) <> RtoC 0 ->
       cascade_value cs z h <-> analog_value p (Cdiv (Cmult (RtoC (th - tl)) s) (Cplus (Cmult s s) (RtoC (tl * th)))) h) /\
    ((length (zeros p) < length (poles p))%nat -> forall z, z <> RtoC 0 -> z <> RtoC (-1) -> let s := Cdiv (Cminus z (RtoC 1)) (Cplus z (RtoC 1)) in
       Cplus (Cmult s s) (RtoC (tl * th)) = RtoC 0 -> cascade_value cs z (RtoC 0)) /\
    (forall h, analog_value p (RtoC 0) h -> cascade_value cs (RtoC (-1)) h).
Proof.
  intros tl th (P1 & P2 & P3 & P4 & P5) H1 H2 H3 HN HA. assert (Hfs : 0 < fs) by lra.
  pose proof (tan_pos low fs H1 ltac:(lra)) as TL. pose proof (tan_less low high fs H1 H2 H3) as TH. fold tl in TL, TH. fold th in TH.
  assert (HR0 : forall r, In r (zeros p ++ poles p) -> fst r <= 0 /\ r <> RtoC 0).
  { intros r Hr. apply in_app_iff in Hr. destruct Hr as [Hr|Hr]; [exact (P2 r Hr)|]. specialize (P1 r Hr). split; [lra|]. intros ->. cbn in P1. lra. }
  assert (HZ0 : forall r, In r (zeros p) -> r <> RtoC 0) by (intros r Hr; apply HR0, in_app_iff; auto).
  assert (HP0 : forall r, In r (poles p) -> r <> RtoC 0) by (intros r Hr; apply HR0, in_app_iff; auto).
  unfold bandstop_filter. rewrite (Rltb_true 0 fs), (Rltb_true low high), (Rltb_true high (fs / 2)) by lra. destruct (Rleb_spec 0 low) as [_|N]; [|lra]. cbn [ocheck obind].
  rewrite avoids_true by (intros r Hr; apply HR0, Hr). cbn [oguard].
  rewrite !prewarp_tan. fold tl th. clearbody tl th. set (b := 2 * fs * th - 2 * fs * tl). assert (EB : b = 2 * fs * (th - tl)) by (unfold b; ring). assert (B0 : 0 < b) by (rewrite EB; apply Rmult_lt_0_compat; lra).
  set (c := sqrt (2 * fs * th * (2 * fs * tl))). assert (PC : 0 < 2 * fs * th * (2 * fs * tl)) by (repeat apply Rmult_lt_0_compat; lra).
  assert (C0 : 0 < c) by (now apply sqrt_lt_R0). assert (CC : c * c = 2 * fs * (2 * fs) * (tl * th)) by (unfold c; rewrite sqrt_sqrt by lra; ring). clearbody b c.
  destruct (positive_value p 0 HR0 (Rle_refl 0) P5) as (g0 & G0 & V0). destruct (eval_mod p _ _ V0) as (h0 & -> & EH). cbn [obind]. rewrite Cmod_R, Rabs_pos_eq in EH by lra. rewrite EH.
  rewrite map_frequency_is. set (mm := mapped _ p).
  assert (MZ : zeros mm = map (fun s => Cdiv (Cdiv (RtoC b) s) (RtoC 2)) (zeros p)) by (apply mapped_zeros; [apply invhalf_real|apply invhalf_conj]).
  assert (MP : poles mm = map (fun s => Cdiv (Cdiv (RtoC b) s) (RtoC 2)) (poles p)) by (apply mapped_poles; [apply invhalf_real|apply invhalf_conj]).
  rewrite shift_roots_is, add_zero_pairs. set (d := (length (poles p) - length (zeros p))%nat).
  assert (ED : relative_degree mm = Z.of_nat d) by (rewrite relative_degree_is, MZ, MP, !map_length; unfold d; lia). rewrite ED, Nat2Z.id. unfold set_gain. cbn [lone_zeros lone_poles paired_zeros paired_poles pz_gain].
  assert (LZ : length (zeros mm) = length (zeros p)) by (rewrite MZ; apply map_length). assert (LP : length (poles mm) = length (poles p)) by (rewrite MP; apply map_length).
  assert (HRE : forall r, r <> RtoC 0 -> exists k, 0 < k /\ fst (Cdiv (Cdiv (RtoC b) r) (RtoC 2)) = k * fst r).
  { intros r Hr. exists (b / (2 * (Cmod r * Cmod r))). pose proof (Cmod_gt_0 r) as [X _]. specialize (X Hr). split; [apply Rdiv_lt_0_compat; nra|]. now apply invhalf_re. }
  pose proof (moved_discretize mm fs c g0 0 d Hfs C0 G0) as M. change (repeat 0 0) with (@nil R) in M. destruct M as (cs & E & ST & V & _ & NE).
  - rewrite MP. intros x Hx. apply in_map_iff in Hx. destruct Hx as (r & <- & Hr). destruct (HRE r (HP0 r Hr)) as (k & K0 & ->). specialize (P1 r Hr). nra.
  - rewrite MZ. intros x Hx. apply in_map_iff in Hx. destruct Hx as (r & <- & Hr). destruct (HRE r (HZ0 r Hr)) as (k & K0 & ->). destruct (P2 r Hr). nra.
  - lia.
  - unfold d. lia.
  - intros y Hy. unfold mm, mapped in Hy. cbn [lone_zeros lone_poles] in Hy. rewrite <- map_app in Hy. apply in_map_iff in Hy. destruct Hy as (x & <- & Hx).
    assert (X0 : RtoC x <> RtoC 0). { apply in_app_iff in Hx. destruct Hx as [Hx|Hx]; [apply HZ0|apply HP0]; unfold zeros, poles; apply in_roots; left; eauto. }
    assert (x <> 0) by (intros ->; now apply X0). specialize (HN x Hx). rewrite invhalf_re, Cmod_R by exact X0. cbn [RtoC fst]. assert (EX : Rabs x * Rabs x = x * x) by (rewrite <- Rabs_mult; apply Rabs_pos_eq; nra). rewrite EX.
    replace (b / (2 * (x * x)) * x) with (b / (2 * x)) by (field; assumption). assert (XX : 0 < x * x) by nra. apply (Rmult_le_reg_r (4 * (x * x))); [lra|]. replace (b / (2 * x) * (b / (2 * x)) * (4 * (x * x))) with (b * b) by (field; assumption). rewrite EB, CC. assert (0 < fs * fs) by nra. nra.
  - intros y Hy. rewrite MZ, MP, <- map_app in Hy. apply in_map_iff in Hy. destruct Hy as (r & <- & Hr). specialize (HA r Hr). destruct (HR0 r Hr) as [_ R0].
    assert (0 < tl * th) by nra. assert (0 < fs * fs) by nra. set (t := (th - tl) / (1 + tl * th)). assert (T0 : 0 < t) by (apply Rdiv_lt_0_compat; lra). assert (TR : RtoC t <> RtoC 0) by (apply RtoC_neq; lra).
    assert (EX : Cmult (RtoC (2 * (2 * fs) / (2 * fs * (2 * fs) + c * c))) (Cdiv (Cdiv (RtoC b) r) (RtoC 2)) = Cdiv (RtoC t) r).
    { transitivity (Cdiv (Cmult (RtoC (2 * (2 * fs) / (2 * fs * (2 * fs) + c * c))) (Cdiv (RtoC b) (RtoC 2))) r); [unfold Cdiv; ring|]. f_equal. rewrite <- RtoC_div, <- RtoC_mult by lra. f_equal. unfold t. rewrite CC, EB. field. repeat split; try lra; nra. }
    rewrite EX. replace ((1 + tl * th) / (th - tl)) with (/ t) in HA by (unfold t; field; lra). rewrite RtoC_inv in HA by lra.
    replace (Cminus (RtoC 1) (Cdiv (RtoC t) r)) with (Copp (Cmult (Cdiv (RtoC t) r) (Cminus (RtoC 1) (Cmult (Cinv (RtoC t)) r)))) by (field; auto).
    replace (Cplus (RtoC 1) (Cdiv (RtoC t) r)) with (Cmult (Cdiv (RtoC t) r) (Cplus (RtoC 1) (Cmult (Cinv (RtoC t)) r))) by (field; auto).
    rewrite Cmod_opp, !Cmod_mult. assert (Q : 0 < Cmod (Cdiv (RtoC t) r)) by (apply Cmod_gt_0, Cdiv_neq; assumption). nra.
  - destruct V0 as [PP0 EG].
    assert (ZZ0 : po (fun z => Cminus (RtoC 0) z) (zeros p) <> RtoC 0) by (apply po_neq; intros r Hr; apply Cminus_neq; intros X; apply (HZ0 r Hr); now symmetry).
    assert (F0 : RtoC (2 * fs) <> RtoC 0) by (apply RtoC_neq; lra).
    assert (ESS : forall z, Cdiv (Cmult (RtoC (2 * fs)) (Cminus z (RtoC 1))) (Cplus z (RtoC 1)) = Cmult (RtoC (2 * fs)) (Cdiv (Cminus z (RtoC 1)) (Cplus z (RtoC 1)))) by (intros; unfold Cdiv; ring).
    assert (EQ : forall s, Cplus (Cmult (Cmult (RtoC (2 * fs)) s) (Cmult (RtoC (2 * fs)) s)) (RtoC (c * c)) = Cmult (Cmult (RtoC (2 * fs)) (RtoC (2 * fs))) (Cplus (Cmult s s) (RtoC (tl * th)))) by (intros s; rewrite CC, !(RtoC_mult (2 * fs * (2 * fs))), (RtoC_mult (2 * fs) (2 * fs)); ring).
    exists cs. split; [exact E|]. split; [exact ST|]. split; [|split].
    + intros z h Z1 Z4. set (s := Cdiv (Cminus z (RtoC 1)) (Cplus z (RtoC 1))). intros HS. rewrite (V z h Z1 Z4). clear V NE E ST. rewrite ESS. fold s. set (s' := Cmult (RtoC (2 * fs)) s).
      assert (QN : Cplus (Cmult s' s') (RtoC (c * c)) <> RtoC 0) by (unfold s'; rewrite EQ; repeat apply Cmult_neq; assumption).
      rewrite MZ, MP, !po_stop by assumption.
      assert (EV : Cdiv (Cmult (RtoC b) s') (Cplus (Cmult s' s') (RtoC (c * c))) = Cdiv (Cmult (RtoC (th - tl)) s) (Cplus (Cmult s s) (RtoC (tl * th)))) by (unfold s'; rewrite EQ, EB, (RtoC_mult (2 * fs) (th - tl)); field; auto).
      unfold analog_value. rewrite EV. set (v := Cdiv (Cmult (RtoC (th - tl)) s) (Cplus (Cmult s s) (RtoC (tl * th)))).
      set (PW := po (fun r => Cminus v r) (poles p)). set (ZW := po (fun r => Cminus v r) (zeros p)). set (Q0 := po (fun p => Cminus (RtoC 0) p) (poles p)) in *. set (N0 := po (fun p => Cminus (RtoC 0) p) (zeros p)) in *.
      set (q := Cplus (Cmult s' s') (RtoC (c * c))) in *. replace (length (poles p)) with (length (zeros p) + d)%nat by (unfold d; lia). rewrite cpow_add, EG. pose proof (cpow_neq q (length (zeros p)) QN). pose proof (cpow_neq q d QN).
      set (u := cpow q (length (zeros p))) in *. set (w := cpow q d) in *. cbn [cpow]. split; intros [A ->].
      * assert (PW <> RtoC 0) by (intros X; apply A; rewrite X; unfold Cdiv; ring). split; [assumption|]. field. auto.
      * split; [apply Cdiv_neq; [repeat apply Cmult_neq; assumption|assumption]|]. field. auto.
    + intros HL z Z1 Z4. set (s := Cdiv (Cminus z (RtoC 1)) (Cplus z (RtoC 1))). intros HS. apply (V z _ Z1 Z4). rewrite ESS. fold s. set (s' := Cmult (RtoC (2 * fs)) s).
      assert (QZ : Cplus (Cmult s' s') (RtoC (c * c)) = RtoC 0) by (unfold s'; rewrite EQ, HS; ring).
      assert (SN : s' <> RtoC 0). { intros X. rewrite X in QZ. apply (f_equal fst) in QZ. cbn in QZ. nra. }
      assert (NP : po (quad c s') (poles mm) <> RtoC 0).
      { apply po_neq. intros r Hr. rewrite MP in Hr. apply in_map_iff in Hr. destruct Hr as (x & <- & Hx). rewrite QZ. intros X. assert (Y : Cdiv (Cmult (RtoC b) s') x = RtoC 0) by (transitivity (Copp (Cminus (RtoC 0) (Cmult (Cmult (RtoC 2) (Cdiv (Cdiv (RtoC b) x) (RtoC 2))) s'))); [field; pose proof two_neq; pose proof (HP0 x Hx); split; assumption|rewrite X; ring]). revert Y. apply Cdiv_neq; [apply Cmult_neq; [apply RtoC_neq; lra|exact SN]|exact (HP0 x Hx)]. }
      split; [exact NP|]. replace d with (S (d - 1)) by (unfold d; lia). cbn [cpow]. set (D := po (quad c s') (poles mm)) in *. clearbody D. rewrite QZ. field. exact NP.
    + intros h [_ EV]. assert (h = RtoC g0) as -> by (rewrite EG; exact EV). apply NE. unfold d. lia.
Qed.
