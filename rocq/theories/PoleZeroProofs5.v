From Verif Require Import Common ListLemmas RealUtil BiquadModel DesignModel DesignSpec DesignProofs CascadeModel CascadeSpec CascadeProofs CascadeProofs2 PoleZeroModel PoleZeroSpec PoleZeroProofs PoleZeroProofs2 PoleZeroProofs3 PoleZeroProofs4.
From Coquelicot Require Import Complex.
Local Open Scope R_scope.

(* ---------- highpass ---------- *)
Lemma inv_real w x : RtoC (fst (Cdiv (RtoC w) (RtoC x))) = Cdiv (RtoC w) (RtoC x).
Proof. apply injective_projections; cbn [fst snd RtoC]; [reflexivity|]. unfold Cdiv, Cinv, Cmult. cbn [fst snd RtoC]. unfold Rdiv. ring. Qed.
Lemma inv_conj w r : Cdiv (RtoC w) (Cconj r) = Cconj (Cdiv (RtoC w) r).
Proof. now rewrite Cconj_div, Cconj_RtoC. Qed.
Lemma po_inverse w s l : s <> RtoC 0 -> (forall r, In r l -> r <> RtoC 0) ->
  po (fun r => Cminus s r) (map (fun r => Cdiv (RtoC w) r) l) = Cdiv (Cmult (cpow s (length l)) (po (fun r => Cminus (Cdiv (RtoC w) s) r) l)) (po (fun r => Cminus (RtoC 0) r) l).
Proof.
  intros HS H. assert (HN : forall r, In r l -> Cminus (RtoC 0) r <> RtoC 0) by (intros r Hr; apply Cminus_neq; intros E; apply (H r Hr); now symmetry).
  assert (N : po (fun r => Cminus (RtoC 0) r) l <> RtoC 0) by (apply po_neq; exact HN).
  transitivity (Cdiv (Cmult (po (fun r => Cminus s r) (map (fun r => Cdiv (RtoC w) r) l)) (po (fun r => Cminus (RtoC 0) r) l)) (po (fun r => Cminus (RtoC 0) r) l)); [field; exact N|].
  f_equal. rewrite po_map, <- po_const, <- !po_mul. apply po_ext. intros r Hr. field. split; [exact HS|exact (H r Hr)].
Qed.
Lemma inv_re w r : r <> RtoC 0 -> fst (Cdiv (RtoC w) r) = w * fst r / (Cmod r * Cmod r).
Proof. intros H. rewrite Cmod2. unfold Cdiv, Cinv, Cmult. cbn [fst snd RtoC]. apply Cmod_gt_0 in H. pose proof (Cmod2 r). assert (0 < fst r * fst r + snd r * snd r) by (rewrite <- Cmod2; nra). field. nra. Qed.

Lemma mobius_inverse K w r : 0 < K -> 0 < w -> r <> RtoC 0 -> fst r <= 0 ->
  bilinear_root K (Cdiv (RtoC w) r) = Cmult (RtoC (-1)) (Cdiv (Cplus (RtoC 1) (Cmult (RtoC (/ (w / K))) r)) (Cminus (RtoC 1) (Cmult (RtoC (/ (w / K))) r))).
Proof.
  intros HK HW HR HF. assert (X : Cminus (RtoC 1) (Cmult (RtoC (/ (w / K))) r) <> RtoC 0) by (apply left_half; [apply Rinv_0_lt_compat, Rdiv_lt_0_compat; assumption|exact HF]).
  assert (E : RtoC K = Cmult (RtoC w) (RtoC (/ (w / K)))) by (rewrite <- RtoC_mult; f_equal; field; lra). set (t := RtoC (/ (w / K))) in *.
  unfold bilinear_root. rewrite E, RtoC_m1. assert (W : RtoC w <> RtoC 0) by (apply RtoC_neq; lra).
  assert (Y : Cminus (Cmult t r) (RtoC 1) <> RtoC 0) by (intros Y; apply X; transitivity (Copp (Cminus (Cmult t r) (RtoC 1))); [ring|rewrite Y; ring]).
  field. repeat split; try assumption.
  replace (Cminus (Cmult (Cmult (RtoC w) t) r) (RtoC w)) with (Cmult (RtoC w) (Cminus (Cmult t r) (RtoC 1))) by ring. now apply Cmult_neq.
Qed.
Lemma Cmod_neg z : Cmod (Cmult (RtoC (-1)) z) = Cmod z.
Proof. rewrite Cmod_mult, Cmod_R, Rabs_left by lra. lra. Qed.
Lemma clear_neg z : clear z -> clear (Cmult (RtoC (-1)) z).
Proof. intros [->|H]; [left; ring|right; now rewrite Cmod_neg]. Qed.

Lemma highpass_ok p fs fc : lowpass_prototype p -> 0 < fc -> fc < fs / 2 -> tame (/ tan (PI * fc / fs)) p ->
  exists cs, highpass_filter (Ok p) fs fc = Ok cs /\ stable_cascade cs /\
    (forall z h, z <> RtoC 0 -> z <> RtoC 1 -> z <> RtoC (-1) -> cascade_value cs z h <-> analog_value p (Cdiv (Cmult (RtoC (tan (PI * fc / fs))) (Cplus z (RtoC 1))) (Cminus z (RtoC 1))) h) /\
    ((length (zeros p) < length (poles p))%nat -> cascade_value cs (RtoC 1) (RtoC 0)) /\
    (forall h, analog_value p (RtoC 0) h -> cascade_value cs (RtoC (-1)) h).
Proof.
  intros (P1 & P2 & P3 & P4 & P5) H1 H2 HT. assert (Hfs : 0 < fs) by lra. pose proof (tan_pos fc fs H1 H2) as T. set (t := tan (PI * fc / fs)) in *.
  assert (HR0 : forall r, In r (zeros p ++ poles p) -> fst r <= 0 /\ r <> RtoC 0).
  { intros r Hr. apply in_app_iff in Hr. destruct Hr as [Hr|Hr]; [exact (P2 r Hr)|]. specialize (P1 r Hr). split; [lra|]. intros ->. cbn in P1. lra. }
  assert (HZ0 : forall r, In r (zeros p) -> r <> RtoC 0) by (intros r Hr; apply HR0, in_app_iff; auto).
  assert (HP0 : forall r, In r (poles p) -> r <> RtoC 0) by (intros r Hr; apply HR0, in_app_iff; auto).
  unfold highpass_filter. rewrite (Rltb_true 0 fs), (Rltb_true fc (fs / 2)) by lra. destruct (Rleb_spec 0 fc) as [_|N]; [|lra]. cbn [ocheck obind].
  assert (EW : bilinear_prewarp fc fs = 2 * fs * t) by reflexivity. set (w := bilinear_prewarp fc fs) in *. assert (W : 0 < w) by (rewrite EW; apply Rmult_lt_0_compat; lra).
  assert (W0 : RtoC w <> RtoC 0) by (apply RtoC_neq; lra). assert (ET : w / (2 * fs) = t) by (rewrite EW; field; lra).
  rewrite avoids_true by (intros r Hr; apply HR0, Hr). cbn [oguard].
  destruct (positive_value p 0 HR0 (Rle_refl 0) P5) as (g0 & G0 & V0). destruct (eval_mod p _ _ V0) as (h0 & -> & EH). cbn [obind]. rewrite Cmod_R, Rabs_pos_eq in EH by lra. rewrite EH.
  rewrite map_frequency_is. set (mm := mapped _ p).
  assert (MZ0 : zeros mm = map (fun s => Cdiv (RtoC w) s) (zeros p)) by (apply mapped_zeros; [apply inv_real|apply inv_conj]).
  assert (MP0 : poles mm = map (fun s => Cdiv (RtoC w) s) (poles p)) by (apply mapped_poles; [apply inv_real|apply inv_conj]).
  rewrite add_zeros. set (d := (length (poles p) - length (zeros p))%nat).
  assert (ED : Z.to_nat (relative_degree mm) = d) by (rewrite relative_degree_is, MZ0, MP0, !map_length; unfold d; lia). rewrite ED. set (m := set_gain g0 _).
  assert (MP : poles m = map (fun s => Cdiv (RtoC w) s) (poles p)) by exact MP0.
  assert (MZI : forall r, In r (zeros m) <-> In r (map (fun s => Cdiv (RtoC w) s) (zeros p)) \/ In r (roots (repeat 0 d) [])).
  { intros r. unfold m, zeros at 1. cbn [set_gain lone_zeros paired_zeros]. rewrite <- (app_nil_r (paired_zeros mm)), roots_app, <- MZ0. reflexivity. }
  assert (MZP : forall h, po h (zeros m) = Cmult (po h (map (fun s => Cdiv (RtoC w) s) (zeros p))) (cpow (h (RtoC 0)) d)).
  { intros h. unfold m, zeros at 1. cbn [set_gain lone_zeros paired_zeros]. rewrite <- (app_nil_r (paired_zeros mm)), po_roots_app, po_repeat, <- MZ0. reflexivity. }
  assert (MZL : length (zeros m) = length (poles m)).
  { rewrite MP, map_length. unfold m, zeros. cbn [set_gain lone_zeros paired_zeros]. rewrite roots_length, app_length, repeat_length. pose proof MZ0 as X. unfold zeros in X. apply (f_equal (@length C)) in X. rewrite map_length, !roots_length in X. pose proof (roots_length (lone_zeros p) (paired_zeros p)) as Y. fold (zeros p) in Y. unfold d. lia. }
  assert (MG : pz_gain m = g0) by reflexivity.
  assert (HZERO : forall r, In r (roots (repeat 0 d) []) -> r = RtoC 0).
  { intros r Hr. apply in_roots in Hr. destruct Hr as [(x & Hx & ->)|[[]|(q & [] & _)]]. now rewrite (repeat_spec _ _ _ Hx). }
  assert (HRE : forall r, r <> RtoC 0 -> exists c, 0 < c /\ fst (Cdiv (RtoC w) r) = c * fst r).
  { intros r Hr. exists (w / (Cmod r * Cmod r)). pose proof (Cmod_gt_0 r) as [X _]. specialize (X Hr). split; [apply Rdiv_lt_0_compat; nra|]. rewrite inv_re by exact Hr. field. lra. }
  destruct (discretize m fs) as (cs & E & ST & V & NY & NE); try assumption.
  - rewrite MP. intros x Hx. apply in_map_iff in Hx. destruct Hx as (r & <- & Hr). destruct (HRE r (HP0 r Hr)) as (c & C0 & ->). specialize (P1 r Hr). nra.
  - intros x Hx. apply MZI in Hx. destruct Hx as [Hx|Hx]; [|rewrite (HZERO x Hx); cbn; lra]. apply in_map_iff in Hx. destruct Hx as (r & <- & Hr). destruct (HRE r (HZ0 r Hr)) as (c & C0 & ->). destruct (P2 r Hr). nra.
  - rewrite MP, map_length. lia.
  - lia.
  - assert (B0 : bilinear_root (2 * fs) (RtoC 0) = RtoC 1).
    { unfold bilinear_root. field. intros X. apply (f_equal fst) in X. cbn in X. lra. }
    destruct HT as [HT|(T1 & T2 & T3)]; [left|right].
    + assert (HC : forall x, In x (zeros p ++ poles p) -> clear (bilinear_root (2 * fs) (Cdiv (RtoC w) x))).
      { intros x Hx. destruct (HR0 x Hx) as [X1 X2]. rewrite mobius_inverse by (try assumption; lra). rewrite ET. apply clear_neg, clear_ratio; [|exact (HT x Hx)]. apply left_half; [now apply Rinv_0_lt_compat|exact X1]. }
      intros r Hr. apply in_app_iff in Hr. destruct Hr as [Hr|Hr].
      * apply MZI in Hr. destruct Hr as [Hr|Hr]; [|rewrite (HZERO r Hr), B0; right; rewrite Cmod_1; lra]. apply in_map_iff in Hr. destruct Hr as (x & <- & Hx). apply HC, in_app_iff. now left.
      * rewrite MP in Hr. apply in_map_iff in Hr. destruct Hr as (x & <- & Hx). apply HC, in_app_iff. now right.
    + unfold m, mm, mapped. cbn [set_gain lone_poles lone_zeros paired_zeros paired_poles]. rewrite T1, map_length. split; [exact T2|]. split.
      * cbn [map app]. intros x Hx. rewrite (repeat_spec _ _ _ Hx). replace ((2 * fs + 0) / (2 * fs - 0)) with 1 by (field; lra). rewrite Rabs_R1. lra.
      * intros r Hr. rewrite <- map_app in Hr. apply in_map_iff in Hr. destruct Hr as (x & <- & Hx).
        destruct (HR0 x) as [X1 X2]. { apply in_app_iff. unfold zeros, poles. rewrite !in_roots. apply in_app_iff in Hx. destruct Hx; auto. }
        rewrite mobius_inverse by (try assumption; lra). rewrite ET, Cmod_neg. apply away_ratio; [|exact (T3 x Hx)]. apply left_half; [now apply Rinv_0_lt_compat|exact X1].
  - destruct V0 as [PP0 EG].
    assert (ZZ0 : po (fun z => Cminus (RtoC 0) z) (zeros p) <> RtoC 0) by (apply po_neq; intros r Hr; apply Cminus_neq; intros X; apply (HZ0 r Hr); now symmetry).
    exists cs. split; [exact E|]. split; [exact ST|]. split; [|split].
    + intros z h Z1 Z2 Z4. rewrite (V z h Z1 Z4). pose proof (plus_one_neq z Z4) as Z3. assert (Z5 : Cminus z (RtoC 1) <> RtoC 0) by now apply Cminus_neq.
      assert (F0 : RtoC (2 * fs) <> RtoC 0) by (apply RtoC_neq; lra).
      set (s := Cdiv (Cmult (RtoC (2 * fs)) (Cminus z (RtoC 1))) (Cplus z (RtoC 1))). assert (S0 : s <> RtoC 0) by (apply Cdiv_neq; [now apply Cmult_neq|exact Z3]).
      assert (ES : Cdiv (Cmult (RtoC t) (Cplus z (RtoC 1))) (Cminus z (RtoC 1)) = Cdiv (RtoC w) s).
      { unfold s. rewrite EW, (RtoC_mult (2 * fs) t). field. repeat split; assumption. }
      unfold analog_value. rewrite ES, MP, MZP, !po_inverse, MG by assumption. replace (Cminus s (RtoC 0)) with s by ring.
      set (PW := po (fun r => Cminus (Cdiv (RtoC w) s) r) (poles p)). set (ZW := po (fun r => Cminus (Cdiv (RtoC w) s) r) (zeros p)). set (Q0 := po (fun p => Cminus (RtoC 0) p) (poles p)) in *. set (N0 := po (fun p => Cminus (RtoC 0) p) (zeros p)) in *.
      replace (length (poles p)) with (length (zeros p) + d)%nat by (unfold d; lia). rewrite cpow_add, EG. pose proof (cpow_neq s (length (zeros p)) S0). pose proof (cpow_neq s d S0).
      set (a := cpow s (length (zeros p))) in *. set (b := cpow s d) in *. split; intros [A ->].
      * assert (PW <> RtoC 0) by (intros X; apply A; rewrite X; unfold Cdiv; ring). split; [assumption|]. field. auto.
      * split; [apply Cdiv_neq; [repeat apply Cmult_neq; assumption|assumption]|]. field. auto.
    + intros HL. apply V; [exact one_neq|intros X; apply (f_equal fst) in X; cbn in X; lra|].
      replace (Cdiv (Cmult (RtoC (2 * fs)) (Cminus (RtoC 1) (RtoC 1))) (Cplus (RtoC 1) (RtoC 1))) with (RtoC 0) by (unfold Cdiv; ring).
      assert (NP : po (fun p0 => Cminus (RtoC 0) p0) (poles m) <> RtoC 0).
      { apply po_neq. rewrite MP. intros r Hr. apply in_map_iff in Hr. destruct Hr as (x & <- & Hx). apply Cminus_neq. intros X. symmetry in X. revert X. apply Cdiv_neq; [exact W0|exact (HP0 x Hx)]. }
      split; [exact NP|]. rewrite MZP. replace d with (S (d - 1)) by (unfold d; lia). cbn [cpow]. field. exact NP.
    + intros h [_ EV]. assert (h = RtoC g0) as -> by (rewrite EG; exact EV). rewrite <- MG. apply NE. exact MZL.
Qed.
