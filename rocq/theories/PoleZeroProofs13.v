From Verif Require Import Common ListLemmas RealUtil BiquadModel DesignModel DesignSpec DesignProofs DesignProofs2 DesignProofs3 CascadeModel CascadeSpec CascadeProofs CascadeProofs2 PoleZeroModel PoleZeroSpec PoleZeroProofs PoleZeroProofs2 PoleZeroProofs3 PoleZeroProofs4 PoleZeroProofs5 PolyRoots PoleZeroProofs6 PoleZeroProofs7 PoleZeroProofs12.
From Coquelicot Require Import Complex.
Local Open Scope R_scope.

Notation quad c s := (fun r => Cminus (Cplus (Cmult s s) (RtoC (c * c))) (Cmult (Cmult (RtoC 2) r) s)).
Lemma po_repeat_pair g x n : po g (roots [] (repeat x n)) = cpow (Cmult (g x) (g (Cconj x))) n.
Proof. rewrite po_roots. cbn [map product_over]. rewrite Cmult_1_l. induction n as [|n IH]; cbn [repeat product_over cpow]; [reflexivity|]. now rewrite IH. Qed.
Lemma moved_discretize m0 fs c g d1 d2 : 0 < fs -> 0 < c -> 0 < g ->
  (forall p, In p (poles m0) -> fst p < 0) -> (forall z, In z (zeros m0) -> fst z <= 0) -> (0 < length (poles m0))%nat -> (2 * length (zeros m0) + d1 + 2 * d2 <= 2 * length (poles m0))%nat ->
  (forall x, In x (lone_zeros m0 ++ lone_poles m0) -> x * x <= c * c) -> away (2 * (2 * fs) / (2 * fs * (2 * fs) + c * c)) m0 ->
  let m := {| lone_zeros := repeat 0 d1; lone_poles := []; paired_zeros := moved c (lone_zeros m0) (paired_zeros m0) ++ repeat (0, c) d2; paired_poles := moved c (lone_poles m0) (paired_poles m0); pz_gain := g |} in
  exists cs, obind (bilinear_pz m fs 0) get_coefficients = Ok cs /\ stable_cascade cs /\
    (forall z h, z <> RtoC 0 -> z <> RtoC (-1) -> let s := Cdiv (Cmult (RtoC (2 * fs)) (Cminus z (RtoC 1))) (Cplus z (RtoC 1)) in
       cascade_value cs z h <-> po (quad c s) (poles m0) <> RtoC 0 /\ h = Cdiv (Cmult (RtoC g) (Cmult (po (quad c s) (zeros m0)) (Cmult (cpow s d1) (cpow (Cplus (Cmult s s) (RtoC (c * c))) d2)))) (po (quad c s) (poles m0))) /\
    ((2 * length (zeros m0) + d1 + 2 * d2 < 2 * length (poles m0))%nat -> cascade_value cs (RtoC (-1)) (RtoC 0)) /\
    ((2 * length (zeros m0) + d1 + 2 * d2 = 2 * length (poles m0))%nat -> cascade_value cs (RtoC (-1)) (RtoC g)).
Proof.
  intros Hfs Hc Hg HP HZ HN HL HX HA m.
  assert (C0 : c <> 0) by lra.
  assert (LP : forall x, In x (lone_poles m0) -> x * x <= c * c) by (intros x Hx; apply HX, in_app_iff; now right).
  assert (LZ : forall x, In x (lone_zeros m0) -> x * x <= c * c) by (intros x Hx; apply HX, in_app_iff; now left).
  assert (MP : poles m = roots [] (moved c (lone_poles m0) (paired_poles m0))) by reflexivity.
  assert (MZ : zeros m = roots ([] ++ repeat 0 d1) (moved c (lone_zeros m0) (paired_zeros m0) ++ repeat (0, c) d2)) by reflexivity.
  assert (MZI : forall r, In r (zeros m) -> In r (roots [] (moved c (lone_zeros m0) (paired_zeros m0))) \/ r = RtoC 0 \/ r = (0, c) \/ r = Cconj (0, c)).
  { intros r Hr. rewrite MZ in Hr. apply roots_app in Hr. destruct Hr as [Hr|Hr]; [now left|right]. apply in_roots in Hr. destruct Hr as [(x & Hx & ->)|[Hx|(q & Hq & ->)]].
    - left. now rewrite (repeat_spec _ _ _ Hx).
    - right. left. exact (repeat_spec _ _ _ Hx).
    - right. right. now rewrite (repeat_spec _ _ _ Hq). }
  assert (LPm : length (poles m) = (2 * length (poles m0))%nat) by (rewrite MP; apply moved_length).
  assert (LZm : length (zeros m) = (2 * length (zeros m0) + d1 + 2 * d2)%nat).
  { rewrite MZ, roots_length, !app_length, !repeat_length. pose proof (moved_length c (lone_zeros m0) (paired_zeros m0)) as X. rewrite roots_length in X. fold (zeros m0) in X. cbn [length] in *. lia. }
  assert (KC : forall y, Cmod (bilinear_root (2 * fs) (0, y)) = 1).
  { intros y. unfold bilinear_root. rewrite Cmod_div by (intros X; apply (f_equal fst) in X; cbn in X; lra). replace (Cmod (Cplus (RtoC (2 * fs)) (0, y))) with (Cmod (Cminus (RtoC (2 * fs)) (0, y))).
    - unfold Rdiv. apply Rinv_r, Rgt_not_eq, Cmod_gt_0. intros X. apply (f_equal fst) in X. cbn in X. lra.
    - unfold Cmod. f_equal. cbn. ring. }
  destruct (discretize m fs) as (cs & E & ST & V & NY & NE); try assumption.
  - intros p Hp. rewrite MP in Hp. apply in_moved in Hp; [|exact LP]. destruct Hp as (q & Hq & EQ). destruct (moved_re c p q C0 EQ) as (k & K0 & ->). specialize (HP q Hq). nra.
  - intros r Hr. apply MZI in Hr. destruct Hr as [Hr|[-> |[-> | ->]]]; try (cbn; lra). apply in_moved in Hr; [|exact LZ]. destruct Hr as (q & Hq & EQ). destruct (moved_re c r q C0 EQ) as (k & K0 & ->). specialize (HZ q Hq). nra.
  - lia.
  - lia.
  - left. intros r Hr. apply in_app_iff in Hr. right. destruct Hr as [Hr|Hr].
    + apply MZI in Hr. destruct Hr as [Hr|[-> |[-> | ->]]].
      * apply in_moved in Hr; [|exact LZ]. destruct Hr as (q & Hq & EQ). apply (moved_away c (2 * fs) r q); try assumption; [lra|now apply HZ|]. apply HA, in_app_iff. now left.
      * change (RtoC 0) with ((0, 0) : C). rewrite KC. lra.
      * rewrite KC. lra.
      * unfold Cconj. cbn [fst snd]. rewrite KC. lra.
    + rewrite MP in Hr. apply in_moved in Hr; [|exact LP]. destruct Hr as (q & Hq & EQ). apply (moved_away c (2 * fs) r q); try assumption; [lra|specialize (HP q Hq); lra|]. apply HA, in_app_iff. now right.
  - exists cs. split; [exact E|]. split; [exact ST|]. split; [|split].
    + intros z h Z1 Z2 s. rewrite (V z h Z1 Z2). fold s. unfold analog_value. rewrite MP, MZ, po_roots_app, !po_moved by assumption. fold (zeros m0). fold (poles m0).
      replace (po (fun r => Cminus s r) (roots (repeat 0 d1) (repeat (0, c) d2))) with (Cmult (cpow s d1) (cpow (Cplus (Cmult s s) (RtoC (c * c))) d2)); [reflexivity|].
      rewrite <- (app_nil_r (repeat 0 d1)). change (repeat (0, c) d2) with ([] ++ repeat (0, c) d2). rewrite po_roots_app, po_repeat, po_repeat_pair. f_equal; f_equal.
      * ring.
      * destruct s as [u v]. apply injective_projections; cbn; ring.
    + intros X. apply NY. lia.
    + intros X. apply NE. lia.
Qed.

(* ---------- bandpass ---------- *)
Lemma half_real b x : RtoC (fst (Cdiv (Cmult (RtoC b) (RtoC x)) (RtoC 2))) = Cdiv (Cmult (RtoC b) (RtoC x)) (RtoC 2).
Proof. rewrite <- RtoC_mult, <- RtoC_div by lra. reflexivity. Qed.
Lemma half_conj b r : Cdiv (Cmult (RtoC b) (Cconj r)) (RtoC 2) = Cconj (Cdiv (Cmult (RtoC b) r) (RtoC 2)).
Proof. now rewrite Cconj_div, Cconj_mult', !Cconj_RtoC. Qed.
Lemma half_re b r : fst (Cdiv (Cmult (RtoC b) r) (RtoC 2)) = b / 2 * fst r.
Proof. cbn. field. Qed.
Lemma two_neq : RtoC 2 <> RtoC 0.
Proof. apply RtoC_neq. lra. Qed.
Lemma prewarp_tan f fs : bilinear_prewarp f fs = 2 * fs * tan (PI * f / fs).
Proof. reflexivity. Qed.
Lemma tan_less low high fs : 0 < low -> low < high -> high < fs / 2 -> tan (PI * low / fs) < tan (PI * high / fs).
Proof.
  intros H1 H2 H3. pose proof PI_RGT_0. assert (0 < fs) by lra. assert (E : forall a, PI * a / fs = a * (PI / fs)) by (intros; field; lra). assert (K : 0 < PI / fs) by (apply Rdiv_lt_0_compat; lra). assert (EH : fs / 2 * (PI / fs) = PI / 2) by (field; lra).
  rewrite !E. apply tan_increasing; nra.
Qed.
Lemma po_band b c s l : b <> 0 -> s <> RtoC 0 ->
  po (quad c s) (map (fun r => Cdiv (Cmult (RtoC b) r) (RtoC 2)) l) = Cmult (cpow (Cmult (RtoC b) s) (length l)) (po (fun r => Cminus (Cdiv (Cplus (Cmult s s) (RtoC (c * c))) (Cmult (RtoC b) s)) r) l).
Proof.
  intros B S0. assert (B0 : RtoC b <> RtoC 0) by now apply RtoC_neq. pose proof two_neq as T. induction l as [|r l IH]; cbn [map product_over length cpow]; [ring|]. rewrite IH. field. auto.
Qed.
Lemma bandpass_ok p fs low high : let tl := tan (PI * low / fs) in let th := tan (PI * high / fs) in
  lowpass_prototype p -> 0 < low -> low < high -> high < fs / 2 ->
  (forall x, In x (lone_zeros p ++ lone_poles p) -> (th - tl) * x * ((th - tl) * x) <= 4 * (tl * th)) -> away ((th - tl) / (1 + tl * th)) p ->
  exists cs, bandpass_filter (Ok p) fs low high = Ok cs /\ stable_cascade cs /\
    (forall z h, z <> RtoC 0 -> z <> RtoC 1 -> z <> RtoC (-1) -> let s := Cdiv (Cminus z (RtoC 1)) (Cplus z (RtoC 1)) in
       cascade_value cs z h <-> analog_value p (Cdiv (Cplus (Cmult s s) (RtoC (tl * th))) (Cmult (RtoC (th - tl)) s)) h) /\
    ((length (zeros p) < length (poles p))%nat -> cascade_value cs (RtoC 1) (RtoC 0) /\ cascade_value cs (RtoC (-1)) (RtoC 0)).
Proof.
  intros tl th (P1 & P2 & P3 & P4 & P5) H1 H2 H3 HN HA. assert (Hfs : 0 < fs) by lra.
  pose proof (tan_pos low fs H1 ltac:(lra)) as TL. pose proof (tan_less low high fs H1 H2 H3) as TH. fold tl in TL, TH. fold th in TH.
  unfold bandpass_filter. rewrite (Rltb_true 0 fs), (Rltb_true low high), (Rltb_true high (fs / 2)) by lra. destruct (Rleb_spec 0 low) as [_|N]; [|lra]. cbn [ocheck obind].
  rewrite !prewarp_tan. fold tl th. clearbody tl th. set (b := 2 * fs * th - 2 * fs * tl). assert (EB : b = 2 * fs * (th - tl)) by (unfold b; ring). assert (B0 : 0 < b) by (rewrite EB; apply Rmult_lt_0_compat; lra).
  set (c := sqrt (2 * fs * th * (2 * fs * tl))). assert (PC : 0 < 2 * fs * th * (2 * fs * tl)) by (repeat apply Rmult_lt_0_compat; lra).
  assert (C0 : 0 < c) by (now apply sqrt_lt_R0). assert (CC : c * c = 2 * fs * (2 * fs) * (tl * th)) by (unfold c; rewrite sqrt_sqrt by lra; ring). clearbody b c.
  rewrite map_frequency_is. set (mm := mapped _ p).
  assert (MZ : zeros mm = map (fun s => Cdiv (Cmult (RtoC b) s) (RtoC 2)) (zeros p)) by (apply mapped_zeros; [apply half_real|apply half_conj]).
  assert (MP : poles mm = map (fun s => Cdiv (Cmult (RtoC b) s) (RtoC 2)) (poles p)) by (apply mapped_poles; [apply half_real|apply half_conj]).
  rewrite shift_roots_is, add_zeros. set (d := (length (poles p) - length (zeros p))%nat).
  assert (ED : relative_degree mm = Z.of_nat d) by (rewrite relative_degree_is, MZ, MP, !map_length; unfold d; lia). rewrite ED, Nat2Z.id. unfold set_gain. cbn [lone_zeros lone_poles paired_zeros paired_poles pz_gain app].
  rewrite <- pow_powerRZ. change (pz_gain mm) with (pz_gain p). set (g := pz_gain p * b ^ d). assert (G0 : 0 < g) by (apply Rmult_lt_0_compat; [exact P5|now apply pow_lt]).
  assert (LZ : length (zeros mm) = length (zeros p)) by (rewrite MZ; apply map_length). assert (LP : length (poles mm) = length (poles p)) by (rewrite MP; apply map_length).
  pose proof (moved_discretize mm fs c g d 0 Hfs C0 G0) as M. cbn [repeat] in M. rewrite app_nil_r in M. destruct M as (cs & E & ST & V & NY & _).
  - rewrite MP. intros x Hx. apply in_map_iff in Hx. destruct Hx as (r & <- & Hr). rewrite half_re. specialize (P1 r Hr). nra.
  - rewrite MZ. intros x Hx. apply in_map_iff in Hx. destruct Hx as (r & <- & Hr). rewrite half_re. destruct (P2 r Hr). nra.
  - lia.
  - unfold d. lia.
  - intros y Hy. unfold mm, mapped in Hy. cbn [lone_zeros lone_poles] in Hy. rewrite <- map_app in Hy. apply in_map_iff in Hy. destruct Hy as (x & <- & Hx). rewrite half_re. cbn [RtoC fst]. specialize (HN x Hx). rewrite EB, CC. assert (0 < fs * fs) by nra. nra.
  - intros y Hy. rewrite MZ, MP, <- map_app in Hy. apply in_map_iff in Hy. destruct Hy as (r & <- & Hr). specialize (HA r Hr).
    replace (Cmult (RtoC (2 * (2 * fs) / (2 * fs * (2 * fs) + c * c))) (Cdiv (Cmult (RtoC b) r) (RtoC 2))) with (Cmult (RtoC ((th - tl) / (1 + tl * th))) r); [exact HA|].
    assert (0 < tl * th) by nra. assert (0 < fs * fs) by nra. transitivity (Cmult (Cmult (RtoC (2 * (2 * fs) / (2 * fs * (2 * fs) + c * c))) (Cdiv (RtoC b) (RtoC 2))) r); [|unfold Cdiv; ring]. f_equal. rewrite <- RtoC_div, <- RtoC_mult by lra. f_equal. rewrite CC, EB. field. repeat split; try lra; nra.
  - exists cs. split; [exact E|]. split; [exact ST|]. split.
    + intros z h Z1 Z2 Z4. set (s := Cdiv (Cminus z (RtoC 1)) (Cplus z (RtoC 1))). rewrite (V z h Z1 Z4). clear V NY E ST. pose proof (plus_one_neq z Z4) as Z3. assert (Z5 : Cminus z (RtoC 1) <> RtoC 0) by now apply Cminus_neq.
      assert (F0 : RtoC (2 * fs) <> RtoC 0) by (apply RtoC_neq; lra). assert (S0 : s <> RtoC 0) by now apply Cdiv_neq.
      set (s' := Cdiv (Cmult (RtoC (2 * fs)) (Cminus z (RtoC 1))) (Cplus z (RtoC 1))). assert (ES : s' = Cmult (RtoC (2 * fs)) s) by (unfold s', s, Cdiv; ring). assert (S1 : s' <> RtoC 0) by (rewrite ES; now apply Cmult_neq).
      rewrite MZ, MP, !po_band by (try assumption; lra).
      assert (BR : RtoC b <> RtoC 0) by (apply RtoC_neq; lra). assert (TR : RtoC (th - tl) <> RtoC 0) by (apply RtoC_neq; lra).
      assert (EV : Cdiv (Cplus (Cmult s' s') (RtoC (c * c))) (Cmult (RtoC b) s') = Cdiv (Cplus (Cmult s s) (RtoC (tl * th))) (Cmult (RtoC (th - tl)) s)).
      { rewrite ES, CC, EB, !(RtoC_mult (2 * fs * (2 * fs))), (RtoC_mult (2 * fs) (2 * fs)), (RtoC_mult (2 * fs) (th - tl)). field. auto. }
      unfold analog_value. rewrite EV. set (v := Cdiv (Cplus (Cmult s s) (RtoC (tl * th))) (Cmult (RtoC (th - tl)) s)).
      set (PW := po (fun r => Cminus v r) (poles p)). set (ZW := po (fun r => Cminus v r) (zeros p)). assert (BS : Cmult (RtoC b) s' <> RtoC 0) by now apply Cmult_neq.
      replace (length (poles p)) with (length (zeros p) + d)%nat by (unfold d; lia). rewrite cpow_add. pose proof (cpow_neq _ (length (zeros p)) BS) as N1. pose proof (cpow_neq _ d BS) as N2.
      assert (EG : Cmult (RtoC g) (cpow s' d) = Cmult (RtoC (pz_gain p)) (cpow (Cmult (RtoC b) s') d)) by (unfold g; rewrite cpow_mult, cpow_RtoC, RtoC_mult; ring).
      set (u := cpow (Cmult (RtoC b) s') (length (zeros p))) in *. set (w := cpow (Cmult (RtoC b) s') d) in *. cbn [cpow].
      replace (Cmult (RtoC g) (Cmult (Cmult u ZW) (Cmult (cpow s' d) (RtoC 1)))) with (Cmult (Cmult (RtoC (pz_gain p)) w) (Cmult u ZW)) by (rewrite <- EG; ring).
      split; intros [A ->].
      * assert (PW <> RtoC 0) by (intros X; apply A; rewrite X; ring). split; [assumption|]. field. auto.
      * split; [repeat apply Cmult_neq; assumption|]. field. auto.
    + intros HL. split; [|apply NY; unfold d; lia]. apply V; [exact one_neq|intros X; apply (f_equal fst) in X; cbn in X; lra|].
      replace (Cdiv (Cmult (RtoC (2 * fs)) (Cminus (RtoC 1) (RtoC 1))) (Cplus (RtoC 1) (RtoC 1))) with (RtoC 0) by (unfold Cdiv; ring).
      assert (NP : po (quad c (RtoC 0)) (poles mm) <> RtoC 0).
      { apply po_neq. intros r _ X. apply (f_equal fst) in X. cbn in X. nra. }
      split; [exact NP|]. replace d with (S (d - 1)) by (unfold d; lia). cbn [cpow]. field. exact NP.
Qed.
