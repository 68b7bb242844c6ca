From Verif Require Import Common ListLemmas RealUtil BiquadModel DesignModel DesignSpec DesignProofs DesignProofs2 DesignProofs3 CascadeModel CascadeSpec CascadeProofs CascadeProofs2 PoleZeroModel PoleZeroSpec EqualizerSpec EqualizerProofs PoleZeroProofs PoleZeroProofs2 PoleZeroProofs3 PoleZeroProofs4 PoleZeroProofs5 PolyRoots PoleZeroProofs6 PoleZeroProofs7 PoleZeroProofs16 PoleZeroProofs17.
From Coquelicot Require Import Complex.
Local Open Scope R_scope.

(* ---------- lowpass and highpass responses of the same prototype ---------- *)
Lemma butterworth_unit n : (1 <= n)%nat -> po (fun p => Cminus (RtoC 0) p) (poles (butterworth n)) = RtoC 1.
Proof.
  intros H. destruct (butterworth_lowpass_prototype n H) as ((P1 & P2 & P3 & P4 & P5) & LP & LZ).
  destruct (positive_value (butterworth n) 0) as (g & G & [N V]); [|lra|exact P5|].
  - rewrite LZ. intros r Hr. specialize (P1 r Hr). split; [lra|]. intros ->. cbn in P1. lra.
  - assert (M : Cmod (po (fun p => Cminus (RtoC 0) p) (poles (butterworth n))) = 1).
    { apply po_unit. intros r Hr. replace (Cminus (RtoC 0) r) with (Copp r) by ring. rewrite Cmod_opp. now apply butterworth_poles_unit in Hr. }
    rewrite LZ in V. cbn [butterworth pz_gain product_over] in V. set (P := po _ _) in *. 
    assert (E : Cmult P (RtoC g) = RtoC 1) by (rewrite V; field; exact N).
    assert (GM : g = 1). { apply (f_equal Cmod) in E. rewrite Cmod_mult, M, Cmod_R, Cmod_1, Rabs_pos_eq in E; lra. }
    rewrite GM in E. rewrite <- E. ring.
Qed.
Lemma butterworth_reflect n W h h' : (1 <= n)%nat -> W <> 0 -> analog_value (butterworth n) (0, W) h -> analog_value (butterworth n) (0, - (1 / W)) h' -> h' = Cmult (cpow (0, W) n) h.
Proof.
  intros H HW [N1 ->] [N2 ->]. destruct (butterworth_lowpass_prototype n H) as (_ & LP & LZ). rewrite LZ. cbn [product_over].
  set (P1 := po (fun p => Cminus (0, W) p) _) in *. set (P2 := po (fun p => Cminus (0, - (1 / W)) p) _) in *.
  assert (E : Cmult (cpow (0, W) n) P2 = P1).
  { rewrite <- LP. unfold P2. rewrite <- po_const, <- po_mul. transitivity (Cmult (po (fun p => Cminus (RtoC 0) p) (poles (butterworth n))) P1); [|rewrite butterworth_unit by exact H; ring].
    assert (PC : P1 = po (fun p => Cminus (0, W) (Cconj p)) (poles (butterworth n))) by (unfold P1, poles; symmetry; apply (po_roots_conj (fun p => Cminus (0, W) p))). rewrite PC, <- po_mul. apply po_ext. intros r Hr. pose proof (butterworth_poles_unit n r Hr) as U.
    assert (S2 : fst r * fst r + snd r * snd r = 1) by (rewrite <- Cmod2, U; ring). destruct r as [x y]. cbn [fst snd] in S2. apply injective_projections; cbn.
    - match goal with |- ?l = ?r => transitivity (1 + W * y); [field; exact HW|]; transitivity ((x * x + y * y) + W * y); [now rewrite S2|ring] end.
    - ring. }
  rewrite <- E in *. assert (cpow (0, W) n <> RtoC 0) by (apply cpow_neq; intros X; apply (f_equal snd) in X; cbn in X; lra). field. split; assumption.
Qed.
Lemma cpow_i W n : cpow (0, W) (2 * n) = RtoC ((-1) ^ n * W ^ (2 * n)).
Proof.
  induction n as [|n IH]; [cbn; apply injective_projections; cbn; ring|]. replace (2 * S n)%nat with (2 + 2 * n)%nat by lia. rewrite cpow_add, IH, pow_add. cbn [cpow pow]. apply injective_projections; cbn; ring.
Qed.
Lemma on_circle_0 fs : fs <> 0 -> on_circle 0 fs = RtoC 1.
Proof. intros H. unfold on_circle. replace (2 * PI * 0 / fs) with 0 by (field; exact H). rewrite cos_0, sin_0. reflexivity. Qed.
Lemma on_circle_nyquist fs : fs <> 0 -> on_circle (fs / 2) fs = RtoC (-1) /\ on_circle (- (fs / 2)) fs = RtoC (-1).
Proof.
  intros H. unfold on_circle. replace (2 * PI * (fs / 2) / fs) with PI by (field; exact H). replace (2 * PI * - (fs / 2) / fs) with (- PI) by (field; exact H). rewrite cos_neg, sin_neg, cos_PI, sin_PI. split; apply injective_projections; cbn; ring.
Qed.
Lemma value_unique cs z h h' : cascade_value cs z h -> cascade_value cs z h' -> h = h'.
Proof. rewrite !cascade_value_iff. intros [D E] [_ E']. rewrite E in E'. transitivity (Cdiv (Cmult h (den cs z)) (den cs z)); [field; exact D|]. rewrite E'. field. exact D. Qed.

(* the Butterworth pair: at every frequency inside the Nyquist interval *)
Lemma butterworth_pair n fs fc : (1 <= n)%nat -> (Z.of_nat n <= 50000)%Z -> 0 < fc -> fc < fs / 2 ->
  exists lo hi, lowpass_filter (butterworth_prototype (Z.of_nat n)) fs fc = Ok lo /\ highpass_filter (butterworth_prototype (Z.of_nat n)) fs fc = Ok hi /\ stable_cascade lo /\ stable_cascade hi /\
    (forall g, - (fs / 2) < g < fs / 2 -> exists h, let W := tan (PI * g / fs) / tan (PI * fc / fs) in
       cascade_value lo (on_circle g fs) h /\ cascade_value hi (on_circle g fs) (Cmult (cpow (0, W) n) h) /\ Cmod h * Cmod h * (1 + W ^ (2 * n)) = 1) /\
    cascade_value lo (RtoC (-1)) (RtoC 0) /\ exists h, cascade_value hi (RtoC (-1)) h /\ Cmod h = 1.
Proof.
  intros H HN H1 H2. destruct (butterworth_lowpass_prototype n H) as (L & LP & LZ). pose proof (tan_pos fc fs H1 H2) as TP.
  destruct (lowpass_response _ fs fc L H1 H2 (butterworth_tame n _ H HN TP)) as (lo & EL & SL & VL & NL & _).
  destruct (highpass_response _ fs fc L H1 H2 (butterworth_tame n _ H HN (Rinv_0_lt_compat _ TP))) as (hi & EH & SH & VH & NH & NY).
  exists lo, hi. rewrite butterworth_is by exact H. split; [exact EL|]. split; [exact EH|]. split; [exact SL|]. split; [exact SH|]. split; [|split].
  - intros g G. destruct (butterworth_axis n (tan (PI * g / fs) / tan (PI * fc / fs)) H) as (h & A & M). exists h. cbv zeta. set (W := tan (PI * g / fs) / tan (PI * fc / fs)) in *. split; [now apply VL|].
    assert (Q : 0 < 1 + W ^ (2 * n)) by (assert (0 <= W ^ (2 * n)) by (rewrite pow_mult; apply pow_le, pow2_ge_0); lra).
    split; [|rewrite M; set (q := 1 + W ^ (2 * n)) in *; clearbody q; pose proof (sqrt_sqrt q ltac:(lra)) as QQ; pose proof (sqrt_lt_R0 q Q); set (x := sqrt q) in *; clearbody x; rewrite <- QQ; field; lra].
    destruct (Req_dec g 0) as [-> |G0].
    + rewrite on_circle_0 by lra. assert (W0 : W = 0) by (unfold W; replace (PI * 0 / fs) with 0 by (field; lra); rewrite tan_0; field; lra).
      replace (Cmult (cpow (0, W) n) h) with (RtoC 0); [apply NH; rewrite LP, LZ; cbn; lia|]. rewrite W0. change (0, 0) with (RtoC 0). destruct n; [lia|]. cbn [cpow]. ring.
    + assert (WN : tan (PI * g / fs) <> 0).
      { destruct (half_range g fs G) as [F [A1 A2]]. intros X. destruct (circle_high g fs 1 G G0) as (N1 & N2 & _). apply N1. destruct (circle_low g fs 1 G Rlt_0_1) as [_ E]. rewrite X in E.
        replace (0, 0 / 1) with (RtoC 0) in E by (apply injective_projections; cbn; [reflexivity|field]).
        assert (Z0 : Cminus (on_circle g fs) (RtoC 1) = RtoC 0).
        { pose proof (plus_one_neq _ N2) as NP. transitivity (Cmult (Cdiv (Cminus (on_circle g fs) (RtoC 1)) (Cmult (RtoC 1) (Cplus (on_circle g fs) (RtoC 1)))) (Cplus (on_circle g fs) (RtoC 1))); [field; exact NP|]. rewrite E. ring. }
        replace (on_circle g fs) with (Cplus (Cminus (on_circle g fs) (RtoC 1)) (RtoC 1)) by ring. rewrite Z0. ring. }
      assert (W0 : W <> 0) by (unfold W; apply Rmult_integral_contrapositive_currified; [exact WN|apply Rinv_neq_0_compat; lra]).
      destruct (butterworth_axis n (- (tan (PI * fc / fs) / tan (PI * g / fs))) H) as (h' & A' & _). pose proof A' as A2. replace (- (tan (PI * fc / fs) / tan (PI * g / fs))) with (- (1 / W)) in A2 by (unfold W; field; lra).
      rewrite <- (butterworth_reflect n W h h' H W0 A A2). now apply VH.
  - apply NL. rewrite LP, LZ. cbn. lia.
  - destruct (butterworth_dc n H) as (h & A & M). exists h. split; [now apply NY|exact M].
Qed.
Lemma adjust_value g cs z h : cs <> [] -> cascade_value cs z h -> cascade_value (adjust_gain g cs) z (Cmult (RtoC g) h).
Proof. intros N. rewrite !cascade_value_iff, adjust_den. intros [D E]. split; [exact D|]. rewrite adjust_num, E by exact N. ring. Qed.
Lemma stable_nonempty lo n fs fc : (1 <= n)%nat -> lowpass_filter (butterworth_prototype (Z.of_nat n)) fs fc = Ok lo -> cascade_value lo (RtoC (-1)) (RtoC 0) -> lo <> [].
Proof. intros _ _ V ->. cbn in V. apply (f_equal fst) in V. cbn in V. lra. Qed.
Lemma adjust_stable g cs : cs <> [] -> stable_cascade cs -> stable_cascade (adjust_gain g cs).
Proof. intros N S z Hz. destruct (S z Hz) as [h V]. exists (Cmult (RtoC g) h). now apply adjust_value. Qed.

(* magnitude of each output *)
Lemma rem_odd n : (1 <= n)%nat -> (Z.rem (2 * Z.of_nat n - 2) 4 =? 0)%Z = Nat.odd n.
Proof.
  intros H. rewrite Z.rem_mod_nonneg by lia. destruct (Nat.odd n) eqn:E.
  - apply Nat.odd_spec in E. destruct E as [k ->]. apply Z.eqb_eq. replace (2 * Z.of_nat (2 * k + 1) - 2)%Z with (Z.of_nat k * 4)%Z by lia. apply Z.mod_mul. lia.
  - assert (EV : Nat.even n = true) by (rewrite <- Nat.negb_odd, E; reflexivity). apply Nat.even_spec in EV. destruct EV as [k ->]. apply Z.eqb_neq. replace (2 * Z.of_nat (2 * k) - 2)%Z with (2 + (Z.of_nat k - 1) * 4)%Z by lia. rewrite Z.mod_add by lia. discriminate.
Qed.
Lemma sign_odd n : (-1) ^ n = if Nat.odd n then -1 else 1.
Proof.
  destruct (Nat.odd n) eqn:E.
  - apply Nat.odd_spec in E. destruct E as [k ->]. rewrite pow_add, pow_mult. replace ((-1) ^ 2) with 1 by ring. rewrite pow1. ring.
  - assert (EV : Nat.even n = true) by (rewrite <- Nat.negb_odd, E; reflexivity). apply Nat.even_spec in EV. destruct EV as [k ->]. rewrite pow_mult. replace ((-1) ^ 2) with 1 by ring. apply pow1.
Qed.
Lemma linkwitz_riley_ok n fs fc : (1 <= n)%nat -> (Z.of_nat n <= 50000)%Z -> 0 < fc -> fc < fs / 2 -> lowpass_gain n (tan (PI * fc / fs)) -> highpass_gain n (tan (PI * fc / fs)) -> lone_clear n (tan (PI * fc / fs)) ->
  exists lo hi, crossover Linkwitz_Riley_crossover (2 * Z.of_nat n) fc fs = Ok (lo, hi) /\ stable_cascade lo /\ stable_cascade hi /\
    (forall g, - (fs / 2) < g < fs / 2 -> exists hl, let W := tan (PI * g / fs) / tan (PI * fc / fs) in
       cascade_value lo (on_circle g fs) hl /\ cascade_value hi (on_circle g fs) (Cmult (RtoC (W ^ (2 * n))) hl) /\ Cmod hl * (1 + W ^ (2 * n)) = 1) /\
    cascade_value lo (RtoC (-1)) (RtoC 0) /\ exists h, cascade_value hi (RtoC (-1)) h /\ Cmod h = 1.
Proof.
  intros H HN H1 H2 HG HG' HC. destruct (butterworth_pair n fs fc H HN H1 H2) as (lo & hi & EL & EH & SL & SH & V & NL & h1 & NH & MH).
  destruct (double_lowpass n fs fc H HN H1 H2 HC HG) as (D & ED & LD & lo2 & CL & RL & NEL & _). rewrite EL in ED. injection ED as <-.
  destruct (double_highpass n fs fc H HN H1 H2 HC HG') as (D & ED & LD' & hi2 & CH & RH & NEH & _). rewrite EH in ED. injection ED as <-.
  set (s := (-1) ^ n). set (hi3 := if Nat.odd n then adjust_gain (-1) hi2 else hi2).
  assert (E : crossover Linkwitz_Riley_crossover (2 * Z.of_nat n) fc fs = Ok (lo2, hi3)).
  { unfold crossover, make_linkwitz_riley, make_butterworth. rewrite (Rltb_true 0 fc), (Rltb_true fc (fs / 2)) by assumption. replace (0 <? 2 * Z.of_nat n)%Z with true by lia. cbn [ocheck].
    replace (Z.rem (2 * Z.of_nat n) 2) with 0%Z by (rewrite Z.mul_comm, Z.rem_mul; lia). replace (Z.quot (2 * Z.of_nat n) 2) with (Z.of_nat n) by (rewrite Z.mul_comm, Z.quot_mul; lia). cbn [Z.eqb ocheck].
    rewrite EL, EH. cbn [obind fst]. rewrite (append_copies_of _ lo hi lo2 hi2); [|exact CL|rewrite LD, <- LD'; exact CH]. cbn [obind fst snd]. rewrite rem_odd by exact H. unfold hi3. destruct (Nat.odd n); reflexivity. }
  assert (HI : forall z h, z <> RtoC 0 -> cascade_value hi z h -> cascade_value hi3 z (Cmult (RtoC s) (Cmult h h))).
  { intros z h Z0 A. assert (A2 : cascade_value hi2 z (Cmult h h)) by (apply RH; [exact Z0|]; apply cascade_value_app; eauto). unfold s, hi3. rewrite sign_odd. destruct (Nat.odd n); [now apply adjust_value|]. now replace (Cmult (RtoC 1) (Cmult h h)) with (Cmult h h) by ring. }
  assert (LO : forall z h, z <> RtoC 0 -> cascade_value lo z h -> cascade_value lo2 z (Cmult h h)) by (intros z h Z0 A; apply RL; [exact Z0|]; apply cascade_value_app; eauto).
  assert (Z1 : forall z, 1 <= Cmod z -> z <> RtoC 0) by (intros z Hz ->; rewrite Cmod_0 in Hz; lra).
  exists lo2, hi3. split; [exact E|]. split; [intros z Hz; destruct (SL z Hz) as [h A]; eexists; apply LO; eauto|]. split; [intros z Hz; destruct (SH z Hz) as [h A]; eexists; apply HI; eauto|]. split; [|split].
  - intros g G. destruct (V g G) as (h & A1 & A2 & M). cbv zeta in *. set (W := tan (PI * g / fs) / tan (PI * fc / fs)) in *. exists (Cmult h h). split; [|split].
    + apply LO; [apply circle_neq_0|exact A1].
    + replace (Cmult (RtoC (W ^ (2 * n))) (Cmult h h)) with (Cmult (RtoC s) (Cmult (Cmult (cpow (0, W) n) h) (Cmult (cpow (0, W) n) h))); [apply HI; [apply circle_neq_0|exact A2]|].
      replace (Cmult (RtoC s) (Cmult (Cmult (cpow (0, W) n) h) (Cmult (cpow (0, W) n) h))) with (Cmult (RtoC s) (Cmult (cpow (0, W) (n + n)) (Cmult h h))) by (rewrite cpow_add; ring).
      replace (n + n)%nat with (2 * n)%nat by lia. rewrite cpow_i. rewrite Cmult_assoc, <- RtoC_mult. f_equal. f_equal. unfold s. rewrite <- Rmult_assoc, <- pow_add. replace (n + n)%nat with (2 * n)%nat by lia. rewrite (pow_mult (-1)). replace ((-1) ^ 2) with 1 by ring. rewrite pow1. ring.
    + rewrite Cmod_mult. exact M.
  - replace (RtoC 0) with (Cmult (RtoC 0) (RtoC 0)) by ring. apply LO; [|exact NL]. apply RtoC_neq. lra.
  - eexists. split; [apply HI; [apply RtoC_neq; lra|exact NH]|]. rewrite !Cmod_mult, MH, Cmod_R. unfold s. rewrite sign_odd. destruct (Nat.odd n); [rewrite Rabs_left|rewrite Rabs_R1]; lra.
Qed.
Lemma butterworth_crossover_ok n fs fc : (1 <= n)%nat -> (Z.of_nat n <= 50000)%Z -> 0 < fc -> fc < fs / 2 ->
  exists lo hi, crossover Butterworth_crossover (Z.of_nat n) fc fs = Ok (lo, hi) /\ stable_cascade lo /\ stable_cascade hi /\
    (forall g, - (fs / 2) < g < fs / 2 -> exists hl, let W := tan (PI * g / fs) / tan (PI * fc / fs) in
       cascade_value lo (on_circle g fs) hl /\ cascade_value hi (on_circle g fs) (Cmult (Cmult (RtoC (if (n mod 4 =? 2)%nat then -1 else 1)) (cpow (0, W) n)) hl) /\ Cmod hl * Cmod hl * (1 + W ^ (2 * n)) = 1) /\
    cascade_value lo (RtoC (-1)) (RtoC 0) /\ exists h, cascade_value hi (RtoC (-1)) h /\ Cmod h = 1.
Proof.
  intros H HN H1 H2. destruct (butterworth_pair n fs fc H HN H1 H2) as (lo & hi & EL & EH & SL & SH & V & NL & h1 & NH & MH).
  assert (EM : (Z.rem (Z.of_nat n - 2) 4 =? 0)%Z = (n mod 4 =? 2)%nat).
  { destruct (Nat.eq_dec n 1) as [-> |N1]; [reflexivity|]. rewrite Z.rem_mod_nonneg by lia. pose proof (Nat.div_mod n 4 ltac:(lia)) as DM. pose proof (Nat.mod_upper_bound n 4 ltac:(lia)) as MB. set (q := (n / 4)%nat) in *. set (r := (n mod 4)%nat) in *. clearbody q r.
    destruct (Nat.eqb_spec r 2) as [-> |NR]; [apply Z.eqb_eq; replace (Z.of_nat n - 2)%Z with (Z.of_nat q * 4)%Z by lia; apply Z.mod_mul; lia|]. apply Z.eqb_neq. intros X. apply Z.mod_divide in X; [|lia]. destruct X as [k K]. lia. }
  assert (HNE : hi <> []).
  { destruct (V 0 ltac:(lra)) as (h & _ & A & _). intros ->. cbv zeta in A. cbn [cascade_value] in A. replace (PI * 0 / fs) with 0 in A by (field; lra). rewrite tan_0 in A. replace (0 / tan (PI * fc / fs)) with 0 in A by (pose proof (tan_pos fc fs H1 H2); field; lra).
    change (0, 0) with (RtoC 0) in A. destruct n; [lia|]. cbn [cpow] in A. replace (Cmult (Cmult (RtoC 0) (cpow (RtoC 0) n)) h) with (RtoC 0) in A by ring. apply (f_equal fst) in A. cbn in A. lra. }
  set (hi3 := if (n mod 4 =? 2)%nat then adjust_gain (-1) hi else hi).
  assert (E : crossover Butterworth_crossover (Z.of_nat n) fc fs = Ok (lo, hi3)).
  { unfold crossover, make_butterworth. rewrite (Rltb_true 0 fc), (Rltb_true fc (fs / 2)) by assumption. replace (0 <? Z.of_nat n)%Z with true by lia. cbn [ocheck]. rewrite EL, EH. cbn [obind fst snd]. rewrite EM. unfold hi3. destruct (n mod 4 =? 2)%nat; reflexivity. }
  assert (HI : forall z h, cascade_value hi z h -> cascade_value hi3 z (Cmult (RtoC (if (n mod 4 =? 2)%nat then -1 else 1)) h)).
  { intros z h A. unfold hi3. destruct (n mod 4 =? 2)%nat; [now apply adjust_value|]. now replace (Cmult (RtoC 1) h) with h by ring. }
  exists lo, hi3. split; [exact E|]. split; [exact SL|]. split; [intros z Hz; destruct (SH z Hz) as [h A]; eexists; apply HI; eauto|]. split; [|split; [exact NL|]].
  - intros g G. destruct (V g G) as (h & A1 & A2 & M). exists h. cbv zeta in *. split; [exact A1|]. split; [|exact M]. rewrite <- Cmult_assoc. now apply HI.
  - eexists. split; [apply HI; exact NH|]. rewrite Cmod_mult, MH, Cmod_R. destruct (n mod 4 =? 2)%nat; [rewrite Rabs_left|rewrite Rabs_R1]; lra.
Qed.
