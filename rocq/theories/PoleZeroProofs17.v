From Verif Require Import Common ListLemmas RealUtil BiquadModel DesignModel DesignSpec DesignProofs DesignProofs2 DesignProofs3 CascadeModel CascadeSpec CascadeProofs CascadeProofs2 PoleZeroModel PoleZeroSpec EqualizerSpec EqualizerProofs PoleZeroProofs PoleZeroProofs2 PoleZeroProofs3 PoleZeroProofs4 PoleZeroProofs5 PolyRoots PoleZeroProofs6 PoleZeroProofs7 PoleZeroProofs16.
From Coquelicot Require Import Complex.
Local Open Scope R_scope.

Lemma tol_is : tolerance = / 10000000000.
Proof. unfold tolerance. lra. Qed.
Lemma pair_stage_so x g p : x * x = 1 -> tolerance < g -> / 100000 < Cmod p -> 
  second_order (set_b (pair_stage x p) (map (fun b => b * g) (vec_b (pair_stage x p)))) /\ second_order (pair_stage x p).
Proof.
  intros X G P. pose proof tol_is as T. pose proof (pair_second p P) as A. split; (split; [|exact A]).
  - cbn. rewrite X, Rmult_1_l, Rabs_pos_eq; lra.
  - cbn. rewrite X, Rabs_R1. lra.
Qed.
Lemma lone_stage_ok x g q : x = 1 \/ x = -1 -> / 100000 < g -> q = 0 \/ / 100000 < Rabs q ->
  let c := set_b (lone_stage x q) (map (fun b => b * g) (vec_b (lone_stage x q))) in well_scaled c /\ proper_b c.
Proof.
  intros X G Q c. pose proof tol_is as T.
  assert (B1 : b1 c = - x * g) by (cbn; ring). assert (B2 : b2 c = 0) by (cbn; ring). assert (A0 : a0 c = 1) by reflexivity. assert (A1 : a1 c = - q) by (cbn; ring). assert (A2 : a2 c = 0) by (cbn; ring).
  assert (AB : Rabs (b1 c) = g) by (rewrite B1; destruct X as [-> | ->]; [rewrite Rabs_left|rewrite Rabs_right]; lra).
  split; [|unfold proper_b; unfold zero_order, vec_b; cbn [nth]].
  - unfold well_scaled. repeat split.
    + left. split; [exact B2|right; lra].
    + left. split; [exact A2|]. rewrite A1, Rabs_Ropp. destruct Q as [-> |Q]; [left; ring|now right].
    + lra.
    + intros E. rewrite E, Rabs_R0 in AB. lra.
    + intros _ _. rewrite A0, Rabs_R1. lra.
  - destruct (Rleb_spec (Rabs (b1 c)) tolerance) as [L|L]; [lra|reflexivity].
Qed.
Lemma set_b_one c : set_b c (map (fun b => b * 1) (vec_b c)) = c.
Proof. destruct c as [p0 p1 p2 q0 q1 q2]. cbn. now rewrite !Rmult_1_r. Qed.
Lemma doubled_stages x g pp lp : x = 1 \/ x = -1 -> tolerance < g -> (pp = [] -> / 100000 < g) -> (length lp <= 1)%nat ->
  (forall p, In p pp -> / 100000 < Cmod p) -> (forall q, In q lp -> q = 0 \/ / 100000 < Rabs q) -> (0 < length pp + length lp)%nat ->
  let D := adjust_gain g (map (pair_stage x) pp ++ map (lone_stage x) lp) in
  exists cs, copies (seq 0 (length D)) D = Ok cs /\ same_response (D ++ D) cs /\ cs <> [] /\ Forall well_scaled D /\ Forall well_scaled cs.
Proof.
  intros X G G1 L HP HQ NE D. assert (XX : x * x = 1) by (destruct X as [-> | ->]; ring). pose proof tol_is as T.
  destruct pp as [|p pp].
  - destruct lp as [|q [|? ?]]; cbn [length] in *; try lia. destruct (lone_stage_ok x g q X (G1 eq_refl) (HQ q (or_introl eq_refl))) as [W P].
    set (c := set_b (lone_stage x q) _) in *. change D with ([] ++ [c]). apply doubled; [constructor|right; now exists c|discriminate].
  - set (c := set_b (pair_stage x p) (map (fun b => b * g) (vec_b (pair_stage x p)))). change D with ((c :: map (pair_stage x) pp) ++ map (lone_stage x) lp). apply doubled; [| |discriminate].
    + constructor; [split; [apply pair_stage_so; auto; apply HP; now left|cbn; lra]|]. apply Forall_forall. intros d Hd. apply in_map_iff in Hd. destruct Hd as (r & <- & Hr).
      split; [apply (pair_stage_so x g); auto; apply HP; now right|cbn; lra].
    + destruct lp as [|q [|? ?]]; cbn [length] in *; [now left| |lia]. right. exists (lone_stage x q). split; [reflexivity|].
      pose proof (lone_stage_ok x 1 q X ltac:(lra) (HQ q (or_introl eq_refl))) as Y. cbv zeta in Y. now rewrite set_b_one in Y.
Qed.

(* ---------- Butterworth lowpass and highpass ---------- *)
Lemma pow_monotone_lt x n m : 0 < x -> x < 1 -> (n <= m)%nat -> x ^ m <= x ^ n.
Proof. intros H1 H2 H. replace m with (n + (m - n))%nat by lia. rewrite pow_add. rewrite <- (Rmult_1_r (x ^ n)) at 2. apply Rmult_le_compat_l; [apply pow_le; lra|]. rewrite <- (pow1 (m - n)). apply pow_incr. lra. Qed.
(* a / b is the bound of the gain for one pole *)
Lemma gains_large n a b g : 0 < a -> a < b -> (1 <= n)%nat -> / 10000000000 * b ^ Nat.max n 2 < a ^ Nat.max n 2 -> a ^ n / b ^ n <= g -> tolerance < g /\ (n = 1%nat -> / 100000 < g).
Proof.
  intros A B N H G. rewrite tol_is. assert (Q : / 10000000000 < (a / b) ^ Nat.max n 2).
  { unfold Rdiv. rewrite Rpow_mult_distr. assert (0 < b ^ Nat.max n 2) by (apply pow_lt; lra). rewrite pow_inv by lra. apply (Rmult_lt_reg_r (b ^ Nat.max n 2)); [assumption|]. rewrite Rmult_assoc, Rinv_l by lra. lra. }
  assert (R0 : 0 < a / b) by (apply Rdiv_lt_0_compat; lra). assert (R1 : a / b < 1) by (apply (Rmult_lt_reg_r b); [lra|]; unfold Rdiv; rewrite Rmult_assoc, Rinv_l by lra; lra).
  assert (E : a ^ n / b ^ n = (a / b) ^ n) by (unfold Rdiv; rewrite Rpow_mult_distr, pow_inv by lra; reflexivity). rewrite E in G. split.
  - apply Rlt_le_trans with ((a / b) ^ Nat.max n 2); [exact Q|]. apply Rle_trans with ((a / b) ^ n); [|exact G]. apply pow_monotone_lt; auto. lia.
  - intros ->. cbn [Nat.max pow] in *. rewrite Rmult_1_r in *. set (r := a / b) in *. destruct (Rlt_le_dec (/ 100000) r) as [?|NO]; [lra|]. exfalso. assert (r * r <= / 100000 * / 100000) by (apply Rmult_le_compat; lra). lra.
Qed.
Lemma in_lone_root K w q : 0 < K -> 0 < w -> q = (K + - w) / (K - - w) -> w / K = 1 \/ / 100000 * (1 + w / K) < Rabs (1 - w / K) -> q = 0 \/ / 100000 < Rabs q.
Proof.
  intros HK HW -> H. assert (P : 0 < w / K) by (apply Rdiv_lt_0_compat; lra). set (t := w / K) in *. assert (E : w = K * t) by (unfold t; field; lra). rewrite E. clearbody t. clear E.
  replace ((K + - (K * t)) / (K - - (K * t))) with ((1 - t) / (1 + t)) by (field; nra). destruct H as [-> |H]; [left; field|right].
  unfold Rdiv. rewrite Rabs_mult, Rabs_inv, (Rabs_pos_eq (1 + t)) by lra. apply (Rmult_lt_reg_r (1 + t)); [lra|]. rewrite Rmult_assoc, Rinv_l by lra. lra.
Qed.
Section Stages.
Variables (n : nat) (fs fc : R).
Hypothesis (H : (1 <= n)%nat) (HN : (Z.of_nat n <= 50000)%Z) (H1 : 0 < fc) (H2 : fc < fs / 2).
Hypothesis HC : lone_clear n (tan (PI * fc / fs)).
Lemma butterworth_shape : (length (lone_poles (butterworth n)) <= 1)%nat /\ (forall x, In x (lone_poles (butterworth n)) -> x = -1 /\ Nat.odd n = true) /\ (paired_poles (butterworth n) = [] -> n = 1%nat) /\
  length (paired_poles (butterworth n)) = Nat.div2 n /\ (length (lone_poles (butterworth n)) + 2 * length (paired_poles (butterworth n)) = n)%nat.
Proof.
  destruct (butterworth_lowpass_prototype n H) as (_ & L & _). unfold poles in L. rewrite roots_length in L.
  assert (LP : (length (lone_poles (butterworth n)) <= 1)%nat) by (cbn [butterworth lone_poles]; destruct (Nat.odd n); cbn; lia). split; [exact LP|]. split; [|split; [|split; [|exact L]]].
  - cbn [butterworth lone_poles]. destruct (Nat.odd n); [|intros x []]. intros x [<-|[]]. auto.
  - intros E. rewrite E in L. cbn [length] in L. lia.
  - cbn [butterworth paired_poles]. now rewrite map_length, seq_length.
Qed.
Lemma doubled_of g x (pp : list C) (lp : list R) : x = 1 \/ x = -1 -> tolerance < g /\ (n = 1%nat -> / 100000 < g) ->
  length pp = length (paired_poles (butterworth n)) -> length lp = length (lone_poles (butterworth n)) ->
  (forall p, In p pp -> / 100000 < Cmod p) -> (forall q, In q lp -> q = 0 \/ / 100000 < Rabs q) ->
  let D := adjust_gain g (map (pair_stage x) pp ++ map (lone_stage x) lp) in
  length D = (n - Nat.div2 n)%nat /\ exists cs, copies (seq 0 (length D)) D = Ok cs /\ same_response (D ++ D) cs /\ cs <> [] /\ Forall well_scaled D /\ Forall well_scaled cs.
Proof.
  intros X [G G1] LP LL HP HQ D. destruct butterworth_shape as (S1 & S2 & S3 & S4 & S5). split.
  - unfold D. rewrite adjust_gain_length, app_length, !map_length, LP, LL. lia.
  - apply doubled_stages; auto; try lia. intros ->. apply G1, S3. apply length_zero_iff_nil. symmetry. exact LP.
Qed.
Lemma lowpass_stages : exists g pp lp, lowpass_filter (butterworth_prototype (Z.of_nat n)) fs fc = Ok (adjust_gain g (map (pair_stage (-1)) pp ++ map (lone_stage (-1)) lp)) /\
  (tan (PI * fc / fs)) ^ n / (1 + tan (PI * fc / fs)) ^ n <= g <= (tan (PI * fc / fs)) ^ n /\
  length pp = length (paired_poles (butterworth n)) /\ length lp = length (lone_poles (butterworth n)) /\
  (forall p, In p pp -> / 100000 < Cmod p) /\ (forall q, In q lp -> q = 0 \/ / 100000 < Rabs q) /\
  (forall q, In q lp -> q = (1 - tan (PI * fc / fs)) / (1 + tan (PI * fc / fs))).
Proof.
  destruct butterworth_shape as (S1 & S2 & S3 & S4 & S5). destruct (butterworth_lowpass_prototype n H) as ((P1 & P2 & P3 & P4 & P5) & LP & LZ). pose proof (butterworth_poles_unit n) as PU.
  rewrite butterworth_is by exact H. assert (Hfs : 0 < fs) by lra. pose proof (tan_pos fc fs H1 H2) as T. set (t := tan (PI * fc / fs)) in *. destruct (butterworth_tame_paired n t H HN T) as (_ & _ & TM).
  unfold lowpass_filter. rewrite (Rltb_true 0 fs), (Rltb_true fc (fs / 2)) by lra. destruct (Rleb_spec 0 fc) as [_|N]; [|lra]. cbn [ocheck obind].
  assert (EW : bilinear_prewarp fc fs = 2 * fs * t) by reflexivity. set (w := bilinear_prewarp fc fs) in *. assert (W : 0 < w) by (rewrite EW; apply Rmult_lt_0_compat; lra). assert (ET : w / (2 * fs) = t) by (rewrite EW; field; lra).
  rewrite map_frequency_is. set (m := set_gain _ _).
  assert (MP : poles m = map (fun s => Cmult (RtoC w) s) (poles (butterworth n))) by (unfold m; rewrite set_gain_poles; apply mapped_poles; [apply scale_real|apply scale_conj]).
  assert (MG : pz_gain m = w ^ n) by (unfold m; cbn [set_gain pz_gain mapped butterworth]; rewrite relative_degree_is, LP, LZ; cbn [length]; rewrite Z.sub_0_r, <- pow_powerRZ; ring).
  assert (CL : forall x, In x (paired_poles (butterworth n)) -> / 100000 < Cmod (bilinear_root (2 * fs) (Cmult (RtoC w) x))).
  { intros x Hx. assert (X : Cminus (RtoC 1) (Cmult (RtoC t) x) <> RtoC 0).
    { apply left_half; [exact T|]. left. apply P1. unfold poles. apply in_roots. auto. }
    rewrite mobius_ratio; rewrite ?ET; [|lra|exact X]. apply away_ratio; [exact X|]. apply TM, in_app_iff. now right. }
  destruct (realised_stages m fs w n (-1) 0 Hfs W) as (g & [G G'] & E); try assumption; try reflexivity.
  - rewrite MG. now apply pow_lt.
  - left. split; reflexivity.
  - now rewrite MP, map_length.
  - unfold m, mapped. cbn [set_gain lone_poles]. now rewrite map_length.
  - rewrite MP. intros p Hp. apply in_map_iff in Hp. destruct Hp as (r & <- & Hr). split; [specialize (P1 r Hr); cbn; nra|]. rewrite Cmod_mult, Cmod_R, (PU r Hr), Rabs_pos_eq; lra.
  - unfold m, mapped. cbn [set_gain paired_poles]. intros p Hp. apply in_map_iff in Hp. destruct Hp as (r & <- & Hr). now apply CL.
  - rewrite E. exists g. do 2 eexists. split; [reflexivity|]. split; [split|split; [|split; [|split; [|split]]]].
    + eapply Rle_trans; [|exact G]. right. rewrite MG, EW. cbn [pow]. replace (2 * fs + 2 * fs * t) with (2 * fs * (1 + t)) by ring. rewrite !Rpow_mult_distr. field. repeat split; apply pow_nonzero; lra.
    + eapply Rle_trans; [exact G'|]. right. rewrite MG, EW. cbn [pow]. rewrite !Rpow_mult_distr. field. repeat split; apply pow_nonzero; lra.
    + unfold m, mapped. cbn [set_gain paired_poles]. now rewrite !map_length.
    + unfold m, mapped. cbn [set_gain lone_poles]. now rewrite !map_length.
    + intros p Hp. apply in_map_iff in Hp. destruct Hp as (r & <- & Hr). unfold m, mapped in Hr. cbn [set_gain paired_poles] in Hr. apply in_map_iff in Hr. destruct Hr as (x & <- & Hx). now apply CL.
    + intros q Hq. unfold m, mapped in Hq. cbn [set_gain lone_poles] in Hq. rewrite map_map in Hq. apply in_map_iff in Hq. destruct Hq as (x & <- & Hx). destruct (S2 x Hx) as [-> OD].
      apply (in_lone_root (2 * fs) w); try lra; [|rewrite ET; now apply HC]. cbn [Cmult RtoC fst snd]. replace (w * -1 - 0 * 0) with (- w) by ring. reflexivity.
    + intros q Hq. unfold m, mapped in Hq. cbn [set_gain lone_poles] in Hq. rewrite map_map in Hq. apply in_map_iff in Hq. destruct Hq as (x & <- & Hx). destruct (S2 x Hx) as [-> OD].
      cbn [Cmult RtoC fst snd]. rewrite EW. field. repeat split; nra.
Qed.
Lemma double_lowpass : lowpass_gain n (tan (PI * fc / fs)) -> exists D, lowpass_filter (butterworth_prototype (Z.of_nat n)) fs fc = Ok D /\ length D = (n - Nat.div2 n)%nat /\ exists cs, copies (seq 0 (length D)) D = Ok cs /\ same_response (D ++ D) cs /\ cs <> [] /\ Forall well_scaled D /\ Forall well_scaled cs.
Proof.
  intros HG. pose proof (tan_pos fc fs H1 H2) as T. destruct lowpass_stages as (g & pp & lp & E & [G _] & S1 & S2 & S3 & S4 & _). eexists. split; [exact E|]. apply doubled_of; auto.
  apply (gains_large n (tan (PI * fc / fs)) (1 + tan (PI * fc / fs))); auto; lra.
Qed.
Lemma highpass_stages : exists g pp lp, highpass_filter (butterworth_prototype (Z.of_nat n)) fs fc = Ok (adjust_gain g (map (pair_stage 1) pp ++ map (lone_stage 1) lp)) /\
  1 ^ n / (1 + tan (PI * fc / fs)) ^ n <= g /\
  length pp = length (paired_poles (butterworth n)) /\ length lp = length (lone_poles (butterworth n)) /\
  (forall p, In p pp -> / 100000 < Cmod p) /\ (forall q, In q lp -> q = 0 \/ / 100000 < Rabs q) /\
  (forall q, In q lp -> q = (1 - tan (PI * fc / fs)) / (1 + tan (PI * fc / fs))).
Proof.
  destruct butterworth_shape as (S1 & S2 & S3 & S4 & S5). destruct (butterworth_lowpass_prototype n H) as ((P1 & P2 & P3 & P4 & P5) & LP & LZ). pose proof (butterworth_poles_unit n) as PU.
  rewrite butterworth_is by exact H. assert (Hfs : 0 < fs) by lra. pose proof (tan_pos fc fs H1 H2) as T. set (t := tan (PI * fc / fs)) in *. destruct (butterworth_tame_paired n (/ t) H HN (Rinv_0_lt_compat _ T)) as (_ & _ & TM).
  unfold highpass_filter. rewrite (Rltb_true 0 fs), (Rltb_true fc (fs / 2)) by lra. destruct (Rleb_spec 0 fc) as [_|N]; [|lra]. cbn [ocheck obind].
  assert (EW : bilinear_prewarp fc fs = 2 * fs * t) by reflexivity. set (w := bilinear_prewarp fc fs) in *. assert (W : 0 < w) by (rewrite EW; apply Rmult_lt_0_compat; lra). assert (ET : w / (2 * fs) = t) by (rewrite EW; field; lra).
  assert (HP0 : forall r, In r (poles (butterworth n)) -> r <> RtoC 0) by (intros r Hr X; specialize (P1 r Hr); rewrite X in P1; cbn in P1; lra).
  rewrite avoids_true by (rewrite LZ; exact HP0). cbn [oguard]. destruct (butterworth_dc n H) as (h0 & V0 & M0). destruct (eval_mod _ _ _ V0) as (h1 & -> & EH). cbn [obind]. rewrite EH, M0.
  rewrite map_frequency_is. set (mm := mapped _ _).
  assert (MP0 : poles mm = map (fun s => Cdiv (RtoC w) s) (poles (butterworth n))) by (apply mapped_poles; [apply inv_real|apply inv_conj]).
  rewrite add_zeros. replace (Z.to_nat (relative_degree mm)) with n by (rewrite relative_degree_is, MP0, map_length, LP; unfold mm, mapped, zeros, roots; cbn [butterworth lone_zeros paired_zeros map app length]; lia). set (m := set_gain 1 _).
  assert (MP : poles m = map (fun s => Cdiv (RtoC w) s) (poles (butterworth n))) by exact MP0.
  assert (CL : forall x, In x (paired_poles (butterworth n)) -> / 100000 < Cmod (bilinear_root (2 * fs) (Cdiv (RtoC w) x))).
  { intros x Hx. assert (IP : In x (poles (butterworth n))) by (unfold poles; apply in_roots; auto). pose proof (P1 x IP) as X1.
    rewrite mobius_inverse; try lra; [|now apply HP0]. rewrite ET, Cmod_neg. apply away_ratio; [apply left_half; [now apply Rinv_0_lt_compat|lra]|]. apply TM, in_app_iff. now right. }
  destruct (realised_stages m fs w n 1 n Hfs W) as (g & [G _] & E); try assumption; try reflexivity.
  - right. split; reflexivity.
  - now rewrite MP, map_length.
  - unfold m, mm, mapped. cbn [set_gain lone_poles]. now rewrite map_length.
  - rewrite MP. intros p Hp. apply in_map_iff in Hp. destruct Hp as (r & <- & Hr). split; [|rewrite Cmod_div, Cmod_R, (PU r Hr), Rabs_pos_eq; [lra|lra|now apply HP0]].
    rewrite inv_re by now apply HP0. rewrite (PU r Hr). specialize (P1 r Hr). replace (w * fst r / (1 * 1)) with (w * fst r) by field. nra.
  - unfold m, mm, mapped. cbn [set_gain paired_poles]. intros p Hp. apply in_map_iff in Hp. destruct Hp as (r & <- & Hr). now apply CL.
  - rewrite E. exists g. do 2 eexists. split; [reflexivity|]. split; [|split; [|split; [|split; [|split]]]].
    + eapply Rle_trans; [|exact G]. right. rewrite pow1, EW. change (pz_gain m) with 1. replace (2 * fs + 2 * fs * t) with (2 * fs * (1 + t)) by ring. rewrite !Rpow_mult_distr. field. repeat split; apply pow_nonzero; lra.
    + unfold m, mm, mapped. cbn [set_gain paired_poles]. now rewrite !map_length.
    + unfold m, mm, mapped. cbn [set_gain lone_poles]. now rewrite !map_length.
    + intros p Hp. apply in_map_iff in Hp. destruct Hp as (r & <- & Hr). unfold m, mm, mapped in Hr. cbn [set_gain paired_poles] in Hr. apply in_map_iff in Hr. destruct Hr as (x & <- & Hx). now apply CL.
    + intros q Hq. unfold m, mm, mapped in Hq. cbn [set_gain lone_poles] in Hq. rewrite map_map in Hq. apply in_map_iff in Hq. destruct Hq as (x & <- & Hx). destruct (S2 x Hx) as [-> OD].
      apply (in_lone_root (2 * fs) w); try lra; [|rewrite ET; now apply HC]. replace (fst (Cdiv (RtoC w) (RtoC (-1)))) with (- w) by (cbn; field). reflexivity.
    + intros q Hq. unfold m, mm, mapped in Hq. cbn [set_gain lone_poles] in Hq. rewrite map_map in Hq. apply in_map_iff in Hq. destruct Hq as (x & <- & Hx). destruct (S2 x Hx) as [-> OD].
      replace (fst (Cdiv (RtoC w) (RtoC (-1)))) with (- w) by (cbn; field). rewrite EW. field. repeat split; nra.
Qed.
Lemma double_highpass : highpass_gain n (tan (PI * fc / fs)) -> exists D, highpass_filter (butterworth_prototype (Z.of_nat n)) fs fc = Ok D /\ length D = (n - Nat.div2 n)%nat /\ exists cs, copies (seq 0 (length D)) D = Ok cs /\ same_response (D ++ D) cs /\ cs <> [] /\ Forall well_scaled D /\ Forall well_scaled cs.
Proof.
  intros HG. pose proof (tan_pos fc fs H1 H2) as T. destruct highpass_stages as (g & pp & lp & E & G & S1 & S2 & S3 & S4 & _). eexists. split; [exact E|]. apply doubled_of; auto.
  apply (gains_large n 1 (1 + tan (PI * fc / fs))); auto; try lra. rewrite pow1. exact HG.
Qed.
End Stages.
