From Verif Require Import Common ListLemmas RealUtil BiquadModel DesignModel DesignSpec DesignProofs DesignProofs2 DesignProofs3 CascadeModel CascadeSpec CascadeProofs CascadeProofs2 PoleZeroModel PoleZeroSpec PoleZeroProofs PoleZeroProofs2 PoleZeroProofs3 PoleZeroProofs4 PoleZeroProofs5 PolyRoots PoleZeroProofs6 PoleZeroProofs7 PoleZeroProofs8 PoleZeroProofs11 PoleZeroProofs13 PoleZeroProofs15 PoleZeroProofs17 PoleZeroProofs18 PoleZeroProofs23 PoleZeroProofs24.
From Coquelicot Require Import Complex.
Local Open Scope R_scope.

Lemma chebyshev1_bandstop_shape n db fs low high cs : (1 <= n)%nat -> 0 < db -> 0 < low -> low < high -> high < fs / 2 ->
  (forall g, - (fs / 2) < g < fs / 2 -> tan (PI * g / fs) * tan (PI * g / fs) <> tan (PI * low / fs) * tan (PI * high / fs) -> exists h, cascade_value cs (on_circle g fs) h /\ Cmod h = mag1 n db (bandstop_w (tan (PI * low / fs)) (tan (PI * high / fs)) (tan (PI * g / fs)))) ->
  (forall g, - (fs / 2) < g < fs / 2 -> tan (PI * g / fs) * tan (PI * g / fs) = tan (PI * low / fs) * tan (PI * high / fs) -> cascade_value cs (on_circle g fs) (RtoC 0)) ->
  forall g h, 0 < g < fs / 2 -> cascade_value cs (on_circle g fs) h ->
    (g = low \/ g = high -> Cmod h = Rpower 10 (- db / 20)) /\ (low < g < high -> Cmod h < Rpower 10 (- db / 20)) /\ (g < low \/ high < g -> Rpower 10 (- db / 20) <= Cmod h <= 1).
Proof.
  intros HN HD H1 H2 H3 V Z g h G A. assert (M := magnitude_of fs cs (mag1 n db) (fun g => tan (PI * g / fs) * tan (PI * g / fs) <> tan (PI * low / fs) * tan (PI * high / fs)) (fun t => bandstop_w (tan (PI * low / fs)) (tan (PI * high / fs)) t) V). cbv beta in M.
  split; [|split].
  - intros X. pose proof (stop_at_neq fs low high g H1 H2 H3 G X) as Y. rewrite (M g h) by (assumption || lra). apply mag1_edge. now apply stop_at.
  - intros X. destruct (Req_dec (tan (PI * g / fs) * tan (PI * g / fs)) (tan (PI * low / fs) * tan (PI * high / fs))) as [Y|Y].
    + rewrite (value_unique _ _ _ _ A (Z g ltac:(lra) Y)). rewrite Cmod_0. unfold Rpower. apply exp_pos.
    + rewrite (M g h) by (assumption || lra). apply mag1_out; try assumption. now apply stop_in.
  - intros X. destruct (stop_out fs low high g H1 H2 H3 G X) as [Y W]. rewrite (M g h) by (assumption || lra). apply mag1_in; [exact HD|]. apply Rabs_def2 in W. lra.
Qed.
Lemma chebyshev2_bandpass_shape n db fs low high cs : (1 <= n)%nat -> 0 < db -> 0 < low -> low < high -> high < fs / 2 ->
  (forall g, - (fs / 2) < g < fs / 2 -> g <> 0 -> tan (PI * g / fs) * tan (PI * g / fs) = tan (PI * low / fs) * tan (PI * high / fs) -> cascade_value cs (on_circle g fs) (RtoC 1)) ->
  (forall g, - (fs / 2) < g < fs / 2 -> g <> 0 -> tan (PI * g / fs) * tan (PI * g / fs) <> tan (PI * low / fs) * tan (PI * high / fs) -> exists h, cascade_value cs (on_circle g fs) h /\ Cmod h = mag2 n db (/ bandpass_w (tan (PI * low / fs)) (tan (PI * high / fs)) (tan (PI * g / fs)))) ->
  forall g h, 0 < g < fs / 2 -> cascade_value cs (on_circle g fs) h ->
    (g = low \/ g = high -> Cmod h = Rpower 10 (- db / 20)) /\ (low < g < high -> Rpower 10 (- db / 20) < Cmod h <= 1) /\ (g < low \/ high < g -> Cmod h <= Rpower 10 (- db / 20)).
Proof.
  intros HN HD H1 H2 H3 Z V g h G A.
  assert (M := magnitude_of fs cs (mag2 n db) (fun g => g <> 0 /\ tan (PI * g / fs) * tan (PI * g / fs) <> tan (PI * low / fs) * tan (PI * high / fs)) (fun t => / bandpass_w (tan (PI * low / fs)) (tan (PI * high / fs)) t) (fun g G P => V g G (proj1 P) (proj2 P))). cbv beta in M.
  assert (G0 : g <> 0) by lra. split; [|split].
  - intros X. pose proof (stop_at_neq fs low high g H1 H2 H3 G X) as Y. rewrite (M g h) by (auto || lra). apply mag2_edge; [exact HD|]. rewrite Rabs_inv, (edge_at fs low high g H1 H2 H3 G X). apply Rinv_1.
  - intros X. destruct (Req_dec (tan (PI * g / fs) * tan (PI * g / fs)) (tan (PI * low / fs) * tan (PI * high / fs))) as [Y|Y].
    + rewrite (value_unique _ _ _ _ A (Z g ltac:(lra) G0 Y)). rewrite Cmod_1. pose proof (db_pos db HD) as D. split; [|lra]. rewrite <- (Rpower_O 10) by lra. apply Rpower_lt; lra.
    + rewrite (M g h) by (auto || lra). assert (L : Rpower 10 (- db / 20) < mag2 n db (/ bandpass_w (tan (PI * low / fs)) (tan (PI * high / fs)) (tan (PI * g / fs))) < 1); [|lra]. apply mag2_in; try assumption. pose proof (w_neq fs low high g H1 H2 H3 G Y) as N. pose proof (edge_in fs low high g H1 H2 H3 G X) as W. rewrite Rabs_inv.
      rewrite <- Rinv_1. apply Rinv_lt_contravar; [|exact W]. rewrite Rmult_1_r. now apply Rabs_pos_lt.
  - intros X. destruct (stop_out fs low high g H1 H2 H3 G X) as [Y _]. rewrite (M g h) by (auto || lra). apply mag2_out; [exact HD|]. pose proof (edge_out fs low high g H1 H2 H3 G X) as W.
    assert (I : Rabs (/ bandpass_w (tan (PI * low / fs)) (tan (PI * high / fs)) (tan (PI * g / fs))) < 1) by (rewrite Rabs_inv, <- Rinv_1; apply Rinv_lt_contravar; [rewrite Rmult_1_l; apply Rlt_trans with 1; lra|exact W]). apply Rabs_def2 in I. lra.
Qed.
Lemma chebyshev2_bandstop_shape n db fs low high cs : (1 <= n)%nat -> 0 < db -> 0 < low -> low < high -> high < fs / 2 ->
  (forall g, - (fs / 2) < g < fs / 2 -> g <> 0 -> tan (PI * g / fs) * tan (PI * g / fs) <> tan (PI * low / fs) * tan (PI * high / fs) -> exists h, cascade_value cs (on_circle g fs) h /\ Cmod h = mag2 n db (bandpass_w (tan (PI * low / fs)) (tan (PI * high / fs)) (tan (PI * g / fs)))) ->
  forall g h, 0 < g < fs / 2 -> tan (PI * g / fs) * tan (PI * g / fs) <> tan (PI * low / fs) * tan (PI * high / fs) -> cascade_value cs (on_circle g fs) h ->
    (g = low \/ g = high -> Cmod h = Rpower 10 (- db / 20)) /\ (low < g < high -> Cmod h <= Rpower 10 (- db / 20)) /\ (g < low \/ high < g -> Rpower 10 (- db / 20) < Cmod h < 1).
Proof.
  intros HN HD H1 H2 H3 V g h G Y A.
  assert (M := magnitude_of fs cs (mag2 n db) (fun g => g <> 0 /\ tan (PI * g / fs) * tan (PI * g / fs) <> tan (PI * low / fs) * tan (PI * high / fs)) (fun t => bandpass_w (tan (PI * low / fs)) (tan (PI * high / fs)) t) (fun g G P => V g G (proj1 P) (proj2 P))). cbv beta in M.
  assert (G0 : g <> 0) by lra. rewrite (M g h) by (auto || lra). split; [|split].
  - intros X. apply mag2_edge; [exact HD|]. now apply edge_at.
  - intros X. apply mag2_out; [exact HD|]. pose proof (edge_in fs low high g H1 H2 H3 G X) as W. apply Rabs_def2 in W. lra.
  - intros X. apply mag2_in; try assumption. now apply edge_out.
Qed.

(* ---------- crossovers ---------- *)
Lemma linkwitz_riley_flat n fs fc : (1 <= n)%nat -> (Z.of_nat n <= 50000)%Z -> 0 < fc -> fc < fs / 2 -> lowpass_gain n (tan (PI * fc / fs)) -> highpass_gain n (tan (PI * fc / fs)) -> lone_clear n (tan (PI * fc / fs)) ->
  exists lo hi, crossover Linkwitz_Riley_crossover (2 * Z.of_nat n) fc fs = Ok (lo, hi) /\ stable_cascade lo /\ stable_cascade hi /\
    forall g, - (fs / 2) <= g <= fs / 2 -> exists hl hh, cascade_value lo (on_circle g fs) hl /\ cascade_value hi (on_circle g fs) hh /\
      Cmod (Cplus hl hh) = 1 /\
      (- (fs / 2) < g < fs / 2 -> exists r, 0 <= r /\ hh = Cmult (RtoC r) hl) /\
      (g = fc -> hl = hh /\ Cmod hl = / 2).
Proof.
  intros H HN H1 H2 A B C. destruct (linkwitz_riley_ok n fs fc H HN H1 H2 A B C) as (lo & hi & E & SL & SH & V & NL & h & NH & MH). exists lo, hi. split; [exact E|]. split; [exact SL|]. split; [exact SH|].
  intros g G. destruct (on_circle_nyquist fs ltac:(lra)) as [Y1 Y2].
  assert (NY : on_circle g fs = RtoC (-1) -> g <> fc -> ~ (- (fs / 2) < g < fs / 2) -> exists hl hh, cascade_value lo (on_circle g fs) hl /\ cascade_value hi (on_circle g fs) hh /\ Cmod (Cplus hl hh) = 1 /\ (- (fs / 2) < g < fs / 2 -> exists r, 0 <= r /\ hh = Cmult (RtoC r) hl) /\ (g = fc -> hl = hh /\ Cmod hl = / 2)).
  { intros -> N1 N2. exists (RtoC 0), h. split; [exact NL|]. split; [exact NH|]. split; [rewrite Cplus_0_l; exact MH|]. split; intros X; contradiction. }
  destruct (Req_dec g (fs / 2)) as [-> |G1]; [apply NY; [exact Y1|lra|lra]|]. destruct (Req_dec g (- (fs / 2))) as [-> |G2]; [apply NY; [exact Y2|lra|lra]|]. clear NY.
  destruct (V g ltac:(lra)) as (hl & VL & VH & M). cbv zeta in *. set (W := tan (PI * g / fs) / tan (PI * fc / fs)) in *. exists hl. eexists. split; [exact VL|]. split; [exact VH|]. pose proof (even_pow_le W n) as WP. split; [|split].
  - replace (Cplus hl (Cmult (RtoC (W ^ (2 * n))) hl)) with (Cmult (RtoC (1 + W ^ (2 * n))) hl) by (rewrite RtoC_plus; ring). rewrite Cmod_mult, Cmod_R, Rabs_pos_eq by lra. lra.
  - intros _. exists (W ^ (2 * n)). split; [exact WP|reflexivity].
  - intros ->. assert (W1 : W = 1) by (apply low_ratio_1; assumption). rewrite W1, pow1 in M |- *. split; [ring|lra].
Qed.
Lemma i_pow_4 k r : cpow (0, 1) (4 * k + r) = cpow (0, 1) r.
Proof.
  rewrite cpow_add. assert (E : cpow (0, 1) (4 * k) = RtoC 1).
  { induction k as [|k IH]; [reflexivity|]. replace (4 * S k)%nat with (4 + 4 * k)%nat by lia. rewrite cpow_add, IH. apply injective_projections; cbn; ring. }
  rewrite E. ring.
Qed.
Lemma butterworth_sum_even n : Nat.even n = true -> Cmult (RtoC (if (n mod 4 =? 2)%nat then -1 else 1)) (cpow (0, 1) n) = RtoC 1.
Proof.
  intros H. pose proof (Nat.div_mod n 4 ltac:(lia)) as DM. pose proof (Nat.mod_upper_bound n 4 ltac:(lia)) as MB. set (q := (n / 4)%nat) in *. set (r := (n mod 4)%nat) in *. clearbody q r. subst n. rewrite i_pow_4.
  assert (O : Nat.even r = true) by (rewrite Nat.even_add, Nat.even_mul in H; cbn in H; destruct (Nat.even r); [reflexivity|discriminate]).
  destruct r as [|[|[|[|r]]]]; try discriminate; try (exfalso; lia); apply injective_projections; cbn; ring.
Qed.
Lemma odd_cpow W n : Nat.odd n = true -> exists s, cpow (0, W) n = (0, s) /\ s * s = W ^ (2 * n).
Proof.
  intros H. apply Nat.odd_spec in H. destruct H as [k ->]. rewrite cpow_add, cpow_i. exists ((-1) ^ k * W ^ (2 * k) * W). split; [apply injective_projections; cbn; ring|].
  replace (2 * (2 * k + 1))%nat with (2 * k + 2 * k + 2)%nat by lia. rewrite !pow_add. assert ((-1) ^ k * (-1) ^ k = 1) by (rewrite <- Rpow_mult_distr; replace (-1 * -1) with 1 by ring; apply pow1).
  replace ((-1) ^ k * W ^ (2 * k) * W * ((-1) ^ k * W ^ (2 * k) * W)) with ((-1) ^ k * (-1) ^ k * (W ^ (2 * k) * W ^ (2 * k) * W ^ 2)) by ring. rewrite H. ring.
Qed.
Lemma butterworth_crossover_power n fs fc : (1 <= n)%nat -> (Z.of_nat n <= 50000)%Z -> 0 < fc -> fc < fs / 2 ->
  exists lo hi, crossover Butterworth_crossover (Z.of_nat n) fc fs = Ok (lo, hi) /\ stable_cascade lo /\ stable_cascade hi /\
    forall g, - (fs / 2) <= g <= fs / 2 -> exists hl hh, cascade_value lo (on_circle g fs) hl /\ cascade_value hi (on_circle g fs) hh /\
      (Cmod hl) ^ 2 + (Cmod hh) ^ 2 = 1 /\
      (Nat.even n = true -> g = fc -> hl = hh /\ Cmod (Cplus hl hh) = sqrt 2) /\
      (Nat.odd n = true -> Cmod (Cplus hl hh) = 1).
Proof.
  intros H HN H1 H2. destruct (butterworth_crossover_ok n fs fc H HN H1 H2) as (lo & hi & E & SL & SH & V & NL & h & NH & MH). exists lo, hi. split; [exact E|]. split; [exact SL|]. split; [exact SH|].
  intros g G. destruct (on_circle_nyquist fs ltac:(lra)) as [Y1 Y2].
  assert (NY : on_circle g fs = RtoC (-1) -> g <> fc -> exists hl hh, cascade_value lo (on_circle g fs) hl /\ cascade_value hi (on_circle g fs) hh /\ (Cmod hl) ^ 2 + (Cmod hh) ^ 2 = 1 /\ (Nat.even n = true -> g = fc -> hl = hh /\ Cmod (Cplus hl hh) = sqrt 2) /\ (Nat.odd n = true -> Cmod (Cplus hl hh) = 1)).
  { intros -> N1. exists (RtoC 0), h. split; [exact NL|]. split; [exact NH|]. split; [rewrite Cmod_0, MH; ring|]. split; [intros _ X; contradiction|]. intros _. rewrite Cplus_0_l; exact MH. }
  destruct (Req_dec g (fs / 2)) as [-> |G1]; [apply NY; [exact Y1|lra]|]. destruct (Req_dec g (- (fs / 2))) as [-> |G2]; [apply NY; [exact Y2|lra]|]. clear NY.
  destruct (V g ltac:(lra)) as (hl & VL & VH & M). cbv zeta in *. set (W := tan (PI * g / fs) / tan (PI * fc / fs)) in *. set (s := if (n mod 4 =? 2)%nat then -1 else 1) in *. assert (S2 : s * s = 1) by (unfold s; destruct (n mod 4 =? 2)%nat; ring).
  exists hl. eexists. split; [exact VL|]. split; [exact VH|]. pose proof (even_pow_le W n) as WP.
  assert (MW : Cmod (cpow (0, W) n) * Cmod (cpow (0, W) n) = W ^ (2 * n)).
  { rewrite <- Cmod_mult, <- cpow_add. replace (n + n)%nat with (2 * n)%nat by lia. rewrite cpow_i, Cmod_R, Rabs_mult, <- RPow_abs, Rabs_left, (Rabs_pos_eq (W ^ _)) by lra. replace (- (-1)) with 1 by ring. rewrite pow1. ring. }
  split; [|split].
  - rewrite !Cmod_mult, Cmod_R. assert (S1 : Rabs s * Rabs s = 1) by (rewrite <- Rabs_mult, S2; apply Rabs_R1). replace (Cmod hl ^ 2 + (Rabs s * Cmod (cpow (0, W) n) * Cmod hl) ^ 2) with (Cmod hl * Cmod hl * (1 + (Rabs s * Rabs s) * (Cmod (cpow (0, W) n) * Cmod (cpow (0, W) n)))) by ring. rewrite S1, MW. rewrite Rmult_1_l. exact M.
  - intros EV ->. assert (W1 : W = 1) by (apply low_ratio_1; assumption). rewrite W1 in M |- *. unfold s. rewrite butterworth_sum_even by exact EV. split; [ring|].
    replace (Cplus hl (Cmult (RtoC 1) hl)) with (Cmult (RtoC 2) hl) by (apply injective_projections; cbn; ring). rewrite Cmod_mult, Cmod_R, Rabs_pos_eq by lra. rewrite pow1 in M. apply Rsqr_inj; [pose proof (Cmod_ge_0 hl); lra|apply sqrt_pos|]. unfold Rsqr. rewrite sqrt_sqrt by lra. nra.
  - intros OD. destruct (odd_cpow W n OD) as (q & EQ & Q2). rewrite EQ in *. replace (Cplus hl (Cmult (Cmult (RtoC s) (0, q)) hl)) with (Cmult (1, s * q) hl) by (apply injective_projections; cbn; ring). rewrite Cmod_mult. apply Rsqr_inj; [apply Rmult_le_pos; apply Cmod_ge_0|lra|].
    unfold Rsqr. replace (Cmod (1, s * q) * Cmod hl * (Cmod (1, s * q) * Cmod hl)) with (Cmod hl * Cmod hl * (Cmod (1, s * q) * Cmod (1, s * q))) by ring. rewrite (Cmod2 (1, s * q)). cbn [fst snd]. replace (1 * 1 + s * q * (s * q)) with (1 + (s * s) * (q * q)) by ring. rewrite S2, Q2, Rmult_1_l, M. ring.
Qed.
