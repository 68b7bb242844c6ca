(* The loudness meter in the long run. *)
From Verif Require Import Common ListLemmas Mealy RealUtil NthLemmas BiquadModel BiquadSpec BiquadProofs DesignModel DesignSpec CascadeSpec SteadySpec SteadyProofs LoudnessModel LoudnessSpec LoudnessProofs.
From Coq Require Import Lra Lia Reals.
From Coquelicot Require Import Coquelicot.
Local Open Scope R_scope.
Notation rps := (pure_sample Rplus Rminus Rmult).
Notation rstep := (mstep 0 Rplus Rminus Rmult rsum loudness_db).
Notation rminit := (meter_init 0 1 Rmult Rdiv (fun v => Reqb v 0)).
Notation rmblock := (meter_block 0 Rplus Rminus Rmult rsum loudness_db).

Lemma meter_streams m ws av nz ks m' n (x : nat -> list R) : rminit m ws av nz ks = Ok (m', true) -> nz = Z.of_nat n ->
  (forall k, length (x k) = n) ->
  exists (y : nat -> list R) (p : nat -> R),
    (forall k, length (y k) = n) /\
    (forall i, (i < n)%nat -> cascade_solves ks (channel_of i x) (channel_of i y)) /\
    solves av (fun k => weighted_power ws (y k)) p /\
    (forall blocks k, concat blocks = first_frames x k -> exists m'' outs, run (rmblock n) m' blocks = Ok (m'', outs) /\
       concat outs = map (fun j => loudness_db (p j)) (seq 0 k)).
Proof.
  intros HI Hn HL. destruct (minit_inv 0 1 Rmult Rdiv (fun v => Reqb v 0) _ _ _ _ _ _ HI) as (n' & E & Hl & H1 & H2 & Hw & HK & HA & G).
  assert (Q : n' = n) by lia. rewrite Q in HK, Hl, H1, G. clear Q E.
  set (y := output_at (chain rps) (k_filter m') x).
  set (w := fun k => weighted_power ws (y k) :: nil).
  set (p := fun k => nth 0 (output_at rps (averager m') w k) 0).
  assert (Ly : forall k, length (y k) = n).
  { intros k. subst y. clear -HK HL. revert x HL. induction HK as [|c f ks fs HI HR IH]; intros x HL.
    - rewrite chain_nil_output. apply HL.
    - rewrite chain_outputs. apply IH. exact (stage_length n c f x HI HL). }
  exists y, p. split; [exact Ly|]. split; [intros i Hi; exact (chain_solves n ks _ x HK HL i Hi)|]. split.
  - exact (stage_solves 1 av (averager m') w HA (fun k => eq_refl) 0 ltac:(lia)).
  - intros blocks k E.
    assert (HF : List.Forall (List.Forall (fun fr => length fr = n)) blocks).
    { apply Forall_forall. intros b Hb. apply Forall_forall. intros fr Hfr. assert (K : In fr (concat blocks)) by (apply in_concat; eauto).
      rewrite E in K. apply in_map_iff in K as (j & <- & _). apply HL. }
    destruct (mblocks_ok 0 1 Rplus Rminus Rmult Rdiv (fun v => Reqb v 0) rsum loudness_db n m' blocks G HF) as (outs & R1 & R2 & _).
    eexists _, outs. split; [exact R1|]. rewrite R2, E, mscan. cbn [snd]. unfold first_frames. rewrite chain_stream. cbn [snd].
    rewrite map_map. fold y. rewrite Hw.
    assert (M : map (fun j => column_power Rmult rsum ws (y j) :: nil) (seq 0 k) = map w (seq 0 k)) by (apply map_ext; intros j; unfold w; now rewrite column_power_spec).
    rewrite M, scan_stream. cbn [snd]. rewrite map_map. apply map_ext. intros j. unfold p. destruct (output_at rps (averager m') w j); reflexivity.
Qed.

(* squares of sinusoids *)
Lemma Cmod_powC z k : Cmod z = 1 -> Cmod (powC z k) = 1.
Proof. intros H. induction k as [|k IH]; cbn [powC]; [apply Cmod_1|]. rewrite Cmod_mult, H, IH. ring. Qed.
Lemma powC_mult a b k : powC (Cmult a b) k = Cmult (powC a k) (powC b k).
Proof. induction k as [|k IH]; cbn [powC]; [ring|]. rewrite IH. ring. Qed.
Lemma Re_square (u : C) : Re u * Re u = (Cmod u * Cmod u + Re (Cmult u u)) / 2.
Proof.
  assert (E : Cmod u * Cmod u = fst u * fst u + snd u * snd u).
  { unfold Cmod. rewrite sqrt_sqrt; [ring|]. nra. }
  rewrite E. unfold Re. cbn. field.
Qed.
Lemma sinusoid_square B z k : Cmod z = 1 ->
  sinusoid B z k * sinusoid B z k = Cmod B * Cmod B / 2 + sinusoid (Cmult (RtoC (1 / 2)) (Cmult B B)) (Cmult z z) k.
Proof.
  intros Hz. unfold sinusoid. rewrite Re_square, Cmod_mult, (Cmod_powC z k Hz), powC_mult.
  replace (Cmult (Cmult (RtoC (1 / 2)) (Cmult B B)) (Cmult (powC z k) (powC z k))) with (Cmult (RtoC (1 / 2)) (Cmult (Cmult B (powC z k)) (Cmult B (powC z k)))) by ring.
  set (u := Cmult (Cmult B (powC z k)) (Cmult B (powC z k))). unfold Re. cbn. field.
Qed.
Lemma sinusoid_bounded B z k : Cmod z = 1 -> Rabs (sinusoid B z k) <= Cmod B.
Proof. intros Hz. unfold sinusoid, Re. eapply Rle_trans; [apply Rmax_l|]. eapply Rle_trans; [apply Rmax_Cmod|]. rewrite Cmod_mult, Cmod_powC by exact Hz. lra. Qed.
Lemma settles_square u v B : (forall k, Rabs (v k) <= B) -> settles u v -> settles (fun k => u k * u k) (fun k => v k * v k).
Proof.
  intros HB H. unfold settles in *.
  apply is_lim_seq_ext with (fun k => (u k - v k) * (u k - v k) + 2 * (v k * (u k - v k))); [intros; ring|].
  replace (Finite 0) with (Finite (0 * 0 + 2 * 0)) by (f_equal; ring).
  apply is_lim_seq_plus'; [apply is_lim_seq_mult'; exact H|]. apply (is_lim_seq_scal_l _ 2 0).
  apply is_lim_seq_abs_0. apply is_lim_seq_le_le with (fun _ => 0) (fun k => B * Rabs (u k - v k)).
  - intros k. split; [apply Rabs_pos|]. rewrite Rabs_mult. apply Rmult_le_compat_r; [apply Rabs_pos|apply HB].
  - apply is_lim_seq_const.
  - replace (Finite 0) with (Rbar_mult B 0) by (cbn; f_equal; ring). apply is_lim_seq_scal_l. apply is_lim_seq_abs in H. cbn in H. rewrite Rabs_R0 in H. exact H.
Qed.
Lemma settles_plus u v u' v' : settles u v -> settles u' v' -> settles (fun k => u k + u' k) (fun k => v k + v' k).
Proof.
  unfold settles. intros H H'. apply is_lim_seq_ext with (fun k => (u k - v k) + (u' k - v' k)); [intros; ring|].
  replace (Finite 0) with (Finite (0 + 0)) by (f_equal; ring). apply is_lim_seq_plus'; assumption.
Qed.
Lemma settles_scal c u v : settles u v -> settles (fun k => c * u k) (fun k => c * v k).
Proof.
  unfold settles. intros H. apply is_lim_seq_ext with (fun k => c * (u k - v k)); [intros; ring|].
  replace (Finite 0) with (Rbar_mult c 0) by (cbn; f_equal; ring). apply is_lim_seq_scal_l, H.
Qed.
Lemma settles_ext u v u' v' : (forall k, u k = u' k) -> (forall k, v k = v' k) -> settles u v -> settles u' v'.
Proof. unfold settles. intros E E' H. eapply is_lim_seq_ext; [|exact H]. intros k. cbv beta. now rewrite E, E'. Qed.
Lemma settles_refl u : settles u u.
Proof. unfold settles. apply is_lim_seq_ext with (fun _ => 0); [intros; ring|apply is_lim_seq_const]. Qed.

Lemma sinusoid_plus A B z k : sinusoid (Cplus A B) z k = sinusoid A z k + sinusoid B z k.
Proof. unfold sinusoid, Re. rewrite Cmult_plus_distr_r. reflexivity. Qed.
Lemma sinusoid_scal c A z k : sinusoid (Cmult (RtoC c) A) z k = c * sinusoid A z k.
Proof. unfold sinusoid, Re. cbn. ring. Qed.
Lemma power_settles z ws : Cmod z = 1 -> forall As (y : nat -> list R), length As = length ws -> (forall k, length (y k) = length ws) ->
  (forall i, (i < length ws)%nat -> settles (channel_of i y) (sinusoid (nth i As (RtoC 0)) z)) ->
  settles (fun k => weighted_power ws (y k)) (fun k => mean_power ws As + sinusoid (second_harmonic ws As) (Cmult z z) k).
Proof.
  intros Hz. induction ws as [|w ws IH]; intros [|A As] y L HL H; cbn [length] in *; try lia.
  - cbn [mean_power second_harmonic]. eapply settles_ext; [| |apply (settles_refl (fun _ => 0))]; intros k; cbv beta; [reflexivity|].
    unfold sinusoid. rewrite Cmult_0_l. unfold Re. cbn. ring.
  - set (t := fun k => tl (y k)).
    assert (Ht : forall k, length (t k) = length ws). { intros k. unfold t. specialize (HL k). destruct (y k); cbn in *; lia. }
    assert (Hi : forall i, (i < length ws)%nat -> settles (channel_of i t) (sinusoid (nth i As (RtoC 0)) z)).
    { intros i Hi. specialize (H (S i) ltac:(lia)). cbn [nth] in H. eapply settles_ext; [| |exact H]; intros k; [|reflexivity].
      unfold channel_of, t. destruct (y k); [destruct i|]; reflexivity. }
    specialize (IH As t ltac:(lia) Ht Hi). specialize (H 0%nat ltac:(lia)). cbn [nth] in H.
    pose proof (settles_square _ _ (Cmod A) (fun k => sinusoid_bounded A z k Hz) H) as S2.
    apply (settles_scal w) in S2. eapply settles_ext; [| |exact (settles_plus _ _ _ _ S2 IH)]; intros k; cbv beta.
    + unfold t, channel_of. specialize (HL k). destruct (y k) as [|v fr]; [cbn in HL; lia|]. cbn [nth tl weighted_power]. ring.
    + cbn [mean_power second_harmonic]. rewrite sinusoid_plus, sinusoid_scal, sinusoid_square by exact Hz. ring.
Qed.
Lemma solves_plus c x y x' y' : solves c x y -> solves c x' y' -> solves c (fun k => x k + x' k) (fun k => y k + y' k).
Proof. intros H H' n. specialize (H n). specialize (H' n). lra. Qed.
Lemma first_order_stable t fs : 0 < t * fs -> stable (first_order_lowpass t fs) /\ 0 < first_order_coefficient t fs < 1.
Proof.
  intros H. unfold first_order_lowpass. set (c := first_order_coefficient t fs).
  assert (Hc : 0 < c < 1).
  { subst c. unfold first_order_coefficient. pose proof (exp_pos (-1 / (t * fs))).
    assert (exp (-1 / (t * fs)) < exp 0) by (apply exp_increasing; assert (0 < / (t * fs)) by (apply Rinv_0_lt_compat, H); unfold Rdiv; lra).
    rewrite exp_0 in *. lra. }
  split; [|exact Hc]. split; [cbn; lra|]. intros z E. unfold denominator in E. cbn in E.
  assert (E1 : (z * (z + RtoC (c - 1)) = RtoC 0)%C) by (rewrite <- E; ring).
  destruct (Ceq_dec z (RtoC 0)) as [->|N]; [rewrite Cmod_0; lra|].
  assert (E2 : (z + RtoC (c - 1) = RtoC 0)%C). { transitivity (/ z * (z * (z + RtoC (c - 1))))%C; [field; exact N|]. rewrite E1. ring. }
  assert (E3 : z = RtoC (1 - c)). { transitivity ((z + RtoC (c - 1)) + RtoC (1 - c))%C; [apply injective_projections; cbn; ring|]. rewrite E2. ring. }
  rewrite E3, Cmod_R, Rabs_right; lra.
Qed.
Lemma tone_average t fs ws (y : nat -> list R) p z As h2 : 0 < t * fs -> Cmod z = 1 -> has_value (first_order_lowpass t fs) (Cmult z z) h2 ->
  length As = length ws -> (forall k, length (y k) = length ws) ->
  (forall i, (i < length ws)%nat -> settles (channel_of i y) (sinusoid (nth i As (RtoC 0)) z)) ->
  solves (first_order_lowpass t fs) (fun k => weighted_power ws (y k)) p ->
  settles p (fun k => mean_power ws As + sinusoid (Cmult h2 (second_harmonic ws As)) (Cmult z z) k).
Proof.
  intros Ht Hz V L HL H Sp. destruct (first_order_stable t fs Ht) as [St _].
  pose proof (power_settles z ws Hz As y L HL H) as D.
  refine (solves_settles (first_order_lowpass t fs) _ p (fun k => mean_power ws As + sinusoid (second_harmonic ws As) (Cmult z z) k) (fun k => mean_power ws As + sinusoid (Cmult h2 (second_harmonic ws As)) (Cmult z z) k) St Sp _ D).
  apply (solves_plus (first_order_lowpass t fs) (fun _ => mean_power ws As) (fun _ => mean_power ws As)).
  - intros n. cbn. ring.
  - apply sinusoid_solves; [|exact V]. intros E. assert (Cmod (Cmult z z) = 0) by (rewrite E; apply Cmod_0). rewrite Cmod_mult, Hz in *. lra.
Qed.
