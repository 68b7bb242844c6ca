(* C39: the phasor rotator generates cosine and sine. *)
From Verif Require Import Common RealUtil PhasorModel.
From Coq Require Import Rtrigo1 Lia Lra.
Local Open Scope R_scope.

(* One step from phase a and amplitude A. *)
Lemma phasor_next_polar rho th A a c : 0 < rho -> 0 < A ->
  phasor_next (mkPhasor (rho * cos th, rho * sin th) (A * cos a, A * sin a) c) =
  Ok (if (1000 <=? c + 1)%Z
      then mkPhasor (rho * cos th, rho * sin th) (cos (a + th), sin (a + th)) 0
      else mkPhasor (rho * cos th, rho * sin th) (rho * A * cos (a + th), rho * A * sin (a + th)) (c + 1)).
Proof.
  intros Hr HA. unfold phasor_next. cbn [ph_rot ph_ph ph_count].
  replace (rho * cos th * (A * cos a) - rho * sin th * (A * sin a)) with (rho * A * cos (a + th)) by (rewrite cos_plus; ring).
  replace (rho * sin th * (A * cos a) + rho * cos th * (A * sin a)) with (rho * A * sin (a + th)) by (rewrite sin_plus; ring).
  destruct (1000 <=? c + 1)%Z; [|reflexivity].
  unfold phasor_renormalize. cbn [ph_rot ph_ph].
  assert (P : 0 < rho * A) by (apply Rmult_lt_0_compat; assumption).
  replace (rho * A * cos (a + th) * (rho * A * cos (a + th)) + rho * A * sin (a + th) * (rho * A * sin (a + th)))
    with (Rsqr (rho * A)).
  - rewrite sqrt_Rsqr by lra. destruct (Reqb_spec (rho * A) 0) as [E|E]; [lra|]. cbn [negb oguard].
    f_equal. f_equal. f_equal; field; split; lra.
  - pose proof (sin2_cos2 (a + th)) as S. unfold Rsqr in *.
    transitivity (rho * A * (rho * A) * (sin (a + th) * sin (a + th) + cos (a + th) * cos (a + th))); [rewrite S; ring|ring].
Qed.

(* n steps: with a rotator of any magnitude rho > 0 (as left by rounding) the
   phase is exactly n theta, the amplitude rho^(n mod 1000): renormalisation
   every 1000 samples removes the drift, and never divides by zero. *)
Theorem C39_amplitude_drift rho th n : 0 < rho ->
  phasor_steps n (mkPhasor (rho * cos th, rho * sin th) (1, 0) 0) =
  Ok (mkPhasor (rho * cos th, rho * sin th)
        (rho ^ Nat.modulo n 1000 * cos (INR n * th), rho ^ Nat.modulo n 1000 * sin (INR n * th))
        (Z.of_nat n mod 1000)).
Proof.
  intros Hr. induction n as [|n IH].
  - cbn [phasor_steps]. change (Nat.modulo 0 1000) with 0%nat. cbn [pow INR]. rewrite Rmult_0_l, cos_0, sin_0.
    rewrite Zmod_0_l. repeat f_equal; ring.
  - cbn [phasor_steps]. rewrite IH. cbn [obind].
    assert (P : 0 < rho ^ Nat.modulo n 1000) by (apply pow_lt; exact Hr).
    rewrite phasor_next_polar by assumption.
    replace (INR n * th + th) with (INR (S n) * th) by (rewrite S_INR; ring).
    pose proof (Nat.div_mod n 1000 ltac:(lia)) as D.
    pose proof (Nat.mod_upper_bound n 1000 ltac:(lia)) as B.
    assert (ZM : (Z.of_nat n mod 1000 = Z.of_nat (Nat.modulo n 1000))%Z) by (rewrite Nat2Z.inj_mod; reflexivity).
    rewrite ZM. set (r := Nat.modulo n 1000) in *. set (q := Nat.div n 1000) in *. clearbody r q.
    destruct (Z.leb_spec 1000 (Z.of_nat r + 1)) as [L|L].
    + assert (r = 999)%nat by lia.
      assert (M : Nat.modulo (S n) 1000 = 0%nat).
      { symmetry. apply (Nat.mod_unique (S n) 1000 (S q)); lia. }
      assert (MZ : (Z.of_nat (S n) mod 1000 = 0)%Z) by (change 1000%Z with (Z.of_nat 1000); rewrite <- Nat2Z.inj_mod, M; reflexivity).
      rewrite M, MZ. cbn [pow]. repeat f_equal; ring.
    + assert (M : Nat.modulo (S n) 1000 = S r).
      { symmetry. apply (Nat.mod_unique (S n) 1000 q); lia. }
      assert (MZ : (Z.of_nat (S n) mod 1000 = Z.of_nat r + 1)%Z) by (change 1000%Z with (Z.of_nat 1000); rewrite <- Nat2Z.inj_mod, M; lia).
      rewrite M, MZ. cbn [pow]. reflexivity.
Qed.
Print Assumptions C39_amplitude_drift.

(* After Init(f, fs) and n calls of Next the oscillator reads cos and sin of
   2 pi f n / fs. *)
Theorem C39_oscillator f fs n : fs <> 0 ->
  exists o, obind (phasor_init f fs) (phasor_steps n) = Ok o /\
    phasor_cos o = cos (2 * PI * f * INR n / fs) /\ phasor_sin o = sin (2 * PI * f * INR n / fs).
Proof.
  intros H. unfold phasor_init. destruct (Reqb_spec fs 0) as [E|E]; [contradiction|]. cbn [negb oguard obind].
  pose proof (C39_amplitude_drift 1 (2 * PI * f / fs) n ltac:(lra)) as D. rewrite !Rmult_1_l in D.
  rewrite D. eexists. split; [reflexivity|]. unfold phasor_cos, phasor_sin. cbn [ph_ph fst snd].
  rewrite pow1, !Rmult_1_l. replace (INR n * (2 * PI * f / fs)) with (2 * PI * f * INR n / fs) by (field; exact H).
  split; reflexivity.
Qed.
Print Assumptions C39_oscillator.

(* Unit amplitude at all times, and exact periodicity: after n samples holding a
   whole number k of periods the oscillator is back at (1, 0). *)
Theorem C39_period f fs n k o : fs <> 0 -> f * INR n = INR k * fs ->
  obind (phasor_init f fs) (phasor_steps n) = Ok o -> phasor_cos o = 1 /\ phasor_sin o = 0.
Proof.
  intros H E R. destruct (C39_oscillator f fs n H) as (o' & R' & C & S). rewrite R in R'. injection R' as <-.
  assert (X : 2 * PI * f * INR n / fs = 0 + 2 * INR k * PI).
  { transitivity (2 * PI * (f * INR n) / fs); [field; exact H|]. rewrite E. field. exact H. }
  rewrite X in C, S. rewrite cos_period, cos_0 in C. rewrite sin_period, sin_0 in S. split; assumption.
Qed.
Print Assumptions C39_period.

(* 1 kHz at 8 kHz, one period. *)
Example C39_example : 8000 <> 0 /\ 1000 * INR 8 = INR 1 * 8000 /\
  exists o, obind (phasor_init 1000 8000) (phasor_steps 2) = Ok o /\ phasor_cos o = 0 /\ phasor_sin o = 1.
Proof.
  split; [lra|]. split; [cbn; lra|]. destruct (C39_oscillator 1000 8000 2 ltac:(lra)) as (o & R & C & S).
  exists o. split; [exact R|]. replace (2 * PI * 1000 * INR 2 / 8000) with (PI / 2) in C, S by (cbn; field).
  rewrite cos_PI2 in C. rewrite sin_PI2 in S. split; assumption.
Qed.
Print Assumptions C39_example.
