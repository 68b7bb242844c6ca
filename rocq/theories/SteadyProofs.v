From Verif Require Import Common ListLemmas Mealy RealUtil BiquadModel BiquadSpec BiquadProofs DesignSpec CascadeSpec SteadySpec.
From Coq Require Import Lra Psatz Lia Reals RealField.
From Coquelicot Require Import Coquelicot.
Local Open Scope R_scope.

(* ---- contractions ---- *)
Lemma decay_bound (m g : nat -> R) rho B : 0 <= rho < 1 -> 0 <= B -> (forall n, m (S n) <= rho * m n + g n) -> (forall n, g n <= B) ->
  0 <= m 0%nat -> forall n, m n <= rho ^ n * m 0%nat + B / (1 - rho).
Proof.
  intros R1 HB H G M0. assert (D : 0 <= B / (1 - rho)) by (apply Rmult_le_pos; [lra|apply Rlt_le, Rinv_0_lt_compat; lra]).
  assert (E : rho * (B / (1 - rho)) + B = B / (1 - rho)) by (field; lra).
  induction n as [|n IH]; [cbn; lra|]. eapply Rle_trans; [apply H|]. specialize (G n). cbn [pow].
  apply Rle_trans with (rho * (rho ^ n * m 0%nat + B / (1 - rho)) + B); [|lra].
  apply Rplus_le_compat; [apply Rmult_le_compat_l; lra|assumption].
Qed.
Lemma decay (m g : nat -> R) rho : 0 <= rho < 1 -> (forall n, 0 <= m n) -> (forall n, m (S n) <= rho * m n + g n) ->
  is_lim_seq g 0 -> is_lim_seq m 0.
Proof.
  intros R1 P H G. apply is_lim_seq_spec. intros eps. apply is_lim_seq_spec in G.
  assert (E1 : 0 < eps * (1 - rho) / 2) by (pose proof (cond_pos eps); apply Rmult_lt_0_compat; [apply Rmult_lt_0_compat|]; lra).
  destruct (G (mkposreal _ E1)) as [N HN]. cbn in HN.
  assert (Q : forall k, m (N + k)%nat <= rho ^ k * m N + eps / 2).
  { intros k. pose proof (decay_bound (fun k => m (N + k)%nat) (fun k => g (N + k)%nat) rho (eps * (1 - rho) / 2) R1 ltac:(lra)) as D.
    cbv beta in D. specialize (D ltac:(intros n; rewrite Nat.add_succ_r; apply H)).
    assert (D1 : forall n, g (N + n)%nat <= eps * (1 - rho) / 2).
    { intros n. specialize (HN (N + n)%nat ltac:(lia)). rewrite Rminus_0_r in HN. pose proof (Rle_abs (g (N + n)%nat)). lra. }
    specialize (D D1 (P _) k). rewrite Nat.add_0_r in D. replace (eps * (1 - rho) / 2 / (1 - rho)) with (eps / 2) in D by (field; lra). exact D. }
  assert (L : is_lim_seq (fun k => rho ^ k * m N) 0).
  { replace (Finite 0) with (Rbar_mult 0 (m N)) by (cbn; f_equal; ring). apply is_lim_seq_scal_r. apply is_lim_seq_geom. rewrite Rabs_right; lra. }
  apply is_lim_seq_spec in L. assert (E2 : 0 < eps / 2) by (pose proof (cond_pos eps); lra). destruct (L (mkposreal _ E2)) as [K HK]. cbn in HK.
  exists (N + K)%nat. intros n Hn. replace n with (N + (n - N))%nat by lia. specialize (Q (n - N)%nat). specialize (HK (n - N)%nat ltac:(lia)).
  rewrite Rminus_0_r in *. pose proof (Rle_abs (rho ^ (n - N) * m N)). rewrite Rabs_right by (apply Rle_ge, P). lra.
Qed.
Lemma decay_bounded (m g : nat -> R) rho : 0 <= rho < 1 -> (forall n, 0 <= m n) -> (forall n, m (S n) <= rho * m n + g n) ->
  (exists B, forall n, g n <= B) -> exists M, forall n, m n <= M.
Proof.
  intros R1 P H [B G]. exists (m 0%nat + Rmax 0 B / (1 - rho)). intros n.
  eapply Rle_trans; [apply (decay_bound m g rho (Rmax 0 B) R1 (Rmax_l _ _) H)|].
  - intros k. eapply Rle_trans; [apply G|apply Rmax_r].
  - apply P.
  - apply Rplus_le_compat_r. assert (0 <= rho ^ n <= 1). { split; [apply pow_le; lra|]. rewrite <- (pow1 n). apply pow_incr. lra. }
    pose proof (P 0%nat). nra.
Qed.

(* ---- the poles of a stable section ---- *)
Lemma quadratic_roots (p q : R) : exists z1 z2 : C, (RtoC p = - (z1 + z2))%C /\ (RtoC q = z1 * z2)%C /\
  (RtoC 1 * z1 * z1 + RtoC p * z1 + RtoC q = RtoC 0)%C /\ (RtoC 1 * z2 * z2 + RtoC p * z2 + RtoC q = RtoC 0)%C.
Proof.
  destruct (Rle_or_lt 0 (p * p - 4 * q)) as [D|D].
  - set (s := sqrt (p * p - 4 * q)). assert (S : s * s = p * p - 4 * q) by (apply sqrt_sqrt; assumption).
    exists (RtoC ((- p + s) / 2)), (RtoC ((- p - s) / 2)). clearbody s.
    split; [|split; [|split]]; apply injective_projections; cbn; nra.
  - set (s := sqrt (4 * q - p * p)). assert (S : s * s = 4 * q - p * p) by (apply sqrt_sqrt; lra).
    exists ((- p / 2), (s / 2)), ((- p / 2), (- s / 2)). clearbody s.
    split; [|split; [|split]]; apply injective_projections; cbn; nra.
Qed.
Lemma stable_poles c : stable c -> exists z1 z2 : C, (RtoC (a1 c / a0 c) = - (z1 + z2))%C /\ (RtoC (a2 c / a0 c) = z1 * z2)%C /\ Cmod z1 < 1 /\ Cmod z2 < 1.
Proof.
  intros [N St]. destruct (quadratic_roots (a1 c / a0 c) (a2 c / a0 c)) as (z1 & z2 & A & B & E1 & E2). exists z1, z2.
  assert (K : forall z, (RtoC 1 * z * z + RtoC (a1 c / a0 c) * z + RtoC (a2 c / a0 c) = RtoC 0)%C -> Cmod z < 1).
  { intros z E. apply St. unfold denominator.
    transitivity (RtoC (a0 c) * (RtoC 1 * z * z + RtoC (a1 c / a0 c) * z + RtoC (a2 c / a0 c)))%C.
    - rewrite !RtoC_div by assumption. field. intros Q. apply N. now apply RtoC_inj in Q.
    - rewrite E. ring. }
  auto.
Qed.

(* ---- solutions of the recursion with a vanishing or bounded drive ---- *)
Section Recursion.
Variables (c : coeffs R) (e g : nat -> R).
Hypothesis st : stable c.
Hypothesis rec : forall n, a0 c * e (S (S n)) + a1 c * e (S n) + a2 c * e n = g n.
Lemma rec_split : exists z1 z2 : C, Cmod z1 < 1 /\ Cmod z2 < 1 /\
  let d := fun n => (RtoC (e (S n)) - z1 * RtoC (e n))%C in
  (forall n, Rabs (e (S n)) <= Cmod z1 * Rabs (e n) + Cmod (d n)) /\
  (forall n, Cmod (d (S n)) <= Cmod z2 * Cmod (d n) + Rabs (/ a0 c) * Rabs (g n)).
Proof.
  destruct (stable_poles c st) as (z1 & z2 & A & B & M1 & M2). exists z1, z2. split; [assumption|]. split; [assumption|]. cbv zeta. split; intros n.
  - rewrite <- !Cmod_R, <- Cmod_mult. replace (RtoC (e (S n))) with (z1 * RtoC (e n) + (RtoC (e (S n)) - z1 * RtoC (e n)))%C at 1 by ring. apply Cmod_triangle.
  - destruct st as [N _].
    assert (E : (RtoC (e (S (S n))) - z1 * RtoC (e (S n)) = z2 * (RtoC (e (S n)) - z1 * RtoC (e n)) + RtoC (/ a0 c * g n))%C).
    { rewrite <- rec. replace (/ a0 c * (a0 c * e (S (S n)) + a1 c * e (S n) + a2 c * e n)) with (e (S (S n)) + a1 c / a0 c * e (S n) + a2 c / a0 c * e n) by (field; assumption).
      rewrite !RtoC_plus, !RtoC_mult, A, B. ring. }
    rewrite E. eapply Rle_trans; [apply Cmod_triangle|]. rewrite Cmod_mult, Cmod_R, Rabs_mult. lra.
Qed.
Lemma rec_vanishes : is_lim_seq g 0 -> is_lim_seq e 0.
Proof.
  intros G. destruct rec_split as (z1 & z2 & M1 & M2 & H1 & H2). cbv zeta in *. pose proof (Cmod_ge_0 z1). pose proof (Cmod_ge_0 z2).
  apply is_lim_seq_abs_0. apply (decay (fun n => Rabs (e n)) (fun n => Cmod (RtoC (e (S n)) - z1 * RtoC (e n))%C) (Cmod z1)).
  - lra.
  - intros n. apply Rabs_pos.
  - exact H1.
  - apply (decay (fun n => Cmod (RtoC (e (S n)) - z1 * RtoC (e n))%C) (fun n => Rabs (/ a0 c) * Rabs (g n)) (Cmod z2)).
    + lra.
    + intros n. apply Cmod_ge_0.
    + exact H2.
    + replace (Finite 0) with (Rbar_mult (Rabs (/ a0 c)) 0) by (cbn; f_equal; ring). apply is_lim_seq_scal_l. apply (proj1 (is_lim_seq_abs_0 g)), G.
Qed.
Lemma rec_bounded : stays_bounded g -> stays_bounded e.
Proof.
  intros [B G]. destruct rec_split as (z1 & z2 & M1 & M2 & H1 & H2). cbv zeta in *. pose proof (Cmod_ge_0 z1). pose proof (Cmod_ge_0 z2).
  apply (decay_bounded (fun n => Rabs (e n)) (fun n => Cmod (RtoC (e (S n)) - z1 * RtoC (e n))%C) (Cmod z1)).
  - lra.
  - intros n. apply Rabs_pos.
  - exact H1.
  - apply (decay_bounded (fun n => Cmod (RtoC (e (S n)) - z1 * RtoC (e n))%C) (fun n => Rabs (/ a0 c) * Rabs (g n)) (Cmod z2)).
    + lra.
    + intros n. apply Cmod_ge_0.
    + exact H2.
    + exists (Rabs (/ a0 c) * B). intros n. apply Rmult_le_compat_l; [apply Rabs_pos|apply G].
Qed.
End Recursion.

(* ---- one channel of one section ---- *)
Lemma first_S {A} (x : nat -> A) k : map x (seq 0 (S k)) = map x (seq 0 k) ++ x k :: nil.
Proof. rewrite seq_S, map_app. reflexivity. Qed.
(* the state before sample k and output k of any machine *)
Section Stream.
Context {T A B : Type} (step : T -> A -> T * B) (s : T) (x : nat -> A).
Fixpoint state_at (k : nat) : T := match k with O => s | S k' => fst (step (state_at k') (x k')) end.
Definition output_at (k : nat) : B := snd (step (state_at k) (x k)).
Lemma scan_stream k : scan step s (map x (seq 0 k)) = (state_at k, map output_at (seq 0 k)).
Proof.
  induction k as [|k IH]; [reflexivity|]. rewrite !first_S, scan_app, IH. cbn [fst snd scan state_at]. reflexivity.
Qed.
End Stream.
Lemma chain_stream {T A} (step : T -> A -> T * A) ss (x : nat -> A) k :
  chain_scan step ss (map x (seq 0 k)) = (state_at (chain step) ss x k, map (output_at (chain step) ss x) (seq 0 k)).
Proof. rewrite <- scan_chain. apply scan_stream. Qed.

Lemma difference_nth c : forall x y x1 x2 y1 y2, difference_equation Rplus Rminus Rmult c x1 x2 y1 y2 x y -> forall n, (S (S n) < length x)%nat ->
  a0 c * nth (S (S n)) y 0 = b0 c * nth (S (S n)) x 0 + b1 c * nth (S n) x 0 + b2 c * nth n x 0 - a1 c * nth (S n) y 0 - a2 c * nth n y 0.
Proof.
  induction x as [|u x IH]; intros y x1 x2 y1 y2 H n Hn; [cbn in Hn; lia|]. destruct y as [|v y]; [contradiction|]. cbn [difference_equation] in H.
  destruct H as [_ H]. destruct n as [|n].
  - destruct x as [|u1 x]; [cbn in Hn; lia|]. destruct y as [|v1 y]; [contradiction|]. cbn [difference_equation] in H. destruct H as [_ H].
    destruct x as [|u2 x]; [cbn in Hn; lia|]. destruct y as [|v2 y]; [contradiction|]. cbn [difference_equation] in H. destruct H as [H _]. cbn [nth]. exact H.
  - assert (Hx : (S (S n) < length x)%nat) by (cbn in Hn; lia). exact (IH y u x1 v y1 H n Hx).
Qed.
Definition solves (c : coeffs R) (x y : nat -> R) : Prop := forall n,
  a0 c * y (S (S n)) + a1 c * y (S n) + a2 c * y n = b0 c * x (S (S n)) + b1 c * x (S n) + b2 c * x n.
Lemma prefixes_solve c (x y : nat -> R) : (forall k, filters 0 Rplus Rminus Rmult c (map x (seq 0 k)) (map y (seq 0 k))) -> solves c x y.
Proof.
  intros H n. pose proof (difference_nth c _ _ _ _ _ _ (H (S (S (S n)))) n) as D. rewrite map_length, seq_length in D. specialize (D ltac:(lia)).
  assert (K : forall (f : nat -> R) i, (i < S (S (S n)))%nat -> nth i (map f (seq 0 (S (S (S n))))) 0 = f i).
  { intros f i Hi. rewrite (nth_map_lt f _ i 0%nat) by (rewrite seq_length; exact Hi). rewrite seq_nth by exact Hi. reflexivity. }
  rewrite !K in D by lia. lra.
Qed.
Lemma powC_S z k : powC z (S k) = (z * powC z k)%C.
Proof. reflexivity. Qed.
Lemma sinusoid_solves c A z h : z <> RtoC 0 -> has_value c z h -> solves c (sinusoid A z) (sinusoid (Cmult h A) z).
Proof.
  intros Nz [D V] n. unfold sinusoid. rewrite !powC_S. set (P := (A * powC z n)%C).
  assert (E : (denominator c z * h = numerator c z)%C) by (rewrite <- V; field; exact D).
  assert (F : (RtoC (a0 c) * (h * A * (z * (z * powC z n))) + RtoC (a1 c) * (h * A * (z * powC z n)) + RtoC (a2 c) * (h * A * powC z n) =
              RtoC (b0 c) * (A * (z * (z * powC z n))) + RtoC (b1 c) * (A * (z * powC z n)) + RtoC (b2 c) * (A * powC z n))%C).
  { transitivity (denominator c z * h * P)%C; [unfold denominator, P; ring|]. rewrite E. unfold numerator, P. ring. }
  assert (L : forall (r : R) (w : C), r * Re w = Re (RtoC r * w)%C) by (intros r w; unfold Re; cbn; ring).
  assert (L2 : forall u v w : C, Re u + Re v + Re w = Re (u + v + w)%C) by (intros; reflexivity).
  rewrite !L, !L2. f_equal. exact F.
Qed.
Lemma solves_settles c x y x' y' : stable c -> solves c x y -> solves c x' y' -> settles x x' -> settles y y'.
Proof.
  intros St H H' D. unfold settles in *.
  assert (D1 : forall j, is_lim_seq (fun k => x (j + k)%nat - x' (j + k)%nat) 0).
  { intros j. apply (is_lim_seq_incr_n (fun k => x k - x' k) j 0) in D. eapply is_lim_seq_ext; [|exact D]. intros k. cbv beta. now rewrite (Nat.add_comm k j). }
  apply (rec_vanishes c (fun k => y k - y' k) (fun k => b0 c * (x (2 + k)%nat - x' (2 + k)%nat) + b1 c * (x (1 + k)%nat - x' (1 + k)%nat) + b2 c * (x (0 + k)%nat - x' (0 + k)%nat))).
  - exact St.
  - intros n. specialize (H n). specialize (H' n). cbn [Nat.add]. lra.
  - assert (S : forall j b, is_lim_seq (fun k => b * (x (j + k)%nat - x' (j + k)%nat)) 0).
    { intros j b. replace (Finite 0) with (Rbar_mult b 0) by (cbn; f_equal; ring). apply is_lim_seq_scal_l, D1. }
    replace 0 with (0 + 0 + 0) by ring. apply is_lim_seq_plus'; [apply is_lim_seq_plus'|]; apply S.
Qed.
Lemma solves_bounded c x y : stable c -> solves c x y -> stays_bounded x -> stays_bounded y.
Proof.
  intros St H [B HB].
  apply (rec_bounded c y (fun k => b0 c * x (S (S k)) + b1 c * x (S k) + b2 c * x k) St); [intros n; apply H|].
  exists (Rabs (b0 c) * B + Rabs (b1 c) * B + Rabs (b2 c) * B). intros k.
  eapply Rle_trans; [apply Rabs_triang|]. apply Rplus_le_compat; [eapply Rle_trans; [apply Rabs_triang|]; apply Rplus_le_compat|];
    rewrite Rabs_mult; (apply Rmult_le_compat_l; [apply Rabs_pos|apply HB]).
Qed.

(* ---- cascades, on whole signals of one channel ---- *)
Fixpoint cascade_solves (cs : list (coeffs R)) (x y : nat -> R) : Prop :=
  match cs with
  | nil => forall n, x n = y n
  | c :: r => exists w, solves c x w /\ cascade_solves r w y
  end.
Lemma cascade_settles cs : forall x y A z h, List.Forall stable cs -> z <> RtoC 0 -> cascade_solves cs x y -> cascade_value cs z h ->
  settles x (sinusoid A z) -> settles y (sinusoid (Cmult h A) z).
Proof.
  induction cs as [|c cs IH]; intros x y A z h F Nz H V D.
  - cbn in H, V. subst h. unfold settles in *. eapply is_lim_seq_ext; [|exact D]. intros k. cbv beta. rewrite H. unfold sinusoid. rewrite Cmult_1_l. reflexivity.
  - cbn in H, V. destruct H as (w & H1 & H2). destruct V as (h1 & h2 & V1 & V2 & ->). inversion F; subst.
    replace (Cmult (Cmult h1 h2) A) with (Cmult h2 (Cmult h1 A)) by ring. apply (IH w y (Cmult h1 A) z h2); auto.
    exact (solves_settles c x w _ _ H3 H1 (sinusoid_solves c A z h1 Nz V1) D).
Qed.
Lemma cascade_forgets cs : forall x y x' y', List.Forall stable cs -> cascade_solves cs x y -> cascade_solves cs x' y' -> settles x x' -> settles y y'.
Proof.
  induction cs as [|c cs IH]; intros x y x' y' F H H' D.
  - cbn in H, H'. unfold settles in *. eapply is_lim_seq_ext; [|exact D]. intros k. cbv beta. now rewrite H, H'.
  - destruct H as (w & H1 & H2). destruct H' as (w' & H1' & H2'). inversion F; subst. apply (IH w y w' y'); auto. exact (solves_settles c x w x' w' H3 H1 H1' D).
Qed.
Lemma cascade_bounded cs : forall x y, List.Forall stable cs -> cascade_solves cs x y -> stays_bounded x -> stays_bounded y.
Proof.
  induction cs as [|c cs IH]; intros x y F H [B D].
  - cbn in H. exists B. intros k. now rewrite <- H.
  - destruct H as (w & H1 & H2). inversion F; subst. apply (IH w y); auto. apply (solves_bounded c x w); auto. now exists B.
Qed.

(* ---- the model ---- *)
Notation rinit := (biquad_init 0 1 Rmult Rdiv (fun x => Reqb x 0)).
Notation rcinit := (cascade_init 0 1 Rmult Rdiv (fun x => Reqb x 0)).
Notation rcblock := (cascade_block Rplus Rminus Rmult).
Notation rpure := (pure_sample Rplus Rminus Rmult).
Lemma Rfield_thy : field_theory 0 1 Rplus Rmult Rminus Ropp Rdiv Rinv (@eq R).
Proof. exact Rfield. Qed.
Lemma stage_solves n c f x : rinit n c = Ok f -> (forall k, length (x k) = n) -> forall i, (i < n)%nat ->
  solves c (fun k => nth i (x k) 0) (fun k => nth i (output_at rpure f x k) 0).
Proof.
  intros HI HL i Hi. apply prefixes_solve. intros k.
  destruct (init_inv 0 1 Rmult Rdiv _ n c f HI) as (Hn & HZ & HW & _ & _ & _ & _ & _ & HR).
  assert (HF : List.Forall (fun fr => length fr = n) (map x (seq 0 k))) by (apply Forall_forall; intros fr Hfr; apply in_map_iff in Hfr as (j & <- & _); apply HL).
  destruct (channel_scan 0 Rplus Rminus Rmult n i (map x (seq 0 k)) f HW HF Hi) as [_ E].
  rewrite scan_stream in E. cbn [snd] in E. unfold channel in E. rewrite !map_map in E. rewrite E, HR, nth_repeat.
  exact (init_filters 0 1 Rplus Rmult Rminus Ropp Rdiv Rinv Rfield (fun x => Reqb x 0) (fun x => Reqb_true_iff x 0) n c f _ HI).
Qed.
Lemma stage_length n c f x : rinit n c = Ok f -> (forall k, length (x k) = n) -> forall k, length (output_at rpure f x k) = n.
Proof.
  intros HI HL k. destruct (init_inv 0 1 Rmult Rdiv _ n c f HI) as (Hn & HZ & HW & _).
  assert (W : forall j, wf n (state_at rpure f x j)).
  { induction j as [|j IH]; [exact HW|]. cbn [state_at]. destruct (sample_ok Rplus Rminus Rmult n (state_at rpure f x j) (x j) Hn IH (HL j)) as (_ & W & _). exact W. }
  unfold output_at. destruct (sample_ok Rplus Rminus Rmult n (state_at rpure f x k) (x k) Hn (W k) (HL k)) as (_ & _ & L). exact L.
Qed.
(* the output of a chain, stage by stage *)
Lemma chain_outputs {T A} (step : T -> A -> T * A) s r (x : nat -> A) k :
  output_at (chain step) (s :: r) x k = output_at (chain step) r (output_at step s x) k.
Proof.
  assert (S : forall k, state_at (chain step) (s :: r) x k = state_at step s x k :: state_at (chain step) r (output_at step s x) k).
  { induction k0 as [|j IH]; [reflexivity|]. cbn [state_at]. rewrite IH. cbn [chain fst snd]. reflexivity. }
  unfold output_at at 1. rewrite S. cbn [chain snd]. reflexivity.
Qed.
Lemma chain_nil_output {T A} (step : T -> A -> T * A) (x : nat -> A) k : output_at (chain step) nil x k = x k.
Proof.
  unfold output_at. assert (S : state_at (chain step) nil x k = nil) by (induction k as [|j IH]; [reflexivity|cbn [state_at]; now rewrite IH]). now rewrite S.
Qed.
Lemma chain_solves n cs : forall fs x, Forall2 (fun c f => rinit n c = Ok f) cs fs -> (forall k, length (x k) = n) -> forall i, (i < n)%nat ->
  cascade_solves cs (fun k => nth i (x k) 0) (fun k => nth i (output_at (chain rpure) fs x k) 0).
Proof.
  induction cs as [|c cs IH]; intros fs x H2 HL i Hi; inversion H2 as [|? f ? fs' HI HR]; subst.
  - intros k. cbv beta. now rewrite chain_nil_output.
  - exists (fun k => nth i (output_at rpure f x k) 0). split; [exact (stage_solves n c f x HI HL i Hi)|].
    pose proof (IH fs' (output_at rpure f x) HR (stage_length n c f x HI HL) i Hi) as Q.
    assert (E : forall k, output_at (chain rpure) (f :: fs') x k = output_at (chain rpure) fs' (output_at rpure f x) k) by (intros; apply chain_outputs).
    revert Q. generalize (fun k => nth i (output_at rpure f x k) 0). intros w Q. clear -E Q.
    revert w Q. induction cs as [|c' cs IHc]; intros w Q.
    + cbn in *. intros k. rewrite E. apply Q.
    + destruct Q as (v & Q1 & Q2). exists v. split; [exact Q1|]. destruct cs; [|apply IHc; exact Q2]. cbn in *. intros k. rewrite E. apply Q2.
Qed.
Lemma cascade_stream n cs fs (x : nat -> list R) : rcinit n cs = Ok fs -> (forall k, length (x k) = n) ->
  exists y : nat -> list R,
    (forall blocks k, concat blocks = first_frames x k -> exists fs' outs, run rcblock fs blocks = Ok (fs', outs) /\ concat outs = first_frames y k) /\
    (forall i, (i < n)%nat -> cascade_solves cs (fun k => nth i (x k) 0) (fun k => nth i (y k) 0)).
Proof.
  intros HI HL. unfold cascade_init in HI. destruct ((1 <=? n) && (1 <=? length cs))%nat eqn:C; [|discriminate]. cbn [oguard] in HI.
  apply andb_prop in C as [C1 C2]. apply Nat.leb_le in C1, C2.
  pose proof (init_stages_inv 0 1 Rmult Rdiv _ n cs fs HI) as H2. exists (output_at (chain rpure) fs x). split; [|intros i Hi; exact (chain_solves n cs fs x H2 HL i Hi)].
  intros blocks k E.
  assert (HF : List.Forall (fun fr => length fr = n) (concat blocks)) by (rewrite E; apply Forall_forall; intros fr Hfr; apply in_map_iff in Hfr as (j & <- & _); apply HL).
  assert (HB : List.Forall (List.Forall (fun fr => length fr = n)) blocks).
  { apply Forall_forall. intros b Hb. apply Forall_forall. intros fr Hfr. rewrite Forall_forall in HF. apply HF. apply in_concat. exists b. auto. }
  assert (W : List.Forall (wf n) fs). { clear -H2. induction H2 as [|c f cs fs HI HR IH]; constructor; auto. destruct (init_inv 0 1 Rmult Rdiv _ n c f HI) as (_ & _ & W & _). exact W. }
  assert (L1 : (1 <= length fs)%nat). { replace (length fs) with (length cs); [assumption|]. clear -H2. induction H2; cbn; auto. }
  destruct (cascade_blocks_ok Rplus Rminus Rmult n fs blocks C1 L1 W HB) as (outs & R1 & R2 & _).
  eexists _, outs. split; [exact R1|]. rewrite R2, E. unfold first_frames. rewrite chain_stream. reflexivity.
Qed.
